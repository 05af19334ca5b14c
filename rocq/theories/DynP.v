(** Lemmas about inverse dynamics, the inertia matrix and the bias vector. *)
From Coq Require Import Reals String ZArith Bool Arith Lia Lra List.
From Verif Require Import Res ResP Vec VecP Sva SvaP Mat JointM MultiBodyM KinM DynM Spec JointP KinP MbP TreeP.
Import ListNotations.
Open Scope R_scope.

Ltac dflt T :=
  match T with
  | SV => constr:(sv0)
  | PT => constr:(ptid)
  | Joint => constr:(jd)
  | Body => constr:(bd)
  | RBI => constr:(rbi0)
  | R => constr:(0%R)
  | Z => constr:(0%Z)
  | nat => constr:(0%nat)
  | V3 => constr:(v0)
  | list ?A => constr:(@nil A)
  end.
Ltac side := rewrite ?upd_length; lia.
Ltac getstep :=
  match goal with
  | |- context [getz ?l (Z.of_nat ?i)] => rewrite (getz_nat l i)
  | |- context [setz ?l (Z.of_nat ?i) ?a] => rewrite (setz_nat l i a)
  | |- context [get (upd ?l ?i ?a) ?i] => rewrite (get_upd_eq l i a) by side
  | |- context [get ?l ?i] =>
      let T := type of l in
      match T with list ?A => let d := dflt A in rewrite (get_nth l i d) by side end
  | |- context [set ?l ?i ?a] => rewrite (set_ok l i a) by side
  end; cbn [bind].
Ltac gets := cbn [bind]; repeat getstep.
Ltac predcase W Hb :=
  match goal with
  | |- context [get (mb_pred ?mb) ?i] =>
      let Ep := fresh "Ep" in let Pp := fresh "Pp" in let p := fresh "p" in let Hp := fresh "Hp" in
      destruct (wf_get_pred mb i W Hb) as [[Ep Pp]|(p & Ep & Hp & Pp)]; rewrite Ep; cbn [bind];
      [ change (negb (-1 =? -1)%Z) with false; cbv iota
      | replace (negb (Z.of_nat p =? -1)%Z) with true by (destruct (Z.eqb_spec (Z.of_nat p) (-1)); [lia|reflexivity]);
        cbv iota ]
  end.

Lemma nth_map_seq {A} (v : nat -> A) n e d : (e < n)%nat -> nth e (map v (seq 0 n)) d = v e.
Proof.
  intros L. rewrite (nth_indep _ d (v 0%nat)) by (rewrite map_length, seq_length; lia).
  rewrite map_nth, seq_nth by lia. auto.
Qed.

Lemma nth_map_lt {A B} (f : A -> B) l i d d' : (i < length l)%nat -> nth i (map f l) d' = f (nth i l d).
Proof. intros L. rewrite (nth_indep _ d' (f d)) by (now rewrite map_length). apply map_nth. Qed.

(** All the sizes known from a well-shaped configuration. *)
Ltac mbclens W K :=
  pose proof (wf_joints _ W) as Ljs; pose proof (wf_pred_len _ W) as Lpred;
  pose proof (wf_Xt_len _ W) as LXt;
  pose proof (ok_q _ _ K) as Sq; pose proof (sized_length _ _ _ Sq) as Lq;
  pose proof (ok_alpha _ _ K) as Sa; pose proof (sized_length _ _ _ Sa) as La;
  pose proof (ok_alphaD _ _ K) as SaD; pose proof (sized_length _ _ _ SaD) as LaD;
  pose proof (ok_jointTorque _ _ K) as SjT; pose proof (sized_length _ _ _ SjT) as LjT;
  pose proof (ok_motionSubspace _ _ K) as Sms; pose proof (sized_length _ _ _ Sms) as Lms;
  pose proof (ok_force _ _ K) as Lforce; pose proof (ok_jointConfig _ _ K) as LjC;
  pose proof (ok_jointVelocity _ _ K) as LjV; pose proof (ok_bodyPosW _ _ K) as LbP;
  pose proof (ok_parentToSon _ _ K) as LpS; pose proof (ok_bodyVelW _ _ K) as LbVW;
  pose proof (ok_bodyVelB _ _ K) as LbVB; pose proof (ok_bodyAccB _ _ K) as LbA.

(** A loop filling coefficient after coefficient the row [i] of a vector of vectors. *)
Lemma fill_row {A} (dA : A) (body : nat -> list (list A) -> res (list (list A))) v i n (l : list (list A)) :
  (i < length l)%nat -> length (nth i l []) = n ->
  (forall d l', (d < n)%nat -> length l' = length l -> length (nth i l' []) = n ->
     body d l' = Ok (upd l' i (upd (nth i l' []) d (v d)))) ->
  for_up n body l = Ok (upd l i (map v (seq 0 n))).
Proof.
  intros L Ln Hb.
  destruct (for_up_inv (fun d l' => length l' = length l /\ length (nth i l' []) = n /\
      (forall k, k <> i -> nth k l' [] = nth k l []) /\
      (forall e, (e < d)%nat -> nth e (nth i l' []) dA = v e)) body n l) as (l' & E & L1 & L2 & H1 & H2).
  - repeat split; auto; try lia.
  - intros d l' Hd (L1 & L2 & H1 & H2). rewrite (Hb d l' Hd L1 L2). eexists; split; [reflexivity|].
    rewrite upd_length. rewrite nth_upd_eq by lia. rewrite upd_length. repeat split; auto.
    + intros k Hk. rewrite nth_upd_neq by auto. auto.
    + intros e He. destruct (Nat.eq_dec e d) as [->|]; [rewrite nth_upd_eq by lia; auto|].
      rewrite nth_upd_neq by auto. apply H2. lia.
  - rewrite E. f_equal. apply (list_ext_nth _ _ []).
    + now rewrite upd_length.
    + intros k Hk. destruct (Nat.eq_dec k i) as [->|].
      * rewrite nth_upd_eq by lia. apply (list_ext_nth _ _ dA).
        -- rewrite map_length, seq_length. lia.
        -- intros e He. rewrite nth_map_seq by lia. apply H2. lia.
      * rewrite nth_upd_neq by auto. auto.
Qed.

Lemma map_seq_nth {A B} (f : A -> B) (l : list A) d : map (fun i => f (nth i l d)) (seq 0 (length l)) = map f l.
Proof.
  transitivity (map f (map (fun i => nth i l d) (seq 0 (length l)))); [now rewrite map_map|]. f_equal.
  induction l; simpl; auto. f_equal. rewrite <- seq_shift, map_map. auto.
Qed.

Notation ptsn m := (fun i => nth i (parentToSon m) ptid).

(** The accumulating loop: one step adds the transported force of [i] to its parent. *)
Definition accI (mb : MultiBody) (X : nat -> PT) (f0 : nat -> SV) (i : nat) (f : list SV) : Prop :=
  length f = nrBodies mb /\
  (forall k, (k < nrBodies mb)%nat -> forall u,
     svdot (nth k f sv0) u = svdot (f0 k) u +
       rsum (nrBodies mb) (fun c => if (i <=? c)%nat && is_par (par mb) c k
                                    then svdot (nth c f sv0) (ptm (X c) u) else 0)).
Lemma accI_start mb X f : length f = nrBodies mb -> accI mb X (fun k => nth k f sv0) (nrBodies mb) f.
Proof.
  intros L. split; auto. intros k Hk u. rewrite rsum_eq0; [ring|]. intros c Hc.
  destruct (Nat.leb_spec (nrBodies mb) c); [lia|]. auto.
Qed.
Lemma accI_end mb X f0 f : accI mb X f0 0 f -> acc (nrBodies mb) (par mb) X f0 (fun k => nth k f sv0).
Proof. intros [_ H] i L u. rewrite H by auto. auto. Qed.
Lemma accI_step_none mb X f0 i f : (i < nrBodies mb)%nat -> par mb i = None -> accI mb X f0 (S i) f -> accI mb X f0 i f.
Proof.
  intros L P [L1 H]. split; auto. intros k Hk u. rewrite H by auto. f_equal. apply rsum_ext.
  intros c Hc. destruct (Nat.eq_dec c i) as [->|].
  - unfold is_par. rewrite P, !andb_false_r. auto.
  - destruct (Nat.leb_spec (S i) c), (Nat.leb_spec i c); auto; lia.
Qed.
Lemma accI_step_some mb X f0 i p f : (i < nrBodies mb)%nat -> (p < i)%nat -> par mb i = Some p -> accI mb X f0 (S i) f ->
  accI mb X f0 i (upd f p (svadd (nth p f sv0) (pttrans (X i) (nth i f sv0)))).
Proof.
  intros L Lp P [L1 H]. split; [now rewrite upd_length|]. intros k Hk u.
  set (f' := upd f p _).
  assert (Hc : forall c, c <> p -> nth c f' sv0 = nth c f sv0) by (intros; unfold f'; rewrite nth_upd_neq; auto).
  assert (E : rsum (nrBodies mb) (fun c => if (i <=? c)%nat && is_par (par mb) c k
                                    then svdot (nth c f' sv0) (ptm (X c) u) else 0) =
     rsum (nrBodies mb) (fun c => if (S i <=? c)%nat && is_par (par mb) c k
                                    then svdot (nth c f sv0) (ptm (X c) u) else 0) +
     (if Nat.eqb p k then svdot (nth i f sv0) (ptm (X i) u) else 0)).
  { transitivity (rsum (nrBodies mb) (fun c => (if (S i <=? c)%nat && is_par (par mb) c k
                                    then svdot (nth c f sv0) (ptm (X c) u) else 0) +
      (if Nat.eqb c i then (if Nat.eqb p k then svdot (nth c f sv0) (ptm (X c) u) else 0) else 0))).
    - apply rsum_ext. intros c Lc. destruct (Nat.eqb_spec c i) as [->|N].
      + rewrite Nat.leb_refl. destruct (Nat.leb_spec (S i) i); [lia|]. simpl. unfold is_par. rewrite P.
        destruct (Nat.eqb p k); rewrite ?Hc by lia; ring.
      + destruct (Nat.leb_spec i c), (Nat.leb_spec (S i) c); try lia; simpl; [|ring].
        rewrite Hc by lia. destruct (is_par (par mb) c k); ring.
    - rewrite rsum_plus. f_equal.
      rewrite (rsum_delta (nrBodies mb) i (fun c => if Nat.eqb p k then svdot (nth c f sv0) (ptm (X c) u) else 0)); auto. }
  rewrite E. destruct (Nat.eqb_spec p k) as [->|N].
  - unfold f' at 1. rewrite nth_upd_eq by lia. rewrite svdot_add_l, pttrans_adj. rewrite H by auto. ring.
  - rewrite Hc by auto. rewrite H by auto. ring.
Qed.

(** A later processed index keeps its force: the final value is the one read when
    processing it. *)
Lemma torques_ok mb m f : wf_mb mb -> length f = nrBodies mb ->
  length (parentToSon m) = nrBodies mb -> sized mb jdof (jointTorque m) -> sized mb jdof (motionSubspace m) ->
  exists f' m', computeJointTorques mb f m = Ok (f', m') /\
    m' = with_jointTorque (jointTorque m') m /\ length f' = nrBodies mb /\
    acc (nrBodies mb) (par mb) (ptsn m) (fun k => nth k f sv0) (fun k => nth k f' sv0) /\
    length (jointTorque m') = nrBodies mb /\
    (forall i, (i < nrBodies mb)%nat ->
       nth i (jointTorque m') [] = map (fun c => svdot c (nth i f' sv0)) (nth i (motionSubspace m) [])).
Proof.
  intros W Lf Lp St Sm. pose proof (wf_nrJoints mb W) as NJ.
  pose proof (sized_length _ _ _ St) as Lt. pose proof (sized_length _ _ _ Sm) as Lm.
  pose proof (wf_joints mb W) as Ljs.
  pose (P := fun (i : nat) (s : list (list R) * list SV) =>
    accI mb (ptsn m) (fun k => nth k f sv0) i (snd s) /\
    length (fst s) = nrBodies mb /\
    (forall k, (k < nrBodies mb)%nat -> length (nth k (fst s) []) = jdof (nth k (mb_joints mb) jd)) /\
    (forall k, (i <= k < nrBodies mb)%nat ->
       nth k (fst s) [] = map (fun c => svdot c (nth k (snd s) sv0)) (nth k (motionSubspace m) []))).
  destruct (for_down_inv P (torque_step mb m) (nrBodies mb) (jointTorque m, f)) as ([jt f'] & E & HP).
  - unfold P; cbn [fst snd]. repeat split.
    + auto.
    + intros. now apply accI_start.
    + lia.
    + intros. apply (sized_nth _ _ _ _ St). lia.
    + intros; lia.
  - intros i [jt fl] Hi (HA & L1 & L2 & HT). cbn [fst snd] in *. destruct (HA) as [LA _].
    unfold torque_step. rewrite (get_nth (mb_joints mb) i jd) by lia. cbn [bind].
    rewrite (fill_row 0 _ (fun d => svdot (nth d (nth i (motionSubspace m) []) sv0) (nth i fl sv0)) i); try lia.
    2:{ apply L2. lia. }
    2:{ intros d l' Hd Ll Lr. gets. pose proof (sized_nth _ _ _ i Sm ltac:(lia)). gets. auto. }
    cbn [bind].
    rewrite <- (sized_nth _ _ _ i Sm) by lia.
    rewrite (map_seq_nth (fun c => svdot c (nth i fl sv0))).
    predcase W Hi.
    + eexists; split; [reflexivity|]. unfold P; cbn [fst snd]. rewrite upd_length. split; [now apply accI_step_none|].
      split; [auto|]. split.
      * intros k Hk. destruct (Nat.eq_dec k i) as [->|]; nthupd; auto. rewrite map_length. apply (sized_nth _ _ _ _ Sm). lia.
      * intros k Hk. destruct (Nat.eq_dec k i) as [->|]; nthupd; auto. apply HT. lia.
    + gets. eexists; split; [reflexivity|]. unfold P; cbn [fst snd]. rewrite upd_length. split; [now apply accI_step_some|].
      split; [auto|]. split.
      * intros k Hk. destruct (Nat.eq_dec k i) as [->|]; nthupd; auto. rewrite map_length. apply (sized_nth _ _ _ _ Sm). lia.
      * intros k Hk. rewrite (nth_upd_neq fl p k) by lia.
        destruct (Nat.eq_dec k i) as [->|]; nthupd; auto. apply HT. lia.
  - destruct HP as (HA & L1 & L2 & HT). cbn [fst snd] in *. destruct (HA) as [LA _].
    exists f', (with_jointTorque jt m). unfold computeJointTorques. rewrite E. cbn [bind fst snd jointTorque with_jointTorque].
    repeat (split; auto); [now apply accI_end|]. intros. apply HT. lia.
Qed.

(** ** Forward loop of inverse dynamics *)
Definition fext (m : MBC) (i : nat) : SV := ptdual (nth i (bodyPosW m) ptid) (nth i (force m) sv0).
Definition Ib (mb : MultiBody) (i : nat) : RBI := binertia (nth i (mb_bodies mb) bd).
Definition vb (m : MBC) (i : nat) : SV := nth i (bodyVelB m) sv0.
Definition vj (m : MBC) (i : nat) : SV := nth i (jointVelocity m) sv0.
Definition local_force (mb : MultiBody) (m : MBC) (A : nat -> SV) (i : nat) : SV :=
  svsub (svadd (rbim (Ib mb i) (A i)) (scrossDual (vb m i) (rbim (Ib mb i) (vb m i)))) (fext m i).

Lemma pred_value mb i (A : list SV) a0 : wf_mb mb -> (i < nrBodies mb)%nat -> length A = nrBodies mb ->
  (if negb (nth i (mb_pred mb) 0 =? -1)%Z then getz A (nth i (mb_pred mb) 0%Z) else Ok a0) =
  Ok (match par mb i with Some p => nth p A sv0 | None => a0 end).
Proof.
  intros W Hi L. pose proof (wf_pred_len mb W).
  destruct (wf_get_pred mb i W Hi) as [[Ep Pp]|(p & Ep & Hp & Pp)]; rewrite (get_nth _ _ 0%Z) in Ep by lia;
    injection Ep as ->; rewrite Pp; auto.
  destruct (Z.eqb_spec (Z.of_nat p) (-1)); [lia|]. simpl. gets. auto.
Qed.

Lemma id_forward_ok mb m f a0 : wf_mb mb -> mbc_ok mb m -> length f = nrBodies mb ->
  exists A f', for_up (nrBodies mb) (id_step mb m a0) (bodyAccB m, f) = Ok (A, f') /\
    length A = nrBodies mb /\ length f' = nrBodies mb /\
    (fwd (nrBodies mb) (par mb) (ptsn m) a0
      (fun i => svadd (smul (jS (nth i (mb_joints mb) jd)) (nth i (alphaD m) [])) (scross (vb m i) (vj m i)))
      (fun i => nth i A sv0)) /\
    (forall i, (i < nrBodies mb)%nat -> nth i f' sv0 = local_force mb m (fun i => nth i A sv0) i).
Proof.
  intros W K Lf. pose proof (wf_nrJoints mb W) as NJ.
  mbclens W K.
  pose (P := fun (i : nat) (s : list SV * list SV) =>
    length (fst s) = nrBodies mb /\ length (snd s) = nrBodies mb /\
    (forall k, (k < i)%nat -> nth k (fst s) sv0 =
       svadd (ptm (nth k (parentToSon m) ptid) (match par mb k with Some p => nth p (fst s) sv0 | None => a0 end))
         (svadd (smul (jS (nth k (mb_joints mb) jd)) (nth k (alphaD m) [])) (scross (vb m k) (vj m k)))) /\
    (forall k, (k < i)%nat -> nth k (snd s) sv0 = local_force mb m (fun i => nth i (fst s) sv0) k)).
  destruct (for_up_inv P (id_step mb m a0) (nrBodies mb) (bodyAccB m, f)) as ([A f'] & E & HP).
  - unfold P; cbn [fst snd]. repeat split; auto; intros; lia.
  - intros i [A fl] Hi (L1 & L2 & HA & HF). cbn [fst snd] in *. unfold id_step.
    gets. rewrite tanAccel_spec; [|apply wf_joint_nth; auto|apply (sized_nth _ _ _ _ SaD); lia].
    cbn [bind]. gets.
    set (ap := match par mb i with Some p => nth p A sv0 | None => a0 end).
    assert (G : (if negb (nth i (mb_pred mb) 0 =? -1)%Z then getz A (nth i (mb_pred mb) 0%Z) else Ok a0) = Ok ap)
      by (now apply pred_value).
    rewrite G. gets.
    assert (NB : (i < length (mb_bodies mb))%nat) by (unfold nrBodies in Hi; auto).
    gets. eexists; split; [reflexivity|]. unfold P; cbn [fst snd]. rewrite !upd_length.
    assert (Hap : forall p, par mb i = Some p -> (p < i)%nat) by (intros; apply (par_lt mb i); auto).
    repeat split; auto.
    + intros k Hk. destruct (Nat.eq_dec k i) as [->|].
      * nthupd. rewrite <- svadd_assoc. f_equal. f_equal. unfold ap. destruct (par mb i) as [p|] eqn:Pi; auto.
        rewrite nth_upd_neq; auto. pose proof (Hap p eq_refl). lia.
      * nthupd. rewrite HA by lia. destruct (par mb k) as [p|] eqn:Pk; auto.
        pose proof (par_lt mb k p W ltac:(lia) Pk). rewrite (nth_upd_neq A i p) by lia. auto.
    + intros k Hk. unfold local_force. destruct (Nat.eq_dec k i) as [->|].
      * nthupd. unfold Ib, fext, vb, vj. auto.
      * nthupd. rewrite HF by lia. auto.
  - destruct HP as (L1 & L2 & HA & HF). cbn [fst snd] in *. exists A, f'. repeat split; auto.
Qed.
