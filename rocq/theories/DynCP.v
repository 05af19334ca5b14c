(** computeC and computeH. *)
From Coq Require Import Reals String ZArith Bool Arith Lia Lra List.
From Verif Require Import Res ResP Vec VecP Sva SvaP Mat JointM MultiBodyM KinM DynM Spec JointP KinP MbP TreeP DynP SpecDyn.
Import ListNotations.
Open Scope R_scope.

Lemma pos_S mb i : (i < nrJoints mb)%nat -> pos mb (S i) = (pos mb i + dofi mb i)%nat.
Proof. intros L. unfold pos, dofi. apply list_sum_firstn_S. auto. Qed.
Lemma pos_mono mb i j : (i < j)%nat -> (j <= nrJoints mb)%nat -> (pos mb i + dofi mb i <= pos mb j)%nat.
Proof.
  induction j; intros; [lia|]. rewrite pos_S by lia. destruct (Nat.eq_dec i j) as [->|]; [lia|].
  assert (pos mb i + dofi mb i <= pos mb j)%nat by (apply IHj; lia). lia.
Qed.
Lemma pos_all mb : pos mb (nrJoints mb) = list_sum (map jdof (mb_joints mb)).
Proof. unfold pos, nrJoints. now rewrite firstn_all. Qed.
Lemma pos_le mb i : wf_mb mb -> (i < nrBodies mb)%nat -> (pos mb i + dofi mb i <= mb_nrDof mb)%nat.
Proof.
  intros W L. rewrite (wf_nrDof mb W), <- pos_all. pose proof (wf_nrJoints mb W).
  apply pos_mono; lia.
Qed.
(** Blocks do not overlap. *)
Lemma pos_inj mb i j a b : wf_mb mb -> (i < nrBodies mb)%nat -> (j < nrBodies mb)%nat ->
  (a < dofi mb i)%nat -> (b < dofi mb j)%nat -> (pos mb i + a = pos mb j + b)%nat -> i = j /\ a = b.
Proof.
  intros W Li Lj Ha Hb E. pose proof (wf_nrJoints mb W).
  destruct (lt_eq_lt_dec i j) as [[H0|H0]|H0].
  - pose proof (pos_mono mb i j H0 ltac:(lia)). lia.
  - subst. lia.
  - pose proof (pos_mono mb j i H0 ltac:(lia)). lia.
Qed.
(** Every index below the total belongs to a block. *)
Lemma pos_find mb r k : (k <= nrJoints mb)%nat -> (r < pos mb k)%nat ->
  exists i a, (i < k)%nat /\ (a < dofi mb i)%nat /\ r = (pos mb i + a)%nat.
Proof.
  induction k; intros L H.
  - unfold pos in H. simpl in H. lia.
  - rewrite pos_S in H by lia. destruct (le_lt_dec (pos mb k) r) as [G|G].
    + exists k, (r - pos mb k)%nat. lia.
    + destruct IHk as (i & a & ? & ? & ?); try lia. exists i, a. auto.
Qed.
Lemma rsum_tiles mb g k : (k <= nrJoints mb)%nat ->
  rsum (pos mb k) g = rsum k (fun j => rsum (dofi mb j) (fun b => g (pos mb j + b)%nat)).
Proof.
  induction k; intros L; simpl; auto. rewrite pos_S by lia. rewrite rsum_app, IHk by lia. auto.
Qed.
Lemma rsum_nrDof mb g : wf_mb mb ->
  rsum (mb_nrDof mb) g = rsum (nrBodies mb) (fun j => rsum (dofi mb j) (fun b => g (pos mb j + b)%nat)).
Proof.
  intros W. rewrite (wf_nrDof mb W), <- pos_all. rewrite rsum_tiles by auto. now rewrite (wf_nrJoints mb W).
Qed.
Lemma concat_tile {A} mb (v : list (list A)) i a (d : A) : sized mb jdof v -> (i < nrJoints mb)%nat -> (a < dofi mb i)%nat ->
  nth (pos mb i + a) (concat v) d = nth a (nth i v []) d.
Proof.
  intros Sv. pose proof (sized_length _ _ _ Sv) as Lv. unfold sized in Sv. unfold pos, dofi, nrJoints in *.
  revert i Sv Lv. generalize (mb_joints mb) as js. clear mb. intros js. revert v.
  induction js; intros v i Sv Lv Li La; simpl in *; [lia|].
  destruct v as [|x v]; simpl in *; [discriminate|]. injection Sv as S1 S2. destruct i; simpl in *.
  - apply app_nth1. lia.
  - rewrite app_nth2 by lia. rewrite S1. replace (jdof a0 + list_sum (map jdof (firstn i js)) + a - jdof a0)%nat
      with (list_sum (map jdof (firstn i js)) + a)%nat by lia. apply IHjs; auto; lia.
Qed.
Lemma concat_length mb {A} (v : list (list A)) f : sized mb f v -> length (concat v) = list_sum (map f (mb_joints mb)).
Proof.
  unfold sized. revert v. generalize (mb_joints mb) as js. induction js; intros [|x v] H; simpl in *; try discriminate; auto.
  rewrite app_length. injection H as -> H. f_equal. auto.
Qed.

(** ** Segments *)
Lemma set_from_length s : forall v p, length (set_from v p s) = length v.
Proof. induction s; simpl; intros; auto. now rewrite IHs, upd_length. Qed.
Lemma set_from_nth s : forall v p k, (p + length s <= length v)%nat ->
  nth k (set_from v p s) 0 = if (p <=? k)%nat && (k <? p + length s)%nat then nth (k - p) s 0 else nth k v 0.
Proof.
  induction s as [|x s IH]; simpl; intros v p k L.
  - destruct (Nat.leb_spec p k), (Nat.ltb_spec k (p + 0)); auto; lia.
  - rewrite IH by (rewrite upd_length; lia).
    destruct (Nat.eq_dec k p) as [->|].
    + rewrite nth_upd_eq by lia. rewrite Nat.leb_refl, Nat.sub_diag.
      destruct (Nat.leb_spec (S p) p); [lia|]. destruct (Nat.ltb_spec p (p + S (length s))); [|lia]. auto.
    + rewrite nth_upd_neq by auto.
      destruct (Nat.leb_spec (S p) k), (Nat.leb_spec p k); try lia; auto.
      destruct (Nat.ltb_spec k (S p + length s)), (Nat.ltb_spec k (p + S (length s))); try lia; auto.
      simpl. replace (k - p)%nat with (S (k - S p)) by lia. auto.
Qed.

Lemma dofPos_fold js : forall acc0 p,
  let s := fold_left (fun s j => (fst s ++ [snd s], (snd s + jdof j)%nat)) js (acc0, p) in
  length (fst s) = (length acc0 + length js)%nat /\
  (forall i, (i < length acc0)%nat -> nth i (fst s) 0%nat = nth i acc0 0%nat) /\
  (forall i, (i < length js)%nat -> nth (length acc0 + i) (fst s) 0%nat = (p + list_sum (map jdof (firstn i js)))%nat).
Proof.
  induction js; simpl; intros acc0 p.
  - repeat split; auto; intros; lia.
  - destruct (IHjs (acc0 ++ [p]) (p + jdof a)%nat) as (L & H1 & H2). rewrite app_length in L, H1, H2. simpl in *.
    repeat split; [lia| |].
    + intros. rewrite H1 by lia. now apply app_nth1.
    + intros [|i] Hi; simpl.
      * rewrite !Nat.add_0_r. rewrite H1 by lia. rewrite app_nth2, Nat.sub_diag by lia. auto.
      * replace (length acc0 + S i)%nat with (length acc0 + 1 + i)%nat by lia. rewrite H2 by lia. lia.
Qed.
Lemma FD_ctor_ok gR gS gI mb : wf_mb mb -> fd_ok mb (FD_ctor gR gS gI mb).
Proof.
  intros W. pose proof (wf_joints mb W). pose proof (wf_nrJoints mb W).
  pose proof (dofPos_fold (mb_joints mb) [] 0) as (L & _ & HP).
  constructor; unfold FD_ctor; cbn -[Nat.add]; rewrite ?map_length, ?seq_length; auto.
  - unfold sized. rewrite map_map.
    transitivity (map (fun p : nat * Joint => jdof (snd p)) (combine (seq 0 (nrJoints mb)) (mb_joints mb))).
    + apply map_ext. intros. now rewrite map_length, seq_length.
    + rewrite <- (map_map snd jdof). f_equal. apply map_snd_combine. now rewrite seq_length.
  - rewrite L. simpl. lia.
  - intros i Hi. apply HP. lia.
Qed.

(** ** computeC *)
Record c_post (mb : MultiBody) (m : MBC) (s s' : FD) : Prop := {
  cp_ok : fd_ok mb s';
  cp_H : fd_H s' = fd_H s;
  cp_tmp : fd_tmp s' = fd_tmp s;
  cp_C : exists A f F,
     fwd (nrBodies mb) (par mb) (ptsn m) (mkSV v0 (gravity m)) (fun i => scross (vb m i) (vj m i)) A /\
     (forall i, (i < nrBodies mb)%nat -> f i = local_force mb m A i) /\
     acc (nrBodies mb) (par mb) (ptsn m) f F /\
     forall i a, (i < nrBodies mb)%nat -> (a < dofi mb i)%nat ->
       nth (pos mb i + a) (fd_C s') 0 = svdot (nth a (nth i (motionSubspace m) []) sv0) (F i)
}.

Lemma C_ok mb m s : wf_mb mb -> mbc_ok mb m -> fd_ok mb s ->
  exists s', computeC mb m s = Ok s' /\ c_post mb m s s'.
Proof.
  intros W K O1. pose proof (wf_nrJoints mb W) as NJ. mbclens W K.
  set (a0 := mkSV v0 (gravity m)).
  pose (P := fun (i : nat) (s' : FD) =>
    s' = with_f (fd_f s') (with_acc (fd_acc s') s) /\
    length (fd_acc s') = nrBodies mb /\ length (fd_f s') = nrBodies mb /\
    (forall k, (k < i)%nat -> nth k (fd_acc s') sv0 =
       svadd (ptm (nth k (parentToSon m) ptid) (match par mb k with Some p => nth p (fd_acc s') sv0 | None => a0 end))
         (scross (vb m k) (vj m k))) /\
    (forall k, (k < i)%nat -> nth k (fd_f s') sv0 = local_force mb m (fun i => nth i (fd_acc s') sv0) k)).
  destruct (for_up_inv P (c_step1 mb m a0) (nrBodies mb) s) as (s1 & E1 & E & L1 & L2 & HA & HF).
  { unfold P; repeat split; auto; try (intros; lia); try apply O1. destruct s; reflexivity. }
  { intros i s' Hi (E & L1 & L2 & HA & HF). unfold c_step1.
    gets. rewrite pred_value by auto. set (ap := match par mb i with Some p => _ | None => a0 end).
    assert (NB : (i < length (mb_bodies mb))%nat) by (unfold nrBodies in Hi; auto).
    gets. cbn [fd_f with_acc]. gets. eexists; split; [reflexivity|]. unfold P.
    cbn [fd_f fd_acc with_f with_acc]. rewrite !upd_length.
    assert (Hap : forall p, par mb i = Some p -> (p < i)%nat) by (intros; apply (par_lt mb i); auto).
    repeat split; auto.
    + rewrite E. reflexivity.
    + intros k Hk. destruct (Nat.eq_dec k i) as [->|].
      * nthupd. f_equal. f_equal. unfold ap. destruct (par mb i) as [p|] eqn:Pi; auto.
        rewrite nth_upd_neq; auto. pose proof (Hap p eq_refl). lia.
      * nthupd. rewrite HA by lia. destruct (par mb k) as [p|] eqn:Pk; auto.
        pose proof (par_lt mb k p W ltac:(lia) Pk). rewrite (nth_upd_neq (fd_acc s') i p) by lia. auto.
    + intros k Hk. unfold local_force. destruct (Nat.eq_dec k i) as [->|].
      * nthupd. unfold Ib, fext, vb, vj. auto.
      * nthupd. rewrite HF by lia. auto. }
  pose (Q := fun (i : nat) (s' : FD) =>
    s' = with_f (fd_f s') (with_C (fd_C s') s1) /\
    length (fd_C s') = mb_nrDof mb /\
    accI mb (ptsn m) (fun k => nth k (fd_f s1) sv0) i (fd_f s') /\
    (forall k a, (i <= k < nrBodies mb)%nat -> (a < dofi mb k)%nat ->
       nth (pos mb k + a) (fd_C s') 0 = svdot (nth a (nth k (motionSubspace m) []) sv0) (nth k (fd_f s') sv0))).
  assert (EC : fd_C s1 = fd_C s) by (rewrite E; reflexivity).
  assert (ED : fd_dofPos s1 = fd_dofPos s) by (rewrite E; reflexivity).
  destruct (for_down_inv Q (c_step2 mb m) (nrBodies mb) s1) as (s2 & E2 & E3 & LC & HA2 & HC).
  { unfold Q. repeat split; auto.
    - destruct s1; reflexivity.
    - rewrite EC. apply O1.
    - intros. now apply accI_start.
    - intros; lia. }
  { intros i s' Hi (E3 & LC & HA2 & HC). unfold c_step2. destruct (HA2) as [LA _].
    assert (ED' : fd_dofPos s' = fd_dofPos s) by (rewrite E3; exact ED).
    assert (Lpos : length (fd_dofPos s') = nrBodies mb) by (rewrite ED'; apply O1).
    assert (Epos : nth i (fd_dofPos s') 0%nat = pos mb i) by (rewrite ED'; apply (fo_pos _ _ O1); auto).
    pose proof (sized_nth _ _ _ i Sms ltac:(lia)) as Lmi. fold (dofi mb i) in Lmi.
    pose proof (pos_le mb i W Hi) as Lpi.
    predcase W Hi; gets; rewrite Epos; fold (dofi mb i); rewrite Lmi, Nat.eqb_refl; unfold set_seg;
      rewrite map_length, Lmi; (destruct (Nat.leb_spec (pos mb i + dofi mb i) (length (fd_C s'))); [|lia]); cbn [bind];
      cbn [fd_f with_C]; gets.
    - eexists; split; [reflexivity|]. unfold Q. cbn [fd_f fd_C with_C].
      split; [rewrite E3; reflexivity|]. split; [now rewrite set_from_length|].
      split; [now apply accI_step_none|].
      intros k a Hk Ha. rewrite set_from_nth by (rewrite map_length, Lmi; lia). rewrite map_length, Lmi.
      destruct (Nat.eq_dec k i) as [->|].
      + destruct (Nat.leb_spec (pos mb i) (pos mb i + a)); [|lia].
        destruct (Nat.ltb_spec (pos mb i + a) (pos mb i + dofi mb i)); [|lia]. simpl.
        replace (pos mb i + a - pos mb i)%nat with a by lia.
        rewrite (nth_indep _ 0 ((fun c => svdot c (nth i (fd_f s') sv0)) sv0)) by (rewrite map_length; lia).
        rewrite (map_nth (fun c => svdot c (nth i (fd_f s') sv0))). auto.
      + pose proof (pos_mono mb i k ltac:(lia) ltac:(lia)).
        destruct (Nat.ltb_spec (pos mb k + a) (pos mb i + dofi mb i)); [lia|]. rewrite andb_false_r. apply HC; auto; lia.
    - eexists; split; [reflexivity|]. unfold Q. cbn [fd_f fd_C with_C with_f].
      split; [rewrite E3; reflexivity|]. split; [now rewrite set_from_length|].
      split; [now apply accI_step_some|].
      intros k a Hk Ha. rewrite set_from_nth by (rewrite map_length, Lmi; lia). rewrite map_length, Lmi.
      rewrite (nth_upd_neq (fd_f s') p k) by lia.
      destruct (Nat.eq_dec k i) as [->|].
      + destruct (Nat.leb_spec (pos mb i) (pos mb i + a)); [|lia].
        destruct (Nat.ltb_spec (pos mb i + a) (pos mb i + dofi mb i)); [|lia]. simpl.
        replace (pos mb i + a - pos mb i)%nat with a by lia.
        rewrite (nth_indep _ 0 ((fun c => svdot c (nth i (fd_f s') sv0)) sv0)) by (rewrite map_length; lia).
        rewrite (map_nth (fun c => svdot c (nth i (fd_f s') sv0))). auto.
      + pose proof (pos_mono mb i k ltac:(lia) ltac:(lia)).
        destruct (Nat.ltb_spec (pos mb k + a) (pos mb i + dofi mb i)); [lia|]. rewrite andb_false_r. apply HC; auto; lia. }
  exists s2. unfold computeC. fold a0. rewrite E1. cbn [bind]. split; auto. destruct (HA2) as [LA _].
  destruct O1. constructor.
  - rewrite E3, E in *. constructor; cbn in *; auto.
  - rewrite E3, E. reflexivity.
  - rewrite E3, E. reflexivity.
  - exists (fun i => nth i (fd_acc s1) sv0), (fun i => nth i (fd_f s1) sv0), (fun i => nth i (fd_f s2) sv0).
    split; [|split; [|split]].
    + intros i Hi. now apply HA.
    + auto.
    + now apply accI_end.
    + intros. apply HC; auto. lia.
Qed.
