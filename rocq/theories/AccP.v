From Coq Require Import Reals String ZArith Bool Arith Lia Lra List.
From Verif Require Import Res ResP SMap Vec Sva Mat JointM MultiBodyM KinM Spec SpecConf SpecAcc AccM Ex DynP MbP ConfFinP.
Import ListNotations.
Open Scope nat_scope.

Lemma reads_ok {A} (l : list A) : reads l (atz l) (getz l).
Proof.
  split.
  - intros i x H. unfold atz, getz, get_at, get. destruct (Z.ltb_spec (Z.of_nat i) 0); [lia|].
    rewrite Nat2Z.id, H. auto.
  - intros z H. unfold atz, getz, get_at, get. destruct (Z.ltb_spec z 0); auto.
    assert (E : nth_error l (Z.to_nat z) = None) by (apply nth_error_None; lia). rewrite E. auto.
Qed.
Lemma accessors_ok mb :
  reads (mb_bodies mb) (sBody mb) (body mb) /\ reads (mb_joints mb) (sJoint mb) (joint mb) /\
  reads (mb_pred mb) (sPredecessor mb) (predecessor mb) /\ reads (mb_succ mb) (sSuccessor mb) (successor mb) /\
  reads (mb_parent mb) (sParent mb) (parent mb) /\ reads (mb_Xt mb) (sTransform mb) (transform mb) /\
  reads (mb_posParam mb) (sJointPosInParam mb) (jointPosInParam mb) /\
  reads (mb_posDof mb) (sJointPosInDof mb) (jointPosInDof mb).
Proof. do 7 (split; [apply reads_ok|]). apply reads_ok. Qed.

Lemma at_set_spec {A} (l : list A) z x :
  ((0 <= z < Z.of_nat (length l))%Z -> at_set l z x = Ok (upd l (Z.to_nat z) x)) /\
  ((z < 0 \/ Z.of_nat (length l) <= z)%Z -> at_set l z x = Throw OutOfRange).
Proof.
  unfold at_set. split; intros H; destruct (Z.ltb_spec z 0); auto; try lia.
  - destruct (Nat.ltb_spec (Z.to_nat z) (length l)); [|lia]. now apply set_ok.
  - destruct (Nat.ltb_spec (Z.to_nat z) (length l)); [lia|auto].
Qed.
Lemma upd_replaced {A} (l : list A) i x : i < length l -> replaced l i x (upd l i x).
Proof.
  intros H. split; [apply upd_length|]. split; [now apply nth_error_upd_eq|].
  intros k K. apply nth_error_upd_neq. auto.
Qed.
Lemma ss_bodies mb bs : same_structure mb (mb_with_bodies mb bs). Proof. repeat split. Qed.
Lemma ss_Xt mb bs : same_structure mb (mb_with_Xt mb bs). Proof. repeat split. Qed.

Lemma put_body_ok mb z b :
  ((0 <= z < Z.of_nat (nrBodies mb))%Z -> exists mb', sPutBody mb z b = Ok mb' /\ put_body mb z b = Ok mb' /\
     same_structure mb mb' /\ mb_Xt mb' = mb_Xt mb /\ replaced (mb_bodies mb) (Z.to_nat z) b (mb_bodies mb')) /\
  ((z < 0 \/ Z.of_nat (nrBodies mb) <= z)%Z -> sPutBody mb z b = Throw OutOfRange /\ put_body mb z b = UB).
Proof.
  unfold nrBodies. split; intros H; unfold sPutBody, put_body, set_body.
  - rewrite (proj1 (at_set_spec _ _ _) H). cbn [bind]. destruct (Z.ltb_spec z 0); [lia|]. rewrite set_ok by lia. cbn [bind].
    eexists. split; [reflexivity|]. split; [reflexivity|]. split; [apply ss_bodies|]. split; [reflexivity|].
    apply upd_replaced. lia.
  - rewrite (proj2 (at_set_spec _ _ _) H). cbn [bind]. split; auto. destruct (Z.ltb_spec z 0); auto.
    unfold set. destruct (Nat.ltb_spec (Z.to_nat z) (length (mb_bodies mb))); [lia|reflexivity].
Qed.
Lemma put_transform_ok mb z b :
  ((0 <= z < Z.of_nat (length (mb_Xt mb)))%Z -> exists mb', sPutTransform mb z b = Ok mb' /\ put_transform mb z b = Ok mb' /\
     same_structure mb mb' /\ mb_bodies mb' = mb_bodies mb /\ replaced (mb_Xt mb) (Z.to_nat z) b (mb_Xt mb')) /\
  ((z < 0 \/ Z.of_nat (length (mb_Xt mb)) <= z)%Z -> sPutTransform mb z b = Throw OutOfRange /\ put_transform mb z b = UB).
Proof.
  split; intros H; unfold sPutTransform, put_transform, set_transform.
  - rewrite (proj1 (at_set_spec _ _ _) H). cbn [bind]. destruct (Z.ltb_spec z 0); [lia|]. rewrite set_ok by lia. cbn [bind].
    eexists. split; [reflexivity|]. split; [reflexivity|]. split; [apply ss_Xt|]. split; [reflexivity|].
    apply upd_replaced. lia.
  - rewrite (proj2 (at_set_spec _ _ _) H). cbn [bind]. split; auto. destruct (Z.ltb_spec z 0); auto.
    unfold set. destruct (Nat.ltb_spec (Z.to_nat z) (length (mb_Xt mb))); [lia|reflexivity].
Qed.
Lemma put_all_ok mb :
  (forall bs, (length bs = nrBodies mb -> exists mb', sBodies mb bs = Ok mb' /\ mb_bodies mb' = bs /\
      same_structure mb mb' /\ mb_Xt mb' = mb_Xt mb) /\
    (length bs <> nrBodies mb -> sBodies mb bs = Throw RuntimeError)) /\
  (forall Xs, (length Xs = length (mb_Xt mb) -> exists mb', sTransforms mb Xs = Ok mb' /\ mb_Xt mb' = Xs /\
      same_structure mb mb' /\ mb_bodies mb' = mb_bodies mb) /\
    (length Xs <> length (mb_Xt mb) -> sTransforms mb Xs = Throw RuntimeError)).
Proof.
  unfold nrBodies. split; intros l; split; intros H; unfold sBodies, sTransforms.
  - rewrite (proj2 (Nat.eqb_eq _ _) H). eexists. split; [reflexivity|]. repeat split.
  - rewrite (proj2 (Nat.eqb_neq _ _) H). reflexivity.
  - rewrite (proj2 (Nat.eqb_eq _ _) H). eexists. split; [reflexivity|]. repeat split.
  - rewrite (proj2 (Nat.eqb_neq _ _) H). reflexivity.
Qed.

Lemma edit_cases e mb :
  (exists mb', edit e mb = Ok mb' /\ same_structure mb mb' /\ nrBodies mb' = nrBodies mb /\
     length (mb_Xt mb') = length (mb_Xt mb)) \/
  (exists x, edit e mb = Throw x /\ (x = OutOfRange \/ x = RuntimeError)).
Proof.
  assert (T : forall z n, (0 <= z < Z.of_nat n)%Z \/ (z < 0 \/ Z.of_nat n <= z)%Z) by (intros; lia).
  destruct e as [z b|bs|z X|Xs]; cbn [edit].
  - destruct (T z (nrBodies mb)) as [H|H].
    + left. destruct (proj1 (put_body_ok mb z b) H) as (mb' & E & _ & S & X & R1 & _). exists mb'.
      split; [auto|]. split; [auto|]. split; [exact R1|now rewrite X].
    + right. exists OutOfRange. split; [apply (proj2 (put_body_ok mb z b) H)|auto].
  - destruct (Nat.eq_dec (length bs) (nrBodies mb)) as [H|H].
    + left. destruct (proj1 (proj1 (put_all_ok mb) bs) H) as (mb' & E & B & S & X). exists mb'.
      split; [auto|]. split; [auto|]. split; [unfold nrBodies at 1; now rewrite B|now rewrite X].
    + right. exists RuntimeError. split; [apply (proj2 (proj1 (put_all_ok mb) bs) H)|auto].
  - destruct (T z (length (mb_Xt mb))) as [H|H].
    + left. destruct (proj1 (put_transform_ok mb z X) H) as (mb' & E & _ & S & B & R1 & _). exists mb'.
      split; [auto|]. split; [auto|]. split; [unfold nrBodies; now rewrite B|exact R1].
    + right. exists OutOfRange. split; [apply (proj2 (put_transform_ok mb z X) H)|auto].
  - destruct (Nat.eq_dec (length Xs) (length (mb_Xt mb))) as [H|H].
    + left. destruct (proj1 (proj2 (put_all_ok mb) Xs) H) as (mb' & E & X & S & B). exists mb'.
      split; [auto|]. split; [auto|]. split; [unfold nrBodies; now rewrite B|now rewrite X].
    + right. exists RuntimeError. split; [apply (proj2 (proj2 (put_all_ok mb) Xs) H)|auto].
Qed.
Lemma ss_trans a b c : same_structure a b -> same_structure b c -> same_structure a c.
Proof. unfold same_structure. intros (?&?&?&?&?&?&?&?&?&?) (?&?&?&?&?&?&?&?&?&?). repeat split; congruence. Qed.
Lemma ss_refl a : same_structure a a. Proof. repeat split. Qed.
Lemma ss_wf a b : same_structure a b -> nrBodies b = nrBodies a -> length (mb_Xt b) = length (mb_Xt a) -> wf_mb a -> wf_mb b.
Proof.
  intros (J & P & S & Pa & BI & JI & PP & PD & NP & ND) NB LX W. destruct W.
  constructor; rewrite ?NB, ?J, ?P, ?S, ?Pa, ?PP, ?PD, ?NP, ?ND, ?LX; auto.
Qed.
Lemma edited_total es : forall mb, exists mb', edited mb es mb'.
Proof.
  induction es as [|e es IH]; intros mb; [exists mb; constructor|].
  destruct (edit_cases e mb) as [(mb1 & E & _)|(x & E & X)].
  - destruct (IH mb1) as (mb2 & H). exists mb2. econstructor; eauto.
  - destruct (IH mb) as (mb2 & H). exists mb2. eapply edited_throw; eauto.
Qed.
Lemma edited_ok' mb es mb' : edited mb es mb' ->
  same_structure mb mb' /\ nrBodies mb' = nrBodies mb /\ length (mb_Xt mb') = length (mb_Xt mb).
Proof.
  induction 1 as [mb|mb e mb1 es mb2 E _ IH|mb e x es mb2 E X _ IH]; [repeat split| |exact IH].
  destruct (edit_cases e mb) as [(mb1' & E' & S & B & X)|(x & E' & _)]; [|congruence].
  rewrite E in E'. injection E' as <-. destruct IH as (S' & B' & X').
  split; [eapply ss_trans; eassumption|]. split; congruence.
Qed.
Lemma edited_wf mb es : wf_mb mb ->
  (exists mb', edited mb es mb') /\
  forall mb', edited mb es mb' -> wf_mb mb' /\ same_structure mb mb' /\ nrBodies mb' = nrBodies mb.
Proof.
  intros W. split; [apply edited_total|]. intros mb' H. destruct (edited_ok' _ _ _ H) as (S & B & X).
  split; [eapply ss_wf; eassumption|auto].
Qed.

(** Names. *)
Lemma ne_ext {A} (l l' : list A) : (forall k, nth_error l k = nth_error l' k) -> l = l'.
Proof.
  revert l'. induction l as [|a l IH]; intros [|b l'] H; auto; try (specialize (H 0); discriminate).
  pose proof (H 0) as H0. injection H0 as ->. f_equal. apply IH. intros k. apply (H (S k)).
Qed.
Lemma edit_names mb e mb' : edit e mb = Ok mb' -> keeps_names mb e -> body_names mb' = body_names mb.
Proof.
  unfold body_names. destruct e as [z b|bs|z X|Xs]; cbn [edit keeps_names]; intros E K.
  - assert (H : (0 <= z < Z.of_nat (nrBodies mb))%Z).
    { destruct (Z_lt_dec z 0); [|destruct (Z_lt_dec z (Z.of_nat (nrBodies mb)))]; [|lia|];
      rewrite (proj1 (proj2 (put_body_ok mb z b) ltac:(lia))) in E; discriminate. }
    destruct (proj1 (put_body_ok mb z b) H) as (mb1 & E1 & _ & _ & _ & L & N & O). rewrite E in E1. injection E1 as <-.
    apply ne_ext. intros k. rewrite !nth_error_map. destruct (Nat.eq_dec k (Z.to_nat z)) as [->|D]; [|now rewrite O].
    rewrite N. unfold nrBodies in H. destruct (ne_Some (mb_bodies mb) (Z.to_nat z)) as (b0 & B0); [lia|].
    rewrite B0. cbn [option_map]. f_equal. apply K.
    destruct (reads_ok (mb_bodies mb)) as [R _]. destruct (R _ _ B0) as [_ R2]. rewrite Z2Nat.id in R2 by lia. exact R2.
  - destruct (Nat.eq_dec (length bs) (nrBodies mb)) as [H|H].
    + destruct (proj1 (proj1 (put_all_ok mb) bs) H) as (mb1 & E1 & B & _). rewrite E in E1. injection E1 as <-.
      rewrite B. apply K. exact H.
    + rewrite (proj2 (proj1 (put_all_ok mb) bs) H) in E. discriminate.
  - unfold sPutTransform in E. destruct (at_set (mb_Xt mb) z X); try discriminate. injection E as <-. reflexivity.
  - unfold sTransforms in E. destruct (length Xs =? length (mb_Xt mb))%nat; try discriminate. injection E as <-. reflexivity.
Qed.

Lemma edits_names mb0 mb es mb' : edited mb es mb' -> constructed mb0 -> distinct_names mb0 ->
  same_structure mb0 mb -> body_names mb = body_names mb0 ->
  (forall e es1 es2 mb1, es = es1 ++ e :: es2 -> edited mb es1 mb1 -> keeps_names mb1 e) ->
  body_names mb' = body_names mb0.
Proof.
  intros H C D. induction H as [mb|mb e mb1 es mb2 E H IH|mb e x es mb2 E X H IH]; intros S B K; [exact B| |].
  - apply IH.
    + destruct (edited_ok' mb [e] mb1) as (S1 & _); [econstructor; [eassumption|constructor]|]. eapply ss_trans; eassumption.
    + rewrite <- B. eapply edit_names; [eassumption|]. apply (K e [] es mb eq_refl). constructor.
    + intros e' es1 es2 mb3 -> H3. apply (K e' (e :: es1) es2 mb3 eq_refl). econstructor; eassumption.
  - apply IH; auto. intros e' es1 es2 mb3 -> H3. apply (K e' (e :: es1) es2 mb3 eq_refl). eapply edited_throw; eassumption.
Qed.
Lemma names_after mb es mb' : constructed mb -> distinct_names mb -> edited mb es mb' ->
  (forall e es1 es2 mb1, es = es1 ++ e :: es2 -> edited mb es1 mb1 -> keeps_names mb1 e) ->
  (forall i b, nth_error (mb_bodies mb') i = Some b -> sBodyIndexByName mb' (bname b) = Ok (Z.of_nat i)) /\
  (forall i j, nth_error (mb_joints mb') i = Some j -> sJointIndexByName mb' (jname j) = Ok (Z.of_nat i)).
Proof.
  intros C D H K. pose proof (edits_names mb mb es mb' H C D (ss_refl mb) eq_refl K) as N.
  destruct (edited_ok' _ _ _ H) as (S & _). destruct S as (J & _ & _ & _ & BI & JI & _).
  destruct C as (bodies & joints & pred & succ & par & Xt & L & E).
  assert (Eb : mb_bodies mb = bodies /\ mb_joints mb = joints) by (destruct (ctor_tiles _ _ _ _ _ _ _ L E) as (A & B & _); auto).
  destruct Eb as [Eb Ej]. destruct D as [D1 D2]. unfold joint_names, body_names in *. rewrite Eb in *. rewrite Ej in *.
  destruct (names_distinct _ _ _ _ _ _ _ L E D2 D1) as [NB NJ].
  split.
  - intros i b Hb. unfold sBodyIndexByName. rewrite BI.
    assert (Hn : nth_error (map bname bodies) i = Some (bname b)) by (rewrite <- N; now apply map_nth_error).
    rewrite nth_error_map in Hn. destruct (nth_error bodies i) as [b0|] eqn:B0; [|discriminate]. injection Hn as Hn.
    rewrite <- Hn. apply (NB i b0 B0).
  - intros i j Hj. unfold sJointIndexByName. rewrite JI. rewrite J in Hj. apply (NJ i j Hj).
Qed.

(** Renaming. *)
Definition renamed : Body := mkBody (mkRBI 2 (mkV3 1 0 0) (mkSym 1 0 0 2 0 2)) "forearm"%string.
Lemma rename_refuted : exists mb z b mb', constructed mb /\ distinct_names mb /\ sPutBody mb z b = Ok mb' /\
  distinct_names mb' /\ sBody mb' z = Ok b /\
  sBodyIndexByName mb' (bname b) = Throw OutOfRange /\
  (exists old, sBodyIndexByName mb' old = Ok z /\ ~ In old (body_names mb')).
Proof.
  exists ex_mb, 1%Z, renamed, (mb_with_bodies ex_mb (upd ex_bodies 1 renamed)).
  split. { exists ex_bodies, ex_joints, ex_pred, ex_succ, ex_pred, ex_Xt. split; reflexivity. }
  split. { split; repeat constructor; simpl; intuition discriminate. }
  split; [reflexivity|].
  split. { split; repeat constructor; simpl; intuition discriminate. }
  split; [reflexivity|]. split; [reflexivity|].
  exists "arm"%string. split; [reflexivity|]. simpl; intuition discriminate.
Qed.

(** Kinematics do not read the bodies. *)
Lemma kin_bodies mb bs m : length bs = nrBodies mb ->
  let mb' := mb_with_bodies mb bs in
  forwardKinematics mb' m = forwardKinematics mb m /\ forwardVelocity mb' m = forwardVelocity mb m /\
  (forall A0, forwardAcceleration mb' m A0 = forwardAcceleration mb m A0) /\
  sForwardKinematics mb' m = sForwardKinematics mb m /\ sForwardVelocity mb' m = sForwardVelocity mb m /\
  (forall A0, sForwardAcceleration mb' m A0 = sForwardAcceleration mb m A0).
Proof.
  intros L mb'. assert (F : forwardKinematics mb' m = forwardKinematics mb m) by reflexivity.
  assert (V : forwardVelocity mb' m = forwardVelocity mb m) by reflexivity.
  assert (A : forall A0, forwardAcceleration mb' m A0 = forwardAcceleration mb m A0) by reflexivity.
  assert (NB : nrBodies mb' = nrBodies mb) by exact L.
  assert (CB : forall T (v : list T), checkMatchBodiesVector mb' v = checkMatchBodiesVector mb v)
    by (intros; unfold checkMatchBodiesVector; now rewrite NB).
  split; [exact F|]. split; [exact V|]. split; [exact A|].
  split; [|split].
  - unfold sForwardKinematics, checkMatchBodyPos. now rewrite CB.
  - unfold sForwardVelocity, checkMatchBodyPos, checkMatchBodyVel. now rewrite !CB.
  - intros A0. unfold sForwardAcceleration, checkMatchBodyVel, checkMatchBodyAcc. now rewrite !CB.
Qed.

(** The python accessors of the motion subspace. *)
Lemma python_get_set m m' : python_setMotionSubspace (python_getMotionSubspace m) m' = Ok (with_motionSubspace (motionSubspace m) m').
Proof.
  unfold python_setMotionSubspace, python_getMotionSubspace.
  assert (E : forall l, map_res mat_to_smat (map smat_to_mat l) = Ok l).
  { induction l as [|M l IH]; [reflexivity|]. cbn [map map_res].
    assert (EM : mat_to_smat (smat_to_mat M) = Ok M).
    { unfold mat_to_smat, smat_to_mat. cbn [mrows mcols ment Nat.eqb]. f_equal.
      transitivity (map (fun c => nth c M sv0) (seq 0 (length M))).
      - apply map_ext. intros c. destruct (nth c M sv0) as [[] []]. reflexivity.
      - clear. induction M as [|a M IH]; [reflexivity|]. cbn [length seq map nth]. f_equal.
        rewrite <- seq_shift, map_map. exact IH. }
    rewrite EM. cbn [bind]. rewrite IH. reflexivity. }
  rewrite E. reflexivity.
Qed.
Lemma python_set v m : 
  ((forall M, In M v -> mrows M = 6) -> exists m', python_setMotionSubspace v m = Ok m' /\
     m' = with_motionSubspace (motionSubspace m') m /\
     length (motionSubspace m') = length v /\
     forall i M M', nth_error v i = Some M -> nth_error (python_getMotionSubspace m') i = Some M' ->
       mrows M' = 6 /\ mcols M' = mcols M /\ forall r c, r < 6 -> c < mcols M -> ment M' r c = ment M r c) /\
  ((exists M, In M v /\ mrows M <> 6) -> python_setMotionSubspace v m = UB).
Proof.
  assert (OKc : forall M, mrows M = 6 -> exists S, mat_to_smat M = Ok S /\ length S = mcols M /\
     forall r c, r < 6 -> c < mcols M -> ment (smat_to_mat S) r c = ment M r c).
  { intros M H. unfold mat_to_smat. rewrite H. cbn [Nat.eqb]. eexists. split; [reflexivity|].
    split; [now rewrite map_length, seq_length|]. intros r c Hr Hc. unfold smat_to_mat. cbn [ment].
    rewrite (nth_map_lt _ _ _ 0) by now rewrite seq_length. rewrite seq_nth by auto. cbn [sang slin vx vy vz Nat.add].
    do 6 (destruct r as [|r]; [reflexivity|]). lia. }
  split.
  - intros H. assert (E : exists ms, map_res mat_to_smat v = Ok ms /\ length ms = length v /\
      forall i M M', nth_error v i = Some M -> nth_error (map smat_to_mat ms) i = Some M' ->
       mrows M' = 6 /\ mcols M' = mcols M /\ forall r c, r < 6 -> c < mcols M -> ment M' r c = ment M r c).
    { induction v as [|M v IH].
      - exists []. split; [reflexivity|]. split; [reflexivity|]. intros [|i] ? ? H1; discriminate H1.
      - destruct IH as (ms & E & L & P); [intros; apply H; now right|].
        destruct (OKc M) as (S & ES & LS & PS); [apply H; now left|].
        exists (S :: ms). cbn [map_res]. rewrite ES. cbn [bind]. rewrite E. split; [reflexivity|].
        split; [cbn [length]; lia|]. intros [|i] M1 M' H1 H2; cbn [nth_error map] in *; [|eapply P; eassumption].
        injection H1 as <-. injection H2 as <-. split; [reflexivity|]. split; [exact LS|exact PS]. }
    destruct E as (ms & E & L & P). unfold python_setMotionSubspace. rewrite E. cbn [bind].
    eexists. split; [reflexivity|]. split; [destruct m; reflexivity|]. split; [exact L|exact P].
  - intros (M & I & N). unfold python_setMotionSubspace.
    assert (E : map_res mat_to_smat v = UB).
    { clear OKc. induction v as [|M1 v IH]; [destruct I|]. cbn [map_res].
      destruct (Nat.eq_dec (mrows M1) 6) as [H|H].
      - destruct I as [->|I]; [congruence|]. unfold mat_to_smat at 1. rewrite H. cbn [Nat.eqb bind]. rewrite (IH I). reflexivity.
      - unfold mat_to_smat at 1. rewrite (proj2 (Nat.eqb_neq _ _) H). reflexivity. }
    rewrite E. reflexivity.
Qed.

(** convertJoint. *)
Lemma cj_ok {A} (kj : list nat) kb (vf vt : list A) :
  (forall i k, i < k < length kj -> nth i kj 0 <> nth k kj 0) ->
  (forall i, i < length kj -> nth i kj 0 < length vt /\ S i < length vf) ->
  exists v', CC_convertJoint (mkCC (map Z.of_nat kj) kb) vf vt = Ok v' /\ scattered kj 1 (length kj) vf vt v'.
Proof.
  intros Dj Bj. unfold CC_convertJoint. cbn [cc_j]. rewrite map_length.
  match goal with |- context [for_up (length kj) ?b vt] =>
    destruct (for_up_inv (fun n v' => scattered kj 1 n vf vt v') b (length kj) vt) as (v' & E & S) end.
  - repeat split; auto; intros; lia.
  - intros i v' Hi S. destruct (Bj i Hi) as (Z1 & Z2). destruct (ne_Some _ _ Z2) as (x & N).
    rewrite (get_nth _ _ 0%Z) by (rewrite map_length; auto). rewrite (nth_map_lt _ _ _ 0) by auto. cbn [bind].
    rewrite (proj2 (get_Ok _ _ _) N). cbn [bind]. rewrite setz_nat, set_ok by (rewrite (proj1 S); auto).
    eexists; split; [reflexivity|]. apply scattered_step; auto.
  - exists v'. auto.
Qed.
Lemma cj_by_name from to_ : constructed from -> constructed to_ -> distinct_names from -> distinct_names to_ ->
  0 < nrJoints from ->
  (forall n, In n (tl (joint_names from)) -> In n (joint_names to_)) ->
  (forall n, In n (body_names from) -> In n (body_names to_)) ->
  exists cc, CC_ctor from to_ = Ok cc /\
    forall A (vf vt : list A), length vf = nrJoints from -> length vt = nrJoints to_ ->
    exists v', CC_convertJoint cc vf vt = Ok v' /\ length v' = length vt /\
      (nrJoints from = nrJoints to_ -> CC_sConvertJoint cc vf vt = Ok v') /\
      (nrJoints from <> nrJoints to_ -> CC_sConvertJoint cc vf vt = Throw DomainError) /\
      (forall i k n, 0 < i -> nth_error (joint_names from) i = Some n -> nth_error (joint_names to_) k = Some n ->
         nth_error v' k = nth_error vf i) /\
      (forall k n, nth_error (joint_names to_) k = Some n -> ~ In n (tl (joint_names from)) ->
         nth_error v' k = nth_error vt k).
Proof.
  intros Cf Ct [Df1 Df2] [Dt1 Dt2] NZ Ij Ib.
  destruct (constructed_names _ Ct) as (NJt & B1 & J1 & _).
  destruct (index_list _ _ (tl (joint_names from)) J1 Dt1 Ij) as (kj & Ej & Lj & Hj).
  destruct (index_list _ _ (body_names from) B1 Dt2 Ib) as (kb & Eb & Lb & Hb).
  assert (Ltl : S (length (tl (joint_names from))) = nrJoints from).
  { unfold joint_names, nrJoints in *. destruct (mb_joints from); simpl in *; [lia|]. now rewrite map_length. }
  assert (NDtl : NoDup (tl (joint_names from))) by (destruct (joint_names from); simpl; [constructor|now inversion Df1]).
  assert (InJ : forall i, i < length kj -> nth i kj 0 < nrJoints to_).
  { intros i Hi. replace (nrJoints to_) with (length (joint_names to_)) by (unfold joint_names, nrJoints; now rewrite map_length).
    apply nth_error_Some. rewrite Hj by lia. apply nth_error_Some. lia. }
  exists (mkCC (map Z.of_nat kj) (map Z.of_nat kb)).
  split. { unfold CC_ctor. unfold joint_names, body_names, nrJoints in *. destruct (mb_joints from) as [|j0 js]; [simpl in NZ; lia|].
    cbn [map tl] in Ej. rewrite (map_res_map (jointIndexByName to_) jname), Ej. cbn [bind].
    now rewrite (map_res_map (bodyIndexByName to_) bname), Eb. }
  intros A vf vt Lf Lt.
  destruct (cj_ok kj (map Z.of_nat kb) vf vt) as (v' & E & S).
  { eapply ks_distinct; eauto. }
  { intros i Hi. pose proof (InJ i Hi). split; lia. }
  exists v'. split; [exact E|]. split; [apply S|].
  split. { intros N. unfold CC_sConvertJoint. rewrite (proj2 (Nat.eqb_eq _ _)) by congruence. exact E. }
  split. { intros N. unfold CC_sConvertJoint. rewrite (proj2 (Nat.eqb_neq _ _)) by congruence. reflexivity. }
  destruct (scattered_names _ _ _ _ _ _ _ Lj Dt1 NDtl Hj S) as [G1 U1].
  split; [|exact U1].
  intros i k n Hi Hn Hk. destruct i as [|i]; [lia|].
  assert (Hn' : nth_error (tl (joint_names from)) i = Some n) by (destruct (joint_names from); [discriminate|exact Hn]).
  apply (G1 i k n Hn' Hk).
Qed.
Lemma cj1_by_name from to_ : constructed from -> constructed to_ -> distinct_names from -> distinct_names to_ ->
  0 < nrJoints from -> nrJoints from = nrJoints to_ ->
  (forall n, In n (tl (joint_names from)) -> In n (joint_names to_)) ->
  (forall n, In n (body_names from) -> In n (body_names to_)) ->
  exists cc, CC_ctor from to_ = Ok cc /\
    forall A (d : A) (vf : list A), length vf = nrJoints from ->
    exists v', CC_convertJoint1 d cc vf = Ok v' /\ length v' = nrJoints to_ /\
      (forall i k n, 0 < i -> nth_error (joint_names from) i = Some n -> nth_error (joint_names to_) k = Some n ->
         nth_error v' k = nth_error vf i) /\
      (forall k n, nth_error (joint_names to_) k = Some n -> ~ In n (tl (joint_names from)) -> nth_error v' k = Some d).
Proof.
  intros Cf Ct Df Dt NZ NE Ij Ib. destruct (cj_by_name from to_ Cf Ct Df Dt NZ Ij Ib) as (cc & E & H).
  exists cc. split; [exact E|]. intros A d vf L. unfold CC_convertJoint1.
  destruct (H A vf (repeat d (length vf)) L) as (v' & E' & L' & _ & _ & G & U); [rewrite repeat_length; congruence|].
  exists v'. split; [exact E'|]. rewrite repeat_length in L'. split; [congruence|]. split; [exact G|].
  intros k n Hk NI. rewrite (U k n Hk NI).
  assert (K : k < length vf). { assert (k < length (joint_names to_)) by (apply nth_error_Some; congruence).
    unfold joint_names in H0. rewrite map_length in H0. unfold nrJoints in *. lia. }
  rewrite (nth_error_nth' _ d) by now rewrite repeat_length. now rewrite nth_repeat.
Qed.

Lemma ex_constructed : constructed ex_mb.
Proof. exists ex_bodies, ex_joints, ex_pred, ex_succ, ex_pred, ex_Xt. split; reflexivity. Qed.
Lemma ex_distinct : distinct_names ex_mb.
Proof. split; repeat constructor; simpl; intuition discriminate. Qed.
(** A chain whose last joint is at the end of the longer robot. *)
Definition end_mb : MultiBody :=
  match MultiBody_ctor [nth 0 ex_bodies bd; nth 3 ex_bodies bd] [nth 0 ex_joints jd; nth 3 ex_joints jd]
          [-1; 0]%Z [0; 1]%Z [-1; 0]%Z (firstn 2 ex_Xt)
  with Ok mb => mb | _ => ex_mb end.
Lemma end_constructed : constructed end_mb.
Proof. exists [nth 0 ex_bodies bd; nth 3 ex_bodies bd], [nth 0 ex_joints jd; nth 3 ex_joints jd], [-1; 0]%Z, [0; 1]%Z, [-1; 0]%Z, (firstn 2 ex_Xt). split; reflexivity. Qed.

Lemma cj1_refuted : exists from to_ cc (vf : list nat), constructed from /\ constructed to_ /\
  distinct_names from /\ distinct_names to_ /\
  (forall n, In n (joint_names from) -> In n (joint_names to_)) /\
  (forall n, In n (body_names from) -> In n (body_names to_)) /\
  CC_ctor from to_ = Ok cc /\ length vf = nrJoints from /\ CC_convertJoint1 0 cc vf = UB.
Proof.
  exists end_mb, ex_mb, (mkCC [3]%Z [0; 3]%Z), [5; 7].
  split; [apply end_constructed|]. split; [apply ex_constructed|].
  split. { split; repeat constructor; simpl; intuition discriminate. }
  split; [apply ex_distinct|].
  split. { cbn. intuition. } split. { cbn. intuition. }
  split; [reflexivity|]. split; reflexivity.
Qed.
Lemma scj_refuted : exists from to_ cc (vf vt : list nat), constructed from /\ constructed to_ /\
  CC_sConstructor from to_ = Ok cc /\ CC_sConvertJoint cc vf vt = UB.
Proof.
  exists ex_mb, ex_mb, (mkCC [1; 2; 3]%Z [0; 1; 2; 3]%Z), [1; 2], [3; 4].
  split; [apply ex_constructed|]. split; [apply ex_constructed|]. split; reflexivity.
Qed.
