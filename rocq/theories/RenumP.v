(** The kinematics and the dynamics with the bodies numbered in another way. *)
From Coq Require Import Reals String ZArith Bool Arith List Lia Lra Permutation.
From Verif Require Import Res ResP SMap Vec VecP Sva SvaP Mat JointM MultiBodyM KinM DynM CoMM MomM Spec SpecDyn SpecCoM SpecRenum
  JointP JointFinP KinP MbP TreeP DynP DynHP DynCP DynFinP DynFin2P KinFinP BaseP.
Import ListNotations.
Open Scope R_scope.

(** ** Sums *)
Definition lsumR (f : nat -> R) (l : list nat) : R := fold_right (fun i x => f i + x) 0 l.
Lemma lsumR_perm f l l' : Permutation l l' -> lsumR f l = lsumR f l'.
Proof. induction 1; cbn [lsumR fold_right]; try fold (lsumR f l) (lsumR f l'); unfold lsumR in *; try congruence. ring. Qed.
Lemma lsumR_app f l l' : lsumR f (l ++ l') = lsumR f l + lsumR f l'.
Proof. unfold lsumR. induction l as [|a l IH]; cbn [app fold_right]; [ring|]. rewrite IH. ring. Qed.
Lemma lsumR_map f s l : lsumR f (map s l) = lsumR (fun i => f (s i)) l.
Proof. unfold lsumR. induction l as [|a l IH]; cbn [map fold_right]; [auto|]. now rewrite IH. Qed.
Lemma rsum_lsumR n f : rsum n f = lsumR f (seq 0 n).
Proof. induction n; [reflexivity|]. rewrite seq_S, lsumR_app, <- IHn. cbn [rsum lsumR fold_right plus]. ring. Qed.
Lemma perm_seq n s : (forall i, (i < n)%nat -> (s i < n)%nat) -> (forall i j, (i < n)%nat -> (j < n)%nat -> s i = s j -> i = j) ->
  Permutation (map s (seq 0 n)) (seq 0 n).
Proof.
  intros I J. apply NoDup_Permutation_bis.
  - assert (G : forall l, NoDup l -> (forall x, In x l -> (x < n)%nat) -> NoDup (map s l)).
    { induction 1 as [|a l N D IH]; intro B; cbn [map]; constructor.
      - intro H. apply in_map_iff in H as (b & E & Hb). apply N. rewrite (J a b); auto. apply B. now left. apply B. now right.
      - apply IH. intros x Hx. apply B. now right. }
    apply G; [apply seq_NoDup|]. intros x Hx. apply in_seq in Hx. lia.
  - rewrite map_length. auto.
  - intros x Hx. apply in_map_iff in Hx as (i & <- & Hi). apply in_seq in Hi. apply in_seq. split; [lia|]. apply I. lia.
Qed.
Lemma rsum_renum n s f : (forall i, (i < n)%nat -> (s i < n)%nat) -> (forall i j, (i < n)%nat -> (j < n)%nat -> s i = s j -> i = j) ->
  rsum n f = rsum n (fun i => f (s i)).
Proof. intros I J. rewrite !rsum_lsumR, <- (lsumR_map f s). apply lsumR_perm. symmetry. now apply perm_seq. Qed.

Section Renum.
Variables (s : nat -> nat) (mb mb' : MultiBody) (m0 m m0' m' : MBC).
Hypothesis W : wf_mb mb. Hypothesis W' : wf_mb mb'.
Hypothesis K : mbc_ok mb m0. Hypothesis K' : mbc_ok mb' m0'.
Hypothesis A : after_kinematics mb m0 m. Hypothesis A' : after_kinematics mb' m0' m'.
Hypothesis U : renumbered s mb mb'. Hypothesis S : renumbered_state s mb m0 m0'.

Lemma re_in i : (i < nrBodies mb)%nat -> (s i < nrBodies mb')%nat.
Proof. rewrite (rn_n _ _ _ U). apply (rn_in _ _ _ U). Qed.
Lemma re_par i : (i < nrBodies mb)%nat -> par mb' (s i) = option_map s (par mb i).
Proof.
  intro Hi. destruct (nth_error (mb_pred mb) i) as [z|] eqn:E.
  2:{ apply nth_error_None in E. rewrite (wf_pred_len mb W) in E. lia. }
  destruct (wf_pred mb W i Hi) as [N|N]; rewrite (nth_error_nth _ _ 0%Z E) in N.
  - subst z. unfold par. rewrite E, (rn_root _ _ _ U i Hi E). reflexivity.
  - assert (Z : z = Z.of_nat (Z.to_nat z)) by lia. rewrite Z in E. unfold par at 2. rewrite E. pose proof (rn_pred _ _ _ U i _ Hi E) as E'. unfold par. rewrite E'.
    destruct (Z.eqb_spec (Z.of_nat (Z.to_nat z)) (-1)); [lia|]. destruct (Z.eqb_spec (Z.of_nat (s (Z.to_nat z))) (-1)); [lia|]. cbn [option_map]. now rewrite !Nat2Z.id.
Qed.
Lemma re_isp d i : (d < nrBodies mb)%nat -> (i < nrBodies mb)%nat -> is_par (par mb') (s d) (s i) = is_par (par mb) d i.
Proof.
  intros Hd Hi. unfold is_par. rewrite re_par by auto. destruct (par mb d) as [p|] eqn:P; cbn [option_map]; auto.
  pose proof (par_lt mb d p W Hd P). destruct (Nat.eqb_spec p i) as [->|N]; [apply Nat.eqb_refl|]. apply Nat.eqb_neq. intro E. apply N.
  apply (rn_inj _ _ _ U); auto. lia.
Qed.
Lemma re_I i : (i < nrBodies mb)%nat -> Ib mb' (s i) = Ib mb i.
Proof. intro Hi. unfold Ib. pose proof (rn_body _ _ _ U i Hi) as E. unfold nrBodies in Hi. now rewrite (nth_error_nth' _ bd Hi), (nth_error_nth _ _ bd E) in *. Qed.
Lemma re_joint i : (i < nrBodies mb)%nat -> nth (s i) (mb_joints mb') jd = nth i (mb_joints mb) jd.
Proof.
  intro Hi. pose proof (rn_joint _ _ _ U i Hi) as E. rewrite <- (wf_joints mb W) in Hi. rewrite (nth_error_nth' _ jd Hi) in E. exact (nth_error_nth _ _ jd E).
Qed.
Lemma re_Xt i : (i < nrBodies mb)%nat -> nth (s i) (mb_Xt mb') ptid = nth i (mb_Xt mb) ptid.
Proof.
  intro Hi. pose proof (rn_Xt _ _ _ U i Hi) as E. rewrite <- (wf_Xt_len mb W) in Hi. rewrite (nth_error_nth' _ ptid Hi) in E. exact (nth_error_nth _ _ ptid E).
Qed.
Lemma re_kin : exists m1 m1', fk_post mb m0 m1 /\ fk_post mb' m0' m1' /\ mbc_ok mb m1 /\ mbc_ok mb' m1' /\ fv_post mb m1 m /\ fv_post mb' m1' m' /\
  bodyPosW m = bodyPosW m1 /\ bodyPosW m' = bodyPosW m1' /\ parentToSon m = parentToSon m1 /\ parentToSon m' = parentToSon m1' /\
  motionSubspace m = motionSubspace m1 /\ motionSubspace m' = motionSubspace m1' /\ alpha m1 = alpha m0 /\ alpha m1' = alpha m0'.
Proof.
  destruct A as (m1 & E1 & E2). destruct A' as (m1' & E1' & E2').
  pose proof (FK_run mb m0 m1 W K E1) as F. pose proof (FK_run mb' m0' m1' W' K' E1') as F'.
  pose proof (FK_mbc_ok _ _ _ W K F) as K1. pose proof (FK_mbc_ok _ _ _ W' K' F') as K1'.
  pose proof (FV_run mb m1 m W K1 E2) as V. pose proof (FV_run mb' m1' m' W' K1' E2') as V'.
  exists m1, m1'. do 6 (split; [assumption|]).
  rewrite (fv_frame _ _ _ V), (fv_frame _ _ _ V').
  split; [reflexivity|]. split; [reflexivity|]. split; [reflexivity|]. split; [reflexivity|]. split; [reflexivity|]. split; [reflexivity|].
  rewrite (fk_frame _ _ _ F), (fk_frame _ _ _ F'). split; reflexivity.
Qed.
Lemma re_ok : mbc_ok mb m /\ mbc_ok mb' m'.
Proof.
  destruct re_kin as (m1 & m1' & _ & _ & K1 & K1' & V & V' & _).
  split; [exact (FV_mbc_ok _ _ _ K1 V)|exact (FV_mbc_ok _ _ _ K1' V')].
Qed.
Lemma re_pts i : (i < nrBodies mb)%nat -> ptsn m' (s i) = ptsn m i.
Proof.
  intro Hi. destruct re_kin as (m1 & m1' & F & F' & _ & _ & _ & _ & _ & _ & Ep & Ep' & _). cbv beta. rewrite Ep, Ep'.
  rewrite (fk_pts _ _ _ F i), (fk_pts _ _ _ F' (s i)) by (auto using re_in). rewrite re_Xt by auto. f_equal.
  pose proof (fk_jc _ _ _ F i Hi) as J. pose proof (fk_jc _ _ _ F' (s i) (re_in i Hi)) as J'.
  rewrite re_joint, (rs_q _ _ _ _ S) in J' by auto. congruence.
Qed.
Lemma re_pos i : (i < nrBodies mb)%nat -> nth (s i) (bodyPosW m') ptid = nth i (bodyPosW m) ptid.
Proof.
  destruct re_kin as (m1 & m1' & F & F' & _ & _ & _ & _ & Eb & Eb' & Ep & Ep' & _). rewrite Eb, Eb'.
  induction i as [i IH] using lt_wf_ind. intro Hi.
  rewrite (fk_bp _ _ _ F i), (fk_bp _ _ _ F' (s i)) by (auto using re_in). rewrite re_par by auto.
  pose proof (re_pts i Hi) as HP. cbv beta in HP. rewrite Ep, Ep' in HP. rewrite HP.
  destruct (par mb i) eqn:P; cbn [option_map]; auto. pose proof (par_lt mb i n W Hi P). now rewrite IH by lia.
Qed.
Lemma re_vj i : (i < nrBodies mb)%nat -> vj m' (s i) = vj m i.
Proof.
  intro Hi. destruct re_kin as (m1 & m1' & F & F' & _ & _ & V & V' & _ & _ & _ & _ & _ & _ & Ea & Ea'). unfold vj.
  rewrite (fv_jv _ _ _ V i), (fv_jv _ _ _ V' (s i)) by (auto using re_in). rewrite Ea, Ea'. now rewrite re_joint, (rs_alpha _ _ _ _ S) by auto.
Qed.
Lemma re_vb i : (i < nrBodies mb)%nat -> vb m' (s i) = vb m i.
Proof.
  destruct re_kin as (m1 & m1' & F & F' & _ & _ & V & V' & _ & _ & Ep & Ep' & _). unfold vb.
  induction i as [i IH] using lt_wf_ind. intro Hi.
  rewrite (fv_vb _ _ _ V i), (fv_vb _ _ _ V' (s i)) by (auto using re_in). rewrite re_par by auto.
  pose proof (re_vj i Hi) as HV. unfold vj in HV. rewrite HV.
  pose proof (re_pts i Hi) as HP. cbv beta in HP. rewrite Ep, Ep' in HP. rewrite HP.
  destruct (par mb i) eqn:P; cbn [option_map]; auto. pose proof (par_lt mb i n W Hi P). now rewrite IH by lia.
Qed.
Lemma re_vw i : (i < nrBodies mb)%nat -> nth (s i) (bodyVelW m') sv0 = nth i (bodyVelW m) sv0.
Proof.
  intro Hi. destruct re_kin as (m1 & m1' & F & F' & _ & _ & V & V' & Eb & Eb' & _).
  rewrite (fv_vw _ _ _ V i), (fv_vw _ _ _ V' (s i)) by (auto using re_in). rewrite <- Eb, <- Eb', re_pos by auto.
  pose proof (re_vb i Hi) as HV. unfold vb in HV. now rewrite HV.
Qed.
Lemma re_tan i : (i < nrBodies mb)%nat ->
  smul (jS (nth (s i) (mb_joints mb') jd)) (nth (s i) (alphaD m') []) = smul (jS (nth i (mb_joints mb) jd)) (nth i (alphaD m) []).
Proof.
  intro Hi. destruct (kin_keeps mb m0 m W K A) as (_ & _ & Ed & _). destruct (kin_keeps mb' m0' m' W' K' A') as (_ & _ & Ed' & _).
  now rewrite Ed, Ed', re_joint, (rs_alphaD _ _ _ _ S) by auto.
Qed.
Lemma re_cross i : (i < nrBodies mb)%nat -> scross (vb m' (s i)) (vj m' (s i)) = scross (vb m i) (vj m i).
Proof. intro Hi. now rewrite re_vb, re_vj by auto. Qed.
Lemma re_fwd A0 f f' B B' : fwd (nrBodies mb) (par mb) (ptsn m) A0 f B -> fwd (nrBodies mb') (par mb') (ptsn m') A0 f' B' ->
  (forall i, (i < nrBodies mb)%nat -> f' (s i) = f i) -> forall i, (i < nrBodies mb)%nat -> B' (s i) = B i.
Proof.
  intros F F' E i. induction i as [i IH] using lt_wf_ind. intro Hi. rewrite (F i Hi), (F' (s i) (re_in i Hi)), E, re_par by auto.
  pose proof (re_pts i Hi) as HP. cbv beta in *. rewrite HP.
  destruct (par mb i) eqn:P; cbn [option_map]; auto. pose proof (par_lt mb i n W Hi P). now rewrite IH by lia.
Qed.
Lemma re_acc f f' F F' : acc (nrBodies mb) (par mb) (ptsn m) f F -> acc (nrBodies mb') (par mb') (ptsn m') f' F' ->
  (forall i, (i < nrBodies mb)%nat -> f' (s i) = f i) -> forall i, (i < nrBodies mb)%nat -> F' (s i) = F i.
Proof.
  intros HF HF' E. apply (acc_unique (nrBodies mb) (par mb) (parlt mb W) (ptsn m) f (fun i => F' (s i))); [|exact HF].
  intros i Hi u. rewrite (HF' (s i) (re_in i Hi) u), E by auto. f_equal. rewrite (rn_n _ _ _ U).
  rewrite (rsum_renum (nrBodies mb) s _ (rn_in _ _ _ U) (rn_inj _ _ _ U)). apply rsum_ext. intros d Hd. cbv beta.
  rewrite re_isp by auto. destruct (is_par (par mb) d i); auto. pose proof (re_pts d Hd) as HP. cbv beta in HP. now rewrite HP.
Qed.
Lemma re_FA A0 n n' : forwardAcceleration mb m A0 = Ok n -> forwardAcceleration mb' m' A0 = Ok n' ->
  forall i, (i < nrBodies mb)%nat -> nth (s i) (bodyAccB n') sv0 = nth i (bodyAccB n) sv0.
Proof.
  intros E E'. destruct re_ok as [K1 K1'].
  destruct (FA_total mb m A0 W K1) as (x & Ex & P). rewrite E in Ex. injection Ex as <-.
  destruct (FA_total mb' m' A0 W' K1') as (x & Ex & P'). rewrite E' in Ex. injection Ex as <-.
  intro i. induction i as [i IH] using lt_wf_ind. intro Hi.
  rewrite (fa_acc _ _ _ _ P i), (fa_acc _ _ _ _ P' (s i)) by (auto using re_in). rewrite re_par by auto.
  pose proof (re_cross i Hi) as HC. unfold vj, vb in HC. rewrite HC, re_tan by auto.
  pose proof (re_pts i Hi) as HP. cbv beta in HP. rewrite HP.
  destruct (par mb i) eqn:Q; cbn [option_map]; auto. pose proof (par_lt mb i n0 W Hi Q). now rewrite IH by lia.
Qed.
Lemma re_grav : gravity m' = gravity m.
Proof.
  destruct (kin_keeps mb m0 m W K A) as (_ & _ & _ & _ & Eg & _). destruct (kin_keeps mb' m0' m' W' K' A') as (_ & _ & _ & _ & Eg' & _).
  now rewrite Eg, Eg', (rs_gravity _ _ _ _ S).
Qed.
Lemma re_force B B' : (forall i, (i < nrBodies mb)%nat -> B' (s i) = B i) ->
  forall i, (i < nrBodies mb)%nat -> local_force mb' m' B' (s i) = local_force mb m B i.
Proof.
  intros E i Hi. unfold local_force, fext. destruct (kin_keeps mb m0 m W K A) as (_ & _ & _ & Ef & _). destruct (kin_keeps mb' m0' m' W' K' A') as (_ & _ & _ & Ef' & _).
  now rewrite Ef, Ef', re_I, re_vb, E, re_pos, (rs_force _ _ _ _ S) by auto.
Qed.
Lemma re_ms i : (i < nrBodies mb)%nat -> nth (s i) (motionSubspace m') [] = nth i (motionSubspace m) [].
Proof.
  intro Hi. destruct re_kin as (m1 & m1' & F & F' & _ & _ & _ & _ & _ & _ & _ & _ & Em & Em' & _). rewrite Em, Em'.
  rewrite (fk_ms _ _ _ F i Hi), (fk_ms _ _ _ F' (s i) (re_in i Hi)). now rewrite re_joint.
Qed.
Lemma re_ID f f' g g' n n' : length f = nrBodies mb -> length f' = nrBodies mb' ->
  inverseDynamics mb f m = Ok (g, n) -> inverseDynamics mb' f' m' = Ok (g', n') ->
  forall i, (i < nrBodies mb)%nat -> nth (s i) (jointTorque n') [] = nth i (jointTorque n) [] /\ nth (s i) g' sv0 = nth i g sv0.
Proof.
  intros L1 L2 E E'. destruct re_ok as [K1 K1'].
  pose proof (ID_run mb m f g n W K1 L1 E) as P. pose proof (ID_run mb' m' f' g' n' W' K1' L2 E') as P'.
  pose proof (ip_acc _ _ _ _ P) as HB. pose proof (ip_acc _ _ _ _ P') as HB'. rewrite re_grav in HB'.
  assert (EB : forall i, (i < nrBodies mb)%nat -> nth (s i) (bodyAccB n') sv0 = nth i (bodyAccB n) sv0).
  { apply (re_fwd _ _ _ (fun i => nth i (bodyAccB n) sv0) (fun i => nth i (bodyAccB n') sv0) HB HB'). intros d Hd. cbv beta.
    now rewrite (re_cross d Hd), (re_tan d Hd). }
  assert (EF : forall i, (i < nrBodies mb)%nat -> nth (s i) g' sv0 = nth i g sv0).
  { apply (re_acc _ _ (fun i => nth i g sv0) (fun i => nth i g' sv0) (ip_F _ _ _ _ P) (ip_F _ _ _ _ P')). intros d Hd. cbv beta.
    apply (re_force (fun i => nth i (bodyAccB n) sv0) (fun i => nth i (bodyAccB n') sv0)); auto. }
  intros i Hi. split; [|now apply EF]. rewrite (ip_t _ _ _ _ P), (ip_t _ _ _ _ P') by (auto using re_in). now rewrite re_ms, EF by auto.
Qed.
Lemma re_dof i : (i < nrBodies mb)%nat -> dofi mb' (s i) = dofi mb i.
Proof. intro Hi. unfold dofi. now rewrite re_joint. Qed.
Lemma re_C o o' d d' : fd_ok mb o -> fd_ok mb' o' -> computeC mb m o = Ok d -> computeC mb' m' o' = Ok d' ->
  forall i a, (i < nrBodies mb)%nat -> (a < dofi mb i)%nat -> nth (pos mb' (s i) + a) (fd_C d') 0 = nth (pos mb i + a) (fd_C d) 0.
Proof.
  intros O1 O2 E E'. destruct re_ok as [K1 K1'].
  destruct (C_ok mb m o W K1 O1) as (c1 & E1 & P1). rewrite E in E1. injection E1 as <-.
  destruct (C_ok mb' m' o' W' K1' O2) as (c2 & E2 & P2). rewrite E' in E2. injection E2 as <-.
  destruct (cp_C _ _ _ _ P1) as (B & f & F & HB & Hf & HF & HC). destruct (cp_C _ _ _ _ P2) as (B' & f' & F' & HB' & Hf' & HF' & HC').
  rewrite re_grav in HB'. pose proof (re_fwd _ _ _ B B' HB HB' (fun d Hd => re_cross d Hd)) as EB.
  assert (EF : forall i, (i < nrBodies mb)%nat -> F' (s i) = F i).
  { apply (re_acc _ _ F F' HF HF'). intros x Hx. rewrite Hf, Hf' by (auto using re_in). now apply re_force. }
  intros i a Hi Ha. rewrite HC by auto. rewrite HC' by (rewrite ?re_dof; auto using re_in). now rewrite EF, re_ms by auto.
Qed.
Hypothesis RM : rigid_mb mb. Hypothesis RM' : rigid_mb mb'. Hypothesis C : config_ok mb m0.
Lemma re_onto i' : (i' < nrBodies mb)%nat -> exists i, (i < nrBodies mb)%nat /\ s i = i'.
Proof.
  intro Hi. pose proof (perm_seq (nrBodies mb) s (rn_in _ _ _ U) (rn_inj _ _ _ U)) as P.
  assert (H : In i' (map s (seq 0 (nrBodies mb)))) by (apply (Permutation_in _ (Permutation_sym P)); apply in_seq; lia).
  apply in_map_iff in H as (i & E & H). apply in_seq in H. exists i. split; [lia|exact E].
Qed.
Lemma re_config : config_ok mb' m0'.
Proof.
  intros i' j x Hj Hx.
  assert (Hi : (i' < nrBodies mb)%nat) by (rewrite <- (rn_n _ _ _ U), <- (wf_joints mb' W'); apply nth_error_Some; congruence).
  destruct (re_onto i' Hi) as (i & Li & <-). rewrite (rn_joint _ _ _ U i Li) in Hj.
  pose proof (rs_q _ _ _ _ S i Li) as E. rewrite (nth_error_nth _ _ [] Hx) in E.
  apply (C i j x Hj). pose proof (sized_length _ _ _ (ok_q _ _ K)) as LQ. rewrite (wf_nrJoints mb W) in LQ. rewrite E. apply nth_error_nth'. lia.
Qed.
Lemma re_H o o' h h' : fd_ok mb o -> fd_ok mb' o' -> computeH mb m o = Ok h -> computeH mb' m' o' = Ok h' ->
  forall i j a b, (i < nrBodies mb)%nat -> (j < nrBodies mb)%nat -> (a < dofi mb i)%nat -> (b < dofi mb j)%nat ->
  ment (fd_H h') (pos mb' (s i) + a) (pos mb' (s j) + b) = ment (fd_H h) (pos mb i + a) (pos mb j + b).
Proof.
  intros FO FO' E E' i j a b Hi Hj Ha Hb.
  destruct (H_run mb m0 m o h W RM K C A FO E) as [D P]. destruct (H_run mb' m0' m' o' h' W' RM' K' re_config A' FO' E') as [D' P'].
  rewrite (hp_H _ _ _ _ P) by auto. rewrite (hp_H _ _ _ _ P') by (rewrite ?re_dof; auto using re_in).
  unfold Msp, Fu.
  assert (EX : forall i a, (i < nrBodies mb)%nat -> axis m' (s i) a = axis m i a) by (intros; unfold axis; now rewrite re_ms).
  rewrite (unit_bilin (nrBodies mb) (par mb) (parlt mb W)) by lia.
  rewrite (unit_bilin (nrBodies mb') (par mb') (parlt mb' W')) by (now apply re_in). rewrite (rn_n _ _ _ U) at 1.
  rewrite (rsum_renum (nrBodies mb) s _ (rn_in _ _ _ U) (rn_inj _ _ _ U)). apply rsum_ext. intros y Hy. cbv beta.
  assert (EA : forall i v, (i < nrBodies mb)%nat -> unitA (par mb') (ptsn m') (s i) v (s y) = unitA (par mb) (ptsn m) i v y).
  { intros i0 v H0. apply (re_fwd sv0 (at_ i0 v) (at_ (s i0) v) (unitA (par mb) (ptsn m) i0 v) (unitA (par mb') (ptsn m') (s i0) v)); auto.
    - apply unitA_fwd. apply (parlt mb W).
    - apply unitA_fwd. apply (parlt mb' W').
    - intros x Hx. unfold at_. destruct (Nat.eqb_spec x i0) as [->|N]; [now rewrite Nat.eqb_refl|].
      destruct (Nat.eqb_spec (s x) (s i0)) as [N'|]; auto. exfalso. apply N. apply (rn_inj _ _ _ U); auto. }
  now rewrite !EA, !EX, re_I by auto.
Qed.
End Renum.
