(** The matrices of the centre of mass and of the centroidal momentum with the bodies numbered in another way. *)
From Coq Require Import Reals String ZArith Bool Arith List Lia Lra.
From Verif Require Import Res ResP SMap Vec VecP Sva SvaP Mat JointM MultiBodyM KinM DynM JacM CoMM MomM Spec SpecDyn SpecJac SpecCoM SpecRenum
  JointP JointFinP KinP KinPathP MbP TreeP DynP DynHP DynCP DynFinP KinFinP BaseP DerivTreeP JacP JacFinP JacFin2P JacBlkP JacTopP CoMFinP MomP
  RenumP RenumTopP RenumJacP.
Import ListNotations.
Open Scope R_scope.

Lemma in_tile mb i k a : wf_mb mb -> (i < nrBodies mb)%nat -> (k < nrBodies mb)%nat -> (a < dofi mb i)%nat ->
  ((pos mb k <=? pos mb i + a) && (pos mb i + a <? pos mb k + dofi mb k))%nat = (k =? i)%nat.
Proof.
  intros W Hi Hk Ha. destruct (Nat.eqb_spec k i) as [->|N].
  - apply andb_true_intro. split; [apply Nat.leb_le|apply Nat.ltb_lt]; lia.
  - apply andb_false_iff. pose proof (wf_nrJoints mb W) as NJ. destruct (Nat.lt_ge_cases k i) as [L|L].
    + right. apply Nat.ltb_ge. pose proof (pos_mono mb k i L ltac:(lia)). lia.
    + left. apply Nat.leb_gt. pose proof (pos_mono mb i k ltac:(lia) ltac:(lia)). lia.
Qed.
Section RenumMat.
Variables (s : nat -> nat) (mb mb' : MultiBody) (m0 m m0' m' : MBC).
Hypothesis W : wf_mb mb. Hypothesis W' : wf_mb mb'. Hypothesis RM : rigid_mb mb.
Hypothesis K : mbc_ok mb m0. Hypothesis C : config_ok mb m0. Hypothesis K' : mbc_ok mb' m0'.
Hypothesis U : renumbered s mb mb'. Hypothesis S : renumbered_state s mb m0 m0'.
Hypothesis A : after_kinematics mb m0 m. Hypothesis A' : after_kinematics mb' m0' m'.
Let RM' := renum_rigid s mb mb' W W' U RM.
Let C' := re_config s mb mb' m0 m0' W W' K U S C.
Let RN := kin_run mb m0 m W RM K C A.
Let RN' := kin_run mb' m0' m' W' RM' K' C' A'.
Let EX := re_pos s mb mb' m0 m m0' m' W W' K K' A A' U S.
Let EV := re_vb s mb mb' m0 m m0' m' W W' K K' A A' U S.
Let EW := re_vw s mb mb' m0 m m0' m' W W' K K' A A' U S.
Let EM := re_ms s mb mb' m0 m m0' m' W W' K K' A A' U.
Let ED := re_dof s mb mb' W U.

Lemma rm_ctr l f i a : (forall k, In k l -> (k < nrBodies mb)%nat) -> (i < nrBodies mb)%nat -> (a < dofi mb i)%nat ->
  forall off, ctr (pblocks mb' (map s l) off) f (pos mb' (s i) + a) = ctr (pblocks mb l off) f (pos mb i + a).
Proof.
  intros L Hi Ha. induction l as [|k l IH]; intro off; cbn [map pblocks ctr]; auto. cbn [bl_dof bl_jac bl_len].
  pose proof (L k (or_introl eq_refl)) as Hk. rewrite IH by (intros; apply L; now right). rewrite (ED k Hk).
  rewrite (in_tile mb i k a W Hi Hk Ha). rewrite <- (ED k Hk) at 1.
  rewrite (in_tile mb' (s i) (s k) a W') by (rewrite ?ED; auto; now apply (re_in s mb mb' U)).
  f_equal. destruct (Nat.eqb_spec k i) as [->|N].
  - rewrite Nat.eqb_refl. f_equal. lia.
  - destruct (Nat.eqb_spec (s k) (s i)) as [E|]; auto. exfalso. apply N. now apply (rn_inj _ _ _ U).
Qed.
Lemma rm_inertia i : (i < nrBodies mb)%nat -> inertia_of mb' (s i) = inertia_of mb i.
Proof. intro Hi. unfold inertia_of. now rewrite (lp_B s mb mb' U i Hi). Qed.
Lemma rm_mass i : (i < nrBodies mb)%nat -> mass_of mb' (s i) = mass_of mb i.
Proof. intro Hi. unfold mass_of. now rewrite rm_inertia. Qed.
Lemma rm_com i : (i < nrBodies mb)%nat -> own_com mb' (s i) = own_com mb i.
Proof. intro Hi. unfold own_com. now rewrite rm_mass, rm_inertia. Qed.
Lemma rm_total : total_mass_of mb' = total_mass_of mb.
Proof. unfold total_mass_of. rewrite (rn_n _ _ _ U). apply (rsum_same s _ (rn_in _ _ _ U) (rn_inj _ _ _ U)). exact rm_mass. Qed.

Variables (w w' : list R).
Hypothesis HW : forall i, (i < nrBodies mb)%nat -> nth (s i) w' 0 = nth i w 0.
Section Paths.
Variables (path path' : nat -> list nat).
Hypothesis HP : forall b, (b < nrBodies mb)%nat -> root_path mb b (path b).
Hypothesis HP' : forall b, (b < nrBodies mb')%nat -> root_path mb' b (path' b).
Lemma rm_path b : (b < nrBodies mb)%nat -> path' (s b) = map s (path b).
Proof.
  intro Hb. apply (root_path_unique mb' (s b) _ _ W'); [apply HP'; now apply (re_in s mb mb' U)|]. apply (renum_path s mb mb'); auto.
Qed.
Lemma rm_in b k : (b < nrBodies mb)%nat -> In k (path b) -> (k < nrBodies mb)%nat.
Proof. intros Hb I. eapply root_path_in; eauto. Qed.
Lemma rm_fcols X b : (b < nrBodies mb)%nat -> concat (map (fcols mb' m' X) (path' (s b))) = concat (map (fcols mb m X) (path b)).
Proof.
  intro Hb. f_equal. rewrite rm_path, map_map by auto. apply map_ext_in. intros k Hk. apply (rm_in b k Hb) in Hk. unfold fcols.
  rewrite (re_joint s mb mb' W U k Hk). now rewrite (EX k Hk).
Qed.
Lemma rm_dcols col X V b : (b < nrBodies mb)%nat -> concat (map (dcols m' col X V) (path' (s b))) = concat (map (dcols m col X V) (path b)).
Proof.
  intro Hb. f_equal. rewrite rm_path, map_map by auto. apply map_ext_in. intros k Hk. apply (rm_in b k Hb) in Hk. unfold dcols.
  now rewrite (EX k Hk), (EV k Hk), (EM k Hk).
Qed.
Lemma rm_lcols b : (b < nrBodies mb)%nat -> lcols mb' m' path' (own_com mb') (s b) = lcols mb m path (own_com mb) b.
Proof. intro Hb. unfold lcols. rewrite (rm_fcols _ b Hb). now rewrite (rm_com b Hb), (EX b Hb). Qed.
Lemma rm_ldots b : (b < nrBodies mb)%nat -> ldots m' path' (own_com mb') (s b) = ldots m path (own_com mb) b.
Proof.
  intro Hb. unfold ldots. rewrite (rm_dcols _ _ _ b Hb).
  assert (E : dcol_world m' (s b) = dcol_world m b) by (unfold dcol_world, wN; rewrite (EX b Hb), (EW b Hb); reflexivity).
  now rewrite E, (rm_com b Hb), (EX b Hb), (EV b Hb).
Qed.
Lemma rm_coef b : (b < nrBodies mb)%nat -> coefw mb' w' (s b) = coefw mb w b.
Proof. intro Hb. unfold coefw. now rewrite rm_mass, rm_total, HW. Qed.
Lemma rm_entry cols cols' i a r : (forall b, (b < nrBodies mb)%nat -> cols' (s b) = cols b) -> (i < nrBodies mb)%nat -> (a < dofi mb i)%nat ->
  entry mb' path' (coefw mb' w') cols' r (pos mb' (s i) + a) = entry mb path (coefw mb w) cols r (pos mb i + a).
Proof.
  intros E Hi Ha. unfold entry. rewrite (rn_n _ _ _ U). apply (rsum_same s _ (rn_in _ _ _ U) (rn_inj _ _ _ U)). intros b Hb. cbv beta.
  rewrite rm_coef, rm_path, E by auto. f_equal. apply rm_ctr; auto. intros k. now apply rm_in.
Qed.
Lemma rm_entry6 cols cols' i a r : (forall b, (b < nrBodies mb)%nat -> cols' (s b) = cols b) -> (i < nrBodies mb)%nat -> (a < dofi mb i)%nat ->
  entry6 mb' path' (nrBodies mb') cols' r (pos mb' (s i) + a) = entry6 mb path (nrBodies mb) cols r (pos mb i + a).
Proof.
  intros E Hi Ha. unfold entry6. rewrite (rn_n _ _ _ U). apply (rsum_same s _ (rn_in _ _ _ U) (rn_inj _ _ _ U)). intros b Hb. cbv beta.
  rewrite rm_path, E by auto. apply rm_ctr; auto. intros k. now apply rm_in.
Qed.
Lemma rm_bcols b : (b < nrBodies mb)%nat -> bcols mb' m' path' (s b) = bcols mb m path b.
Proof. intro Hb. unfold bcols. rewrite (rm_fcols _ b Hb). now rewrite (EX b Hb). Qed.
Lemma rm_bdots b : (b < nrBodies mb)%nat -> bdots m' path' (s b) = bdots m path b.
Proof. intro Hb. unfold bdots. rewrite (rm_dcols _ _ _ b Hb). now rewrite (EX b Hb), (EV b Hb). Qed.
Lemma rm_mcolsM com b : (b < nrBodies mb)%nat -> mcolsM mb' m' path' w' com (s b) = mcolsM mb m path w com b.
Proof. intro Hb. unfold mcolsM, MomP.A, Y. now rewrite (rm_bcols b Hb), (rm_inertia b Hb), (HW b Hb), (EX b Hb). Qed.
Lemma rm_mcolsD com v b : (b < nrBodies mb)%nat -> mcolsD mb' m' path' w' com v (s b) = mcolsD mb m path w com v b.
Proof.
  intro Hb. unfold mcolsD, MomP.A, MomP.B, Y. now rewrite (rm_bcols b Hb), (rm_bdots b Hb), (rm_inertia b Hb), (HW b Hb), (EX b Hb), (EV b Hb).
Qed.
End Paths.
Lemma renum_com_jacobian c c' : comj_of mb w c -> comj_of mb' w' c' ->
  exists c1 c1' c2 c2', comj_jacobian mb m c = Ok c1 /\ comj_jacobian mb' m' c' = Ok c1' /\
    comj_jacobianDot mb m c = Ok c2 /\ comj_jacobianDot mb' m' c' = Ok c2' /\
    forall r i a, (r < 3)%nat -> (i < nrBodies mb)%nat -> (a < dofi mb i)%nat ->
      ment (cj_jac c1') r (pos mb' (s i) + a) = ment (cj_jac c1) r (pos mb i + a) /\
      ment (cj_dot c2') r (pos mb' (s i) + a) = ment (cj_dot c2) r (pos mb i + a).
Proof.
  intros HC HC'. destruct (paths_exist mb W) as (path & HP). destruct (paths_exist mb' W') as (path' & HP').
  destruct (comj_jacobian_ok mb m0 m W RN path HP w c HC) as (c1 & E1 & _ & _ & P1).
  destruct (comj_jacobian_ok mb' m0' m' W' RN' path' HP' w' c' HC') as (c1' & E1' & _ & _ & P1').
  destruct (comj_jacobianDot_ok mb m0 m W RN path HP w c HC) as (c2 & E2 & _ & _ & P2).
  destruct (comj_jacobianDot_ok mb' m0' m' W' RN' path' HP' w' c' HC') as (c2' & E2' & _ & _ & P2').
  exists c1, c1', c2, c2'. do 4 (split; [assumption|]). intros r i a Hr Hi Ha.
  assert (L : (pos mb i + a < mb_nrDof mb)%nat) by (pose proof (pos_le mb i W Hi); lia).
  assert (L' : (pos mb' (s i) + a < mb_nrDof mb')%nat) by (pose proof (pos_le mb' (s i) W' (re_in s mb mb' U i Hi)) as Q; rewrite (ED i Hi) in Q; lia).
  rewrite P1, P1', P2, P2' by auto. split; apply rm_entry; auto; intros; [now apply rm_lcols|now apply rm_ldots].
Qed.
Lemma renum_momentum_matrix com v c c' : cmm_of mb w c -> cmm_of mb' w' c' ->
  exists c1 c1' c2 c2', computeMatrix mb m com c = Ok c1 /\ computeMatrix mb' m' com c' = Ok c1' /\
    computeMatrixDot mb m com v c = Ok c2 /\ computeMatrixDot mb' m' com v c' = Ok c2' /\
    forall r i a, (r < 6)%nat -> (i < nrBodies mb)%nat -> (a < dofi mb i)%nat ->
      ment (cm_mat c1') r (pos mb' (s i) + a) = ment (cm_mat c1) r (pos mb i + a) /\
      ment (cm_dot c2') r (pos mb' (s i) + a) = ment (cm_dot c2) r (pos mb i + a).
Proof.
  intros HC HC'. destruct (paths_exist mb W) as (path & HP). destruct (paths_exist mb' W') as (path' & HP').
  destruct (matrix_ok mb m0 m W RN path HP w com c HC) as (c1 & E1 & _ & _ & P1).
  destruct (matrix_ok mb' m0' m' W' RN' path' HP' w' com c' HC') as (c1' & E1' & _ & _ & P1').
  destruct (matrixDot_ok mb m0 m W RN path HP w com v c HC) as (c2 & E2 & _ & _ & P2).
  destruct (matrixDot_ok mb' m0' m' W' RN' path' HP' w' com v c' HC') as (c2' & E2' & _ & _ & P2').
  exists c1, c1', c2, c2'. do 4 (split; [assumption|]). intros r i a Hr Hi Ha.
  rewrite P1, P1', P2, P2' by auto. split; apply rm_entry6; auto; intros; [now apply rm_mcolsM|now apply rm_mcolsD].
Qed.
End RenumMat.
