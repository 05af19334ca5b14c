(** The chains of Jacobian objects. *)
From Coq Require Import Reals String ZArith Bool Arith List Lia Lra.
From Verif Require Import Res ResP SMap Vec VecP Sva SvaP Mat JointM MultiBodyM KinM DynM JacM Spec SpecDyn SpecJac SpecRel SpecSub
  JointP JointFinP KinP KinPathP MbP TreeP DynP DynCP ConvP KinFinP SpecDeriv DerivP DerivTreeP JacP JacFinP JacFin2P RelP RelTopP RelFinP SubP.
Import ListNotations.
Open Scope R_scope.

Lemma root_path_adj mb i l : root_path mb i l ->
  par mb (nth 0 l 0%nat) = None /\ (forall k, (S k < length l)%nat -> par mb (nth (S k) l 0%nat) = Some (nth k l 0%nat)) /\ nth (length l - 1) l 0%nat = i /\ (0 < length l)%nat.
Proof.
  intro H. induction H as [i H|i p l H HR (A & B & C & L)].
  - cbn. split; [now apply pred_par_none|]. split; [intros; lia|]. split; [reflexivity|lia].
  - rewrite app_length. cbn [length]. split; [now rewrite app_nth1 by lia|]. split; [|split; [|lia]].
    + intros k Hk. destruct (Nat.eq_dec (S k) (length l)) as [E|NE].
      * rewrite (app_nth2 l [i]) by lia. replace (S k - length l)%nat with 0%nat by lia. cbn [nth]. rewrite app_nth1 by lia.
        replace k with (length l - 1)%nat by lia. rewrite C. now apply pred_par.
      * rewrite !app_nth1 by lia. apply B. lia.
    + rewrite app_nth2 by lia. replace (length l + 1 - 1 - length l)%nat with 0%nat by lia. reflexivity.
Qed.
Lemma tail_adj mb b c lc s : wf_mb mb -> root_path mb c lc -> root_path mb b (lc ++ s) ->
  (forall k, (S k < length s)%nat -> par mb (nth (S k) s 0%nat) = Some (nth k s 0%nat)) /\ ((0 < length s)%nat -> par mb (nth 0 s 0%nat) = Some c) /\
  ((0 < length s)%nat -> nth (length s - 1) s 0%nat = b) /\ (length s = 0%nat -> b = c).
Proof.
  intros W RC RB. destruct (root_path_adj _ _ _ RC) as (_ & _ & LC & L). destruct (root_path_adj _ _ _ RB) as (_ & B & LB & _). rewrite app_length in B, LB.
  split; [|split; [|split]].
  - intros k Hk. specialize (B (length lc + k)%nat ltac:(lia)). rewrite !app_nth2 in B by lia.
    replace (S (length lc + k) - length lc)%nat with (S k) in B by lia. now replace (length lc + k - length lc)%nat with k in B by lia.
  - intro Hs. specialize (B (length lc - 1)%nat ltac:(lia)). rewrite app_nth2, app_nth1 in B by lia. rewrite LC in B. now replace (S (length lc - 1) - length lc)%nat with 0%nat in B by lia.
  - intro Hs. rewrite <- LB. rewrite app_nth2 by lia. f_equal. lia.
  - intro Hs. rewrite <- LB. rewrite app_nth1 by lia. rewrite Hs, Nat.add_0_r. now symmetry.
Qed.
Lemma nth_rev0 (l : list nat) k : (k < length l)%nat -> nth k (rev l) 0%nat = nth (length l - 1 - k) l 0%nat.
Proof. intro L. rewrite rev_nth by auto. f_equal. lia. Qed.

Lemma rel_pose_id X : relative_pose X ptid = X.
Proof. unfold relative_pose. rewrite <- (ptmul_id_r (ptinv ptid)), ptinv_l by apply SO3_id. apply ptmul_id_r. Qed.
Lemma rel_vel_0 X V : relative_velocity X ptid V sv0 = V.
Proof. unfold relative_velocity. rewrite ptm_zero. apply sub_zero_r. Qed.
(** ** Objects without a reference *)
Section Root.
Variables (mb : MultiBody) (b : nat) (p : V3) (J : Jac).
Hypothesis W : wf_mb mb.
Hypothesis RM : rigid_mb mb.
Hypothesis HJ : jacobian_of mb b p J.
Let path := jc_path J.
Let IN : forall k, In k ([] ++ path) -> (k < nrBodies mb)%nat := fun k H => root_path_in mb b path W (jo_path _ _ _ _ HJ) k H.
Lemma root_sub : exists ch, subMultiBody mb J = Ok ch /\ is_chain mb path ch /\
  mb_joints ch = map (sub_j mb ([] ++ path) 0) (seq 0 (length path)) /\ mb_Xt ch = map (sub_x mb ([] ++ path) 0) (seq 0 (length path)).
Proof. apply (sub_ok mb J [] path W RM IN eq_refl). exact (jo_sign _ _ _ _ HJ). Qed.
Lemma root_same ch : mb_joints ch = map (sub_j mb ([] ++ path) 0) (seq 0 (length path)) -> mb_Xt ch = map (sub_x mb ([] ++ path) 0) (seq 0 (length path)) -> same_joints mb path ch.
Proof.
  intros EJ EX k Hk. assert (Lk : (nth k path 0%nat < nrBodies mb)%nat) by (apply IN; now apply nth_In). split.
  - rewrite EJ, nth_error_map, (nth_error_nth' _ 0%nat), seq_nth by (rewrite ?seq_length; auto). cbn [option_map Nat.add]. symmetry. rewrite (nth_error_nth' _ jd) by (rewrite (wf_joints mb W); auto). reflexivity.
  - rewrite EX, nth_error_map, (nth_error_nth' _ 0%nat), seq_nth by (rewrite ?seq_length; auto). cbn [option_map Nat.add]. symmetry. rewrite (nth_error_nth' _ ptid) by (rewrite (wf_Xt_len mb W); auto).
    unfold sub_x. destruct k; reflexivity.
Qed.
Section Kin.
Variables (ch : MultiBody) (m0 m c0 c : MBC).
Hypothesis HC : is_chain mb path ch.
Hypothesis EJ : mb_joints ch = map (sub_j mb ([] ++ path) 0) (seq 0 (length path)).
Hypothesis EX : mb_Xt ch = map (sub_x mb ([] ++ path) 0) (seq 0 (length path)).
Hypothesis M0 : mbc_ok mb m0.
Hypothesis C0 : config_ok mb m0.
Hypothesis AM : after_kinematics mb m0 m.
Hypothesis KC : mbc_ok ch c0.
Hypothesis AL : along path m0 c0.
Hypothesis AK : after_kinematics ch c0 c.
Let RN : run mb m0 m := kin_run mb m0 m W RM M0 C0 AM.
Lemma root_pos k : (k < length path)%nat -> posW c k = posW m (nth k path 0%nat).
Proof.
  intro L. destruct (root_path_adj _ _ _ (jo_path _ _ _ _ HJ)) as (A & B & _ & _). fold path in A, B.
  rewrite <- (rel_pose_id (posW m (nth k path 0%nat))).
  apply (up_pos mb [] path W RM IN m0 m ch c0 c RN C0 M0 HC EJ EX KC AL AK ptid SO3_id); cbn [length app]; try (intros; lia); auto.
  - intros _ _. now rewrite A.
  - intros H. cbn [length] in H. lia.
Qed.
Lemma root_vel k : (k < length path)%nat -> vb c k = vb m (nth k path 0%nat).
Proof.
  intro L. destruct (root_path_adj _ _ _ (jo_path _ _ _ _ HJ)) as (A & B & _ & _). fold path in A, B.
  rewrite <- (rel_vel_0 (posW m (nth k path 0%nat)) (vb m (nth k path 0%nat))).
  apply (chain_vel mb [] path W RM IN m0 m ch c0 c RN C0 M0 HC EJ EX KC AL AK ptid SO3_id); cbn [length app]; try (intros; lia); auto.
  - intros _ _. now rewrite A.
  - intros _. now rewrite A.
Qed.
Lemma root_velW k : (k < length path)%nat -> nth k (bodyVelW c) sv0 = nth (nth k path 0%nat) (bodyVelW m) sv0.
Proof.
  intro L. pose proof (ch_run mb [] path W IN m0 ch c0 c C0 M0 HC EJ KC AL AK) as RR.
  rewrite (r_vw _ _ _ RR) by (destruct HC as (_ & _ & -> & _); auto). rewrite (r_vw _ _ _ RN) by (apply IN; now apply nth_In).
  fold (vb c k). fold (vb m (nth k path 0%nat)). now rewrite root_pos, root_vel by auto.
Qed.
Lemma chain_path n : (n < length path)%nat -> root_path ch n (seq 0 (S n)).
Proof.
  destruct HC as (_ & _ & _ & EPr & _). assert (E : forall k, (k < length path)%nat -> nth_error (mb_pred ch) k = Some (Z.of_nat k - 1)%Z).
  { intros k Hk. rewrite EPr, nth_error_map, (nth_error_nth' _ 0%nat) by now rewrite seq_length. now rewrite seq_nth. }
  induction n as [|n IH]; intro L.
  - constructor. now rewrite E.
  - rewrite seq_S. cbn [Nat.add]. apply (rp_step ch (S n) n); [rewrite E by auto; f_equal; lia|apply IH; lia].
Qed.
Lemma root_jac Jc : jacobian_of ch (length path - 1) p Jc ->
  exists J1 Jc1, jacobian mb m J = Ok J1 /\ jacobian ch c Jc = Ok Jc1 /\ jc_jac J1 = jc_jac Jc1.
Proof.
  intro HJc. pose proof (ch_run mb [] path W IN m0 ch c0 c C0 M0 HC EJ KC AL AK) as RR. pose proof (proj1 HC) as WC.
  destruct (root_path_adj _ _ _ (jo_path _ _ _ _ HJ)) as (_ & _ & LB & L). fold path in LB, L.
  eexists. eexists. split; [apply (jacobian_run mb m0 m W RN b p J HJ)|]. split; [apply (jacobian_run ch c0 c WC RR _ p Jc HJc)|]. cbn [with_jac jc_jac]. f_equal.
  rewrite (root_path_unique ch _ _ _ WC (jo_path _ _ _ _ HJc) (chain_path (length path - 1) ltac:(lia))).
  replace (S (length path - 1)) with (length path) by lia. rewrite root_pos, LB by lia. fold path.
  set (X := pttr (trR (ptmul (pttr p) (posW m b)))).
  transitivity (map (fun k => fcols mb m X (nth k path 0%nat)) (seq 0 (length path))); [symmetry; apply map_seq_nth|].
  apply map_ext_in. intros k Hk. apply in_seq in Hk. unfold fcols. rewrite root_pos by lia. rewrite EJ, nth_map_seq by lia. reflexivity.
Qed.
End Kin.
End Root.

Lemma root_chain : forall mb b p J, wf_mb mb -> rigid_mb mb -> jacobian_of mb b p J ->
  exists ch, subMultiBody mb J = Ok ch /\ is_chain mb (jc_path J) ch /\ same_joints mb (jc_path J) ch /\
    forall m0 m c0 c, mbc_ok mb m0 -> config_ok mb m0 -> after_kinematics mb m0 m ->
    mbc_ok ch c0 -> along (jc_path J) m0 c0 -> after_kinematics ch c0 c ->
    (forall k, (k < length (jc_path J))%nat ->
      nth_error (bodyPosW c) k = nth_error (bodyPosW m) (nth k (jc_path J) 0%nat) /\
      nth_error (bodyVelB c) k = nth_error (bodyVelB m) (nth k (jc_path J) 0%nat) /\
      nth_error (bodyVelW c) k = nth_error (bodyVelW m) (nth k (jc_path J) 0%nat)) /\
    forall Jc, jacobian_of ch (length (jc_path J) - 1) p Jc ->
      exists J1 Jc1, jacobian mb m J = Ok J1 /\ jacobian ch c Jc = Ok Jc1 /\ jc_jac J1 = jc_jac Jc1.
Proof.
  intros mb b p J W RM HJ. destruct (root_sub mb b p J W RM HJ) as (ch & E & HC & EJ & EX). exists ch. split; [exact E|]. split; [exact HC|].
  split; [now apply (root_same mb b p J W HJ)|]. intros m0 m c0 c M0 C0 AM KC AL AK.
  pose proof (r_ok _ _ _ (kin_run mb m0 m W RM M0 C0 AM)) as OM.
  assert (IN : forall k, In k ([] ++ jc_path J) -> (k < nrBodies mb)%nat) by (intros k H; apply (root_path_in mb b _ W (jo_path _ _ _ _ HJ) k H)).
  pose proof (r_ok _ _ _ (ch_run mb [] (jc_path J) W IN m0 ch c0 c C0 M0 HC EJ KC AL AK)) as OC.
  assert (NC : nrBodies ch = length (jc_path J)) by apply HC. split.
  - intros k Hk. assert (Lk : (nth k (jc_path J) 0%nat < nrBodies mb)%nat) by (apply IN; now apply nth_In). split; [|split].
    + rewrite !(nth_error_nth' _ ptid) by (rewrite ?(ok_bodyPosW _ _ OM), ?(ok_bodyPosW _ _ OC), ?NC; auto). f_equal. now apply (root_pos mb b p J W RM HJ ch m0 m c0 c).
    + rewrite !(nth_error_nth' _ sv0) by (rewrite ?(ok_bodyVelB _ _ OM), ?(ok_bodyVelB _ _ OC), ?NC; auto). f_equal. now apply (root_vel mb b p J W RM HJ ch m0 m c0 c).
    + rewrite !(nth_error_nth' _ sv0) by (rewrite ?(ok_bodyVelW _ _ OM), ?(ok_bodyVelW _ _ OC), ?NC; auto). f_equal. now apply (root_velW mb b p J W RM HJ ch m0 m c0 c).
  - intros Jc HJc. now apply (root_jac mb b p J W RM HJ ch m0 m c0 c).
Qed.
