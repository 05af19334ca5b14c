(** Free fall: no torque is needed, and a robot that falls. *)
From Coq Require Import Reals String ZArith Bool Arith List Lia Lra.
From Verif Require Import Res ResP SMap Vec VecP Sva SvaP Mat JointM MultiBodyM KinM DynM JacM CoMM MomM Spec SpecDyn SpecJac SpecCoM SpecRel SpecDeriv SpecNewton
  JointP KinP KinPathP MbP TreeP DynP DynCP DynHP ConvP KinFinP DynFinP DynFin2P SolveP Ex DynExP DerivP DerivTreeP DerivExP JacP JacFinP JacTopP CoMP CoMTopP CoMExP MomP MomTopP NewtonP Newton2P Newton3P.
Import ListNotations.
Open Scope R_scope.

Lemma free_smul ax w : smul (map (svscale 1) (baseS Free ax)) [0; 0; 0; vx w; vy w; vz w] = mkSV v0 w.
Proof. destruct w as [x y z]. unfold baseS. cbn [map smul]. apply SV_ext; apply V3_ext; svring. Qed.
Lemma zeros_cross V : scross V sv0 = sv0. Proof. svring. Qed.
Lemma fall_local I u X : svsub (svadd (rbim I sv0) (scrossDual (mkSV v0 u) (rbim I (mkSV v0 u)))) (ptdual X sv0) = sv0.
Proof. svring. Qed.
Lemma fall_back w : svadd (mkSV v0 w) (mkSV v0 (vopp w)) = sv0. Proof. svring. Qed.

Lemma cross_v0 w v : vsub w (vcross v v0) = w. Proof. v3ring. Qed.
Lemma fall_ptm X w : ptm X (mkSV v0 w) = mkSV v0 (mapp (rotE X) w).
Proof. unfold ptm. cbn [sang slin]. apply SV_ext; cbn [sang slin]; [apply mapp_v0|]. f_equal. apply cross_v0. Qed.

Section Fall.
Variables (mb : MultiBody) (m : MBC).
Hypothesis W : wf_mb mb.
Hypothesis O1 : one_root mb.
Hypothesis RM : rigid_mb mb.
Hypothesis FL : floating mb.
Hypothesis DS : dyn_state mb m.
Variable v : V3.
Let X0 := nth 0 (bodyPosW m) ptid.
Let a := vopp (mapp (rotE X0) (gravity m)).
Hypothesis A0 : nth 0 (alpha m) [] = [0; 0; 0; vx v; vy v; vz v].
Hypothesis B0 : nth 0 (alphaD m) [] = [0; 0; 0; vx a; vy a; vz a].
Hypothesis AZ : forall i x, (0 < i < nrBodies mb)%nat -> In x (nth i (alpha m) []) -> x = 0.
Hypothesis BZ : forall i x, (0 < i < nrBodies mb)%nat -> In x (nth i (alphaD m) []) -> x = 0.
Hypothesis FZ : forall i, (i < nrBodies mb)%nat -> nth i (force m) sv0 = sv0.

Lemma smul_zeros S : forall l, (forall x, In x l -> x = 0) -> smul S l = sv0.
Proof.
  induction S as [|c S IH]; intros [|x l] H; try reflexivity. cbn [smul]. rewrite (IH l) by (intros; apply H; now right).
  rewrite (H x) by now left. clear. svring.
Qed.
Lemma root_S w : smul (jS (nth 0 (mb_joints mb) jd)) [0; 0; 0; vx w; vy w; vz w] = mkSV v0 w.
Proof.
  destruct FL as (j & E & T & F). rewrite (nth_error_nth _ _ jd E).
  destruct (proj1 RM j (nth_error_In _ _ E)) as (ax & U & B). apply built_shape in B. destruct B as (ES & _ & _).
  rewrite ES, T, F. apply free_smul.
Qed.
Lemma only_root i : (i < nrBodies mb)%nat -> par mb i = None -> i = 0%nat.
Proof.
  intros Hi P. destruct (wf_get_pred mb i W Hi) as [[E _]|(p & _ & _ & PP)]; [|congruence]. apply O1.
  rewrite (get_nth _ i 0%Z) in E by (rewrite (wf_pred_len _ W); auto). injection E as E.
  rewrite (nth_error_nth' (mb_pred mb) 0%Z) by (rewrite (wf_pred_len _ W); auto). now rewrite E.
Qed.
Lemma root_first : par mb 0 = None.
Proof.
  destruct (par mb 0) as [p|] eqn:P; auto. pose proof (par_lt mb 0 p W (floating_size mb W FL) P). lia.
Qed.
Lemma inner_pos i p : (i < nrBodies mb)%nat -> par mb i = Some p -> (0 < i < nrBodies mb)%nat.
Proof. intros Hi P. pose proof (par_lt mb i p W Hi P). lia. Qed.
Lemma fall_vj0 : vj m 0 = mkSV v0 v.
Proof.
  unfold vj. pose proof (floating_size mb W FL) as N. rewrite (ds_vj _ _ DS), (ds_ms _ _ DS), A0 by auto. apply root_S.
Qed.
Lemma fall_vj i : (0 < i < nrBodies mb)%nat -> vj m i = sv0.
Proof. intro Hi. unfold vj. rewrite (ds_vj _ _ DS) by lia. apply smul_zeros. intros x Hx. exact (AZ i x Hi Hx). Qed.
Definition fallU := mkSV v0 (mapp (mtr (rotE X0)) v).
Lemma fall_V i : (i < nrBodies mb)%nat -> vb m i = ptm (nth i (bodyPosW m) ptid) fallU.
Proof.
  apply (fwd_unique (nrBodies mb) (par mb) (parlt mb W) (ptsn m) sv0 (vj m) (vb m) (fun i => ptm (nth i (bodyPosW m) ptid) fallU) (ds_vb _ _ DS)).
  intros k Hk. destruct (ds_placed _ _ DS k Hk) as (R1 & R2 & E). destruct (par mb k) as [p|] eqn:P.
  - rewrite (fall_vj k) by (eapply inner_pos; eauto). rewrite svadd_0_r, E. apply ptm_mul. apply (ds_placed _ _ DS).
    pose proof (par_lt mb k p W Hk P). lia.
  - rewrite (only_root k Hk P) in *. rewrite ptm_sv0, svadd_0_l, fall_vj0. unfold fallU. rewrite fall_ptm. f_equal.
    unfold X0. apply SO3_cancel_r. exact R2.
Qed.
Lemma fall_torques f f' m' : length f = nrBodies mb -> inverseDynamics mb f m = Ok (f', m') ->
  forall i x, In x (nth i (jointTorque m') []) -> x = 0.
Proof.
  intros Lf E. pose proof (ds_ok _ _ DS) as K. pose proof (ID_run _ _ _ _ _ W K Lf E) as P.
  assert (EA : forall i, (i < nrBodies mb)%nat -> nth i (bodyAccB m') sv0 = sv0).
  { apply (fwd_unique (nrBodies mb) (par mb) (parlt mb W) (ptsn m) _ _ _ (fun _ => sv0) (ip_acc _ _ _ _ P)).
    intros k Hk. destruct (par mb k) as [p|] eqn:PP.
    - pose proof (inner_pos k p Hk PP) as Hk'. rewrite ptm_sv0, svadd_0_l, (fall_vj k Hk'), smul_zeros by (intros x Hx; exact (BZ k x Hk' Hx)).
      rewrite svadd_0_l. symmetry. apply zeros_cross.
    - pose proof (only_root k Hk PP). subst k. rewrite B0, root_S.
      assert (EV : vb m 0 = vj m 0).
      { rewrite (ds_vb _ _ DS 0%nat Hk), PP, ptm_sv0, svadd_0_l. reflexivity. }
      rewrite EV, scross_self, svadd_0_r. destruct (ds_placed _ _ DS 0%nat Hk) as (_ & _ & EX). rewrite PP in EX. rewrite <- EX.
      rewrite fall_ptm. unfold a. fold X0. symmetry. apply fall_back. }
  assert (EF : forall i, (i < nrBodies mb)%nat -> nth i f' sv0 = sv0).
  { apply (acc_unique (nrBodies mb) (par mb) (parlt mb W) (ptsn m) (fun _ => sv0) (fun i => nth i f' sv0) (fun _ => sv0)).
    - eapply acc_ext; [|apply (ip_F _ _ _ _ P)]. intros i Hi. cbv beta. unfold local_force, fext. rewrite EA, FZ, fall_V by auto.
      unfold fallU. rewrite fall_ptm. apply fall_local.
    - intros i Hi u. rewrite svdot_0_l, (rsum_eq0 (nrBodies mb)); [ring|]. intros. destruct (is_par (par mb) i0 i); auto. apply svdot_0_l. }
  intros i x H. destruct (Nat.lt_ge_cases i (nrBodies mb)) as [Hi|Hi].
  - rewrite (ip_t _ _ _ _ P), EF in H by auto. apply in_map_iff in H. destruct H as (cc & <- & _). apply svdot_0_r.
  - rewrite nth_overflow in H; [destruct H|]. rewrite (sized_length _ _ _ (ok_jointTorque _ _ (ip_ok _ _ _ _ P))), (wf_nrJoints mb W). auto.
Qed.
End Fall.

Lemma free_fall mb m0 m : wf_mb mb -> one_root mb -> rigid_mb mb -> floating mb -> mbc_ok mb m0 -> config_ok mb m0 -> after_kinematics mb m0 m ->
  forall v a, a = vopp (mapp (rotE (nth 0 (bodyPosW m) ptid)) (gravity m)) ->
  nth 0 (alpha m) [] = [0; 0; 0; vx v; vy v; vz v] -> nth 0 (alphaD m) [] = [0; 0; 0; vx a; vy a; vz a] ->
  (forall i x, (0 < i < nrBodies mb)%nat -> In x (nth i (alpha m) []) -> x = 0) ->
  (forall i x, (0 < i < nrBodies mb)%nat -> In x (nth i (alphaD m) []) -> x = 0) ->
  (forall i, (i < nrBodies mb)%nat -> nth i (force m) sv0 = sv0) ->
  forall f f' m', length f = nrBodies mb -> inverseDynamics mb f m = Ok (f', m') ->
  forall i x, In x (nth i (jointTorque m') []) -> x = 0.
Proof.
  intros W O1 RM FL K0 C0 AK v a -> A0 B0 AZ BZ FZ f f' m' Lf E.
  exact (fall_torques mb m W O1 RM FL (after_kin_state _ _ _ W RM K0 C0 AK) v A0 B0 AZ BZ FZ f f' m' Lf E).
Qed.
