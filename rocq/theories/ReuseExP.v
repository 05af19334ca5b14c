(** Objects with a past, for the theorems about reuse, and the cases where the past shows. *)
From Coq Require Import Reals String ZArith Bool Arith List Lia Lra.
From Verif Require Import Res ResP SMap Vec Sva Mat JointM MultiBodyM KinM DynM JacM CoMM MomM CoriolisM IDIMM ISM IkM Spec SpecDyn SpecJac SpecReuse
  Ex DynExP KinP MbP KinFinP DynP DynFinP JacTopP JacExP CoMP CoMExP CoMTopP MomTopP CorExP CoriolisP CoMCtorP SpecCoM SpecCor IsExP IkP IkExP DynFin2P DerivTreeP Reuse1P.
Import ListNotations.
Open Scope R_scope.

Definition is_ok {A} (r : res A) : bool := match r with Ok _ => true | _ => false end.
Lemma is_ok_ex {A} (r : res A) : is_ok r = true -> exists a, r = Ok a.
Proof. destruct r; try discriminate. eauto. Qed.

(** ** The angular rows of vectorJacobian *)
Lemma stale_vector : exists mb m name J J' K K' v, wf_mb mb /\ mbc_ok mb m /\
  jac_history mb name None J /\ jac_history mb name None J' /\ jac_point J = jac_point J' /\
  vectorJacobian mb m v J = Ok K /\ vectorJacobian mb m v J' = Ok K' /\ map sang (jc_jac K) <> map sang (jc_jac K').
Proof.
  destruct ex_kin as (m & A). pose proof (kin_run _ _ _ ex_wf ex_rigid ex_mbc_ok ex_config A) as HR.
  destruct (ctor_top (fun _ _ => mkSV unitX v0) ex_mb "hand"%string (mkV3 1 2 3) 2 ex_wf eq_refl) as (J' & E' & H' & _); [apply Nat.ltb_lt; reflexivity|].
  destruct (top_vector _ _ m ex_wf ex_rigid ex_mbc_ok ex_config A _ _ _ ex_J_of unitX) as (_ & _ & _ & K & _ & _ & _ & _ & EK & _ & _ & _ & S & _).
  destruct (top_vector _ _ m ex_wf ex_rigid ex_mbc_ok ex_config A _ _ _ H' unitX) as (_ & _ & _ & K' & _ & _ & _ & _ & EK' & _ & _ & _ & S' & _).
  exists ex_mb, m, "hand"%string, ex_J, J', K, K', unitX. split; [exact ex_wf|]. split; [apply (r_ok _ _ _ HR)|].
  split; [apply hi_new; exists (fun _ _ => sv0), (mkV3 1 2 3); exact ex_J_ctor|]. split; [apply hi_new; eexists _, _; exact E'|].
  assert (EJ : Some J' = Some (mkJac [0; 1; 2]%nat [1; 1; 1] (pttr (mkV3 1 2 3)) (map (fun _ => mkSV unitX v0) (seq 0 8)) (map (fun _ => mkSV unitX v0) (seq 0 8)) 2 0)).
  { assert (EE : Jacobian_ctor (fun _ _ => mkSV unitX v0) ex_mb "hand"%string (mkV3 1 2 3) = Ok (mkJac [0; 1; 2]%nat [1; 1; 1] (pttr (mkV3 1 2 3)) (map (fun _ => mkSV unitX v0) (seq 0 8)) (map (fun _ => mkSV unitX v0) (seq 0 8)) 2 0)) by reflexivity.
    rewrite EE in E'. injection E' as <-. reflexivity. }
  injection EJ as ->. split; [reflexivity|]. split; [exact EK|]. split; [exact EK'|]. rewrite S, S'. simpl. unfold unitX. intros E. injection E. lra.
Qed.

(** ** Torques that do not fill the vector of forward dynamics *)
Definition short_m : MBC := with_motionSubspace [[mkSV v0 unitZ]] (with_jointTorque [[]] (exf_M 0)).
Definition exf_fd (a : R) : FD := FD_ctor (fun _ _ => a) (fun _ _ => sv0) (fun _ => mkRBI 0 v0 (mkSym 0 0 0 0 0 0)) exf_mb.
Lemma short_run : exists T, forall a, seen (fun r => alphaD (snd r)) (forwardDynamics (fun _ b => b) exf_mb short_m (exf_fd a)) = Ok [[a + - T]].
Proof. eexists. intros a. vm_compute. reflexivity. Qed.
Lemma short_H : exists h, computeH exf_mb short_m (exf_fd 0) = Ok h /\ mb_nrDof exf_mb = 1%nat /\ ment (fd_H h) 0 0 = 1.
Proof.
  assert (E : exists x, seen (fun s => ment (fd_H s) 0 0) (computeH exf_mb short_m (exf_fd 0)) = Ok x /\ x = 1) by (eexists; split; [vm_compute; reflexivity|match goal with |- ?x = _ => change (@eq R x 1) end; change R0 with 0; change R1 with 1; ring]).
  destruct E as (x & E & ->). destruct (computeH exf_mb short_m (exf_fd 0)) as [h| | |]; try discriminate. exists h. injection E as E. auto.
Qed.
Lemma stale_torques : exists solve mb m s s', wf_mb mb /\ (forall M b, length (solve M b) = length b) /\ fd_history solve mb s /\ fd_history solve mb s' /\
  (forall M b, solve M b = b) /\ (exists h, computeH mb m s = Ok h /\ mb_nrDof mb = 1%nat /\ ment (fd_H h) 0 0 = 1) /\
  exists r r', forwardDynamics solve mb m s = Ok r /\ forwardDynamics solve mb m s' = Ok r' /\ alphaD (snd r) <> alphaD (snd r').
Proof.
  exists (fun _ b => b), exf_mb, short_m, (exf_fd 0), (exf_fd 1). split; [exact exf_wf|]. split; [auto|].
  split; [apply hi_new; eexists _, _, _; reflexivity|]. split; [apply hi_new; eexists _, _, _; reflexivity|].
  split; [reflexivity|]. split; [exact short_H|].
  destruct short_run as (T & HT). pose proof (HT 0) as H0. pose proof (HT 1) as H1. unfold seen in *.
  destruct (forwardDynamics (fun _ b => b) exf_mb short_m (exf_fd 0)) as [r| | |]; try discriminate.
  destruct (forwardDynamics (fun _ b => b) exf_mb short_m (exf_fd 1)) as [r'| | |]; try discriminate.
  exists r, r'. split; [reflexivity|]. split; [reflexivity|]. injection H0 as H0. injection H1 as H1. rewrite H0, H1. intros E. injection E. lra.
Qed.

(** ** Wider Jacobians of the forces after a first call *)
Definition wide : list Mat := [mat_zero 6 2].
Lemma stale_size : exists mb m jacs s s', wf_mb mb /\ mbc_ok mb m /\ is_history mb s /\ is_history mb s' /\
  computeTorqueJacobianJoint mb m jacs s = UB /\ exists r, computeTorqueJacobianJoint mb m jacs s' = Ok r.
Proof.
  destruct (is_ok_ex (ISd_ctor (fun _ _ _ => sv0) (fun _ => sv0) exf_mb)) as (s' & E'); [vm_compute; reflexivity|].
  assert (E1 : is_ok (s <- ISd_ctor (fun _ _ _ => sv0) (fun _ => sv0) exf_mb ;; computeTorqueJacobianJoint_const exf_mb (exf_M 0) s) = true) by (vm_compute; reflexivity).
  assert (E2 : (s <- ISd_ctor (fun _ _ _ => sv0) (fun _ => sv0) exf_mb ;; r <- computeTorqueJacobianJoint_const exf_mb (exf_M 0) s ;; computeTorqueJacobianJoint exf_mb (exf_M 0) wide (fst r)) = UB) by (vm_compute; reflexivity).
  assert (E3 : is_ok (s <- ISd_ctor (fun _ _ _ => sv0) (fun _ => sv0) exf_mb ;; computeTorqueJacobianJoint exf_mb (exf_M 0) wide s) = true) by (vm_compute; reflexivity).
  rewrite E' in E1, E2, E3. cbn [bind] in E1, E2, E3. apply is_ok_ex in E1. destruct E1 as ([s m'] & E1). rewrite E1 in E2. cbn [bind fst] in E2.
  exists exf_mb, (exf_M 0), wide, s, s'. split; [exact exf_wf|]. split; [apply exf_ok|].
  assert (H : is_history exf_mb s') by (apply hi_new; eauto).
  split; [eapply hi_call; [exact H|eapply isc_diff; exact E1]|]. split; [exact H|]. split; [exact E2|]. now apply is_ok_ex.
Qed.

(** ** Objects with a past *)
Lemma used_jac : exists J J', jac_history ex_mb "hand"%string None J /\ jac_call ex_mb ex_J J /\ jac_history ex_mb "hand"%string None J' /\ jac_point J = jac_point J'.
Proof.
  destruct (is_ok_ex (jacobian ex_mb ex_m ex_J)) as (J & E); [vm_compute; reflexivity|].
  assert (N : jac_history ex_mb "hand"%string None ex_J) by (apply hi_new; exists (fun _ _ => sv0), (mkV3 1 2 3); exact ex_J_ctor).
  assert (C : jac_call ex_mb ex_J J) by (eapply jc_jacobian; exact E).
  assert (P : jac_point J = jac_point ex_J).
  { assert (V : seen jac_point (jacobian ex_mb ex_m ex_J) = Ok (jac_point ex_J)) by (vm_compute; reflexivity). rewrite E in V. injection V as ->. reflexivity. }
  exists J, ex_J. split; [eapply hi_call; eauto|]. auto.
Qed.
Lemma used_id : exists f f', id_history ex_mb f /\ id_call ex_mb f' f /\ id_history ex_mb f'.
Proof.
  destruct (is_ok_ex (inverseDynamics ex_mb (ID_ctor (fun _ => sv0) ex_mb) ex_m)) as ([f m] & E); [vm_compute; reflexivity|].
  assert (N : id_history ex_mb (ID_ctor (fun _ => sv0) ex_mb)) by (apply hi_new; eexists; reflexivity).
  exists f, (ID_ctor (fun _ => sv0) ex_mb). assert (C : id_call ex_mb (ID_ctor (fun _ => sv0) ex_mb) f) by (eapply idc_id; exact E). split; [eapply hi_call; eauto|]. auto.
Qed.
Lemma used_fd : exists s s', fd_history (fun _ b => b) ex_mb s /\ fd_call (fun _ b => b) ex_mb s' s /\ fd_history (fun _ b => b) ex_mb s' /\ total_size (jointTorque ex_m) = mb_nrDof ex_mb.
Proof.
  set (s' := FD_ctor (fun _ _ => 7) (fun _ _ => sv0) (fun _ => mkRBI 0 v0 (mkSym 0 0 0 0 0 0)) ex_mb).
  destruct (is_ok_ex (computeH ex_mb ex_m s')) as (s & E); [vm_compute; reflexivity|].
  assert (N : fd_history (fun _ b => b) ex_mb s') by (apply hi_new; eexists _, _, _; reflexivity).
  assert (C : fd_call (fun _ b => b) ex_mb s' s) by (eapply fdc_H; exact E).
  exists s, s'. split; [eapply hi_call; eauto|]. split; [exact C|]. split; [exact N|]. vm_compute. reflexivity.
Qed.
Lemma used_idim : exists Y Y', idim_history ex_mb Y /\ computeY ex_mb ex_m Y' = Ok Y /\ idim_history ex_mb Y'.
Proof.
  destruct (is_ok_ex (computeY ex_mb ex_m (IDIM_ctor ex_mb))) as (Y & E); [vm_compute; reflexivity|].
  assert (N : idim_history ex_mb (IDIM_ctor ex_mb)) by (apply hi_new; reflexivity).
  exists Y, (IDIM_ctor ex_mb). split; [eapply hi_call; eauto|]. auto.
Qed.
Lemma used_com : exists m d d' c c', comd_history ex_mb (Some ex_w) d' /\ comd_jacobian ex_mb m d = Ok d' /\ comd_history ex_mb (Some ex_w) d /\
  comj_history ex_mb c' /\ comj_jacobian ex_mb m c = Ok c' /\ comj_history ex_mb c /\ cj_weight c = cj_weight c'.
Proof.
  destruct ex_kin as (m & A).
  destruct (proj1 (CoMJ_ctor_w_ok ex_garbage (fun _ _ _ => 7) ex_mb ex_w ex_wf ex_tm0) eq_refl) as (c & E & H).
  destruct (proj1 (CoMD_ctor_w_ok (fun _ _ _ => sv0) (fun _ _ _ => 5) ex_mb ex_w ex_wf ex_names) eq_refl) as (d & F & HD).
  destruct (top_agree_total _ _ m ex_wf ex_rigid ex_mbc_ok ex_config A ex_tm _ _ H _ HD) as (c1 & d1 & c2 & d2 & E1 & E2 & _ & _ & H1 & _).
  assert (N : comd_history ex_mb (Some ex_w) d) by (apply hi_new; eexists _, _; exact F).
  assert (M : comj_history ex_mb c) by (apply hi_new; eexists _, _; right; eexists; exact E).
  exists m, d, d1, c, c1. split; [eapply hi_call; [exact N|eapply cdc_jac; exact E2]|]. split; [exact E2|]. split; [exact N|].
  split; [eapply hi_call; [exact M|eapply cjc_jac; exact E1]|]. split; [exact E1|]. split; [exact M|].
  destruct H, H1. congruence.
Qed.
Lemma used_cmm : exists m c c', cmm_history ex_mb None c' /\ computeMatrix ex_mb m (mkV3 1 2 3) c = Ok c' /\ cmm_history ex_mb None c.
Proof.
  destruct ex_kin as (m & A).
  destruct (CMM_ctor_ok (fun _ _ _ => sv0) (fun _ _ _ => 7) ex_mb ex_wf ex_names) as (c & E & H).
  destruct (top_matrix _ _ m ex_wf ex_rigid ex_mbc_ok ex_config A _ _ H (mkV3 1 2 3)) as (c1 & h & E1 & _).
  assert (N : cmm_history ex_mb None c) by (apply hi_new; eexists _, _; exact E).
  exists m, c, c1. split; [eapply hi_call; [exact N|eapply cmc_mat; exact E1]|]. auto.
Qed.
Lemma used_cor : exists m c c', cor_history ex_mb c' /\ coriolis ex_mb m c = Ok c' /\ cor_history ex_mb c.
Proof.
  destruct ex_cor as (c & E & HC). destruct ex_kin as (m & A).
  destruct (coriolis_bias _ _ m c ex_fd ex_wf ex_rigid ex_mbc_ok ex_config A ex_sane HC ex_fd_ok) as (c' & s' & E1 & _).
  assert (N : cor_history ex_mb c) by (apply hi_new; eexists _, _, _; exact E).
  exists m, c, c'. split; [eapply hi_call; eauto|]. auto.
Qed.
Lemma used_is : exists s s', is_history_of 2 exf_mb s /\ is_history_of 2 exf_mb s' /\ is_call_of 2 exf_mb s' s /\ list_max (map mcols wide) = 2%nat /\ length (motionSubspace (exf_M 0)) = nrBodies exf_mb.
Proof.
  destruct (is_ok_ex (ISd_ctor (fun _ _ _ => sv0) (fun _ => sv0) exf_mb)) as (s' & E'); [vm_compute; reflexivity|].
  assert (E3 : is_ok (s <- ISd_ctor (fun _ _ _ => sv0) (fun _ => sv0) exf_mb ;; computeTorqueJacobianJoint exf_mb (exf_M 0) wide s) = true) by (vm_compute; reflexivity).
  rewrite E' in E3. cbn [bind] in E3. apply is_ok_ex in E3. destruct E3 as ([s m] & E3).
  assert (N : is_history_of 2 exf_mb s') by (apply hi_new; eauto).
  assert (C : is_call_of 2 exf_mb s' s) by (eapply isn_diff; [|exact E3]; reflexivity).
  exists s, s'. split; [eapply hi_call; eauto|]. auto.
Qed.
Lemma used_ik : exists I I' m m' b fuel target, ik_history exk_svd exk_err exk_mb 1 I /\ ik_history exk_svd exk_err exk_mb 1 I' /\
  inverseKinematics exk_svd exk_err fuel exk_mb target I' m = Ok (I, m', b).
Proof.
  destruct exk_on_target as (m0 & E & H1 & H2 & H3 & H4).
  assert (N : ik_history exk_svd exk_err exk_mb 1 exk_I) by (apply hi_new; eexists; exact exk_ctor).
  destruct (ik_at_target exk_svd exk_err exk_mb 1 exk_I (nth 1 (bodyPosW m0) ptid) exk_m m0 50 exk_svd_len exk_wf exk_mbc_ok exk_J_of eq_refl exk_plain) as (I & m' & EI & _); auto.
  exists I, exk_I, exk_m, m', true, 50%nat, (nth 1 (bodyPosW m0) ptid). split; [eapply hi_call; [exact N|eexists _, _, _, _, _; exact EI]|]. auto.
Qed.
