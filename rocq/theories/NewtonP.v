(** The wrench transmitted through a joint, and Newton's law for the whole robot. *)
From Coq Require Import Reals String ZArith Bool Arith List Lia Lra.
From Verif Require Import Res ResP SMap Vec VecP Sva SvaP Mat JointM MultiBodyM KinM DynM JacM CoMM MomM Spec SpecDyn SpecJac SpecCoM SpecRel SpecDeriv SpecNewton
  JointP KinP KinPathP MbP TreeP DynP DynCP DynHP ConvP KinFinP DynFinP DynFin2P DerivP DerivTreeP JacP JacFinP JacTopP CoMP CoMTopP MomP MomTopP.
Import ListNotations.
Open Scope R_scope.

Lemma wrench_at_trans c X W : pttrans (ptmul X (pttr (vopp c))) W = wrench_at c X W.
Proof.
  unfold wrench_at. destruct X as [E r]. unfold pttrans, ptmul, pttr. cbn [rotE trR]. rewrite (mmul_id_r E).
  assert (T : vadd (vopp c) (mapp (mtr mid) r) = vsub r c) by (clear; v3ring). rewrite T. reflexivity.
Qed.
Lemma moved_to_trans c W : pttrans (pttr (vopp c)) W = moved_to c W.
Proof. unfold moved_to. destruct W as [[? ? ?] [? ? ?]], c. svring. Qed.
Lemma rigid_pttr_opp c : rigid (pttr c). Proof. apply SO3_id. Qed.
Lemma wrench_at_dot c X W u : svdot (wrench_at c X W) u = svdot W (ptm X (ptm (pttr (vopp c)) u)).
Proof. rewrite <- wrench_at_trans, pttrans_adj. now rewrite ptm_mul by apply rigid_pttr_opp. Qed.
Lemma moved_to_dot c W u : svdot (moved_to c W) u = svdot W (ptm (pttr (vopp c)) u).
Proof. now rewrite <- moved_to_trans, pttrans_adj. Qed.

(** Acceleration of the inverse dynamics and of forwardAcceleration without base acceleration. *)
Lemma acc_split_gravity mb m f' m' m3 : wf_mb mb -> dyn_state mb m -> id_post mb m f' m' -> fa_post mb sv0 m m3 ->
  forall i, (i < nrBodies mb)%nat ->
  nth i (bodyAccB m') sv0 = svadd (nth i (bodyAccB m3) sv0) (ptm (nth i (bodyPosW m) ptid) (mkSV v0 (gravity m))).
Proof.
  intros W D P Q.
  apply (fwd_unique (nrBodies mb) (par mb) (parlt mb W) (ptsn m) (mkSV v0 (gravity m)) _ _ _ (ip_acc _ _ _ _ P)).
  pose proof (base_fwd mb m (mkSV v0 (gravity m)) W (ds_placed _ _ D)) as B.
  assert (A3 : fwd (nrBodies mb) (par mb) (ptsn m) sv0
     (fun i => svadd (smul (jS (nth i (mb_joints mb) jd)) (nth i (alphaD m) [])) (scross (vb m i) (vj m i))) (fun i => nth i (bodyAccB m3) sv0)).
  { intros i Hi. rewrite (fa_acc _ _ _ _ Q) by auto. rewrite <- svadd_assoc. f_equal. }
  pose proof (fwd_add _ _ _ _ _ _ _ _ _ A3 B) as S. cbv beta in S.
  rewrite svadd_0_l in S. intros i Hi. rewrite (S i Hi). now rewrite svadd_0_r.
Qed.

Section Sub.
Variables (mb : MultiBody) (m : MBC).
Hypothesis W : wf_mb mb.
Hypothesis PL : placed mb m.
Variables (i : nat) (sub : nat -> bool).
Hypothesis Hi : (i < nrBodies mb)%nat.
Hypothesis HS : forall k, (k < nrBodies mb)%nat -> sub k = true <-> anc mb i k.

(** All the bodies of the subtree of i move with the rigid motion u, the others rest. *)
Lemma sub_fwd u : fwd (nrBodies mb) (par mb) (ptsn m) sv0
  (fun k => if Nat.eqb k i then ptm (nth i (bodyPosW m) ptid) u else sv0)
  (fun k => if sub k then ptm (nth k (bodyPosW m) ptid) u else sv0).
Proof.
  intros k Hk. destruct (Nat.eqb_spec k i) as [->|NE].
  - rewrite (proj2 (HS i Hi)) by constructor.
    destruct (par mb i) as [p|] eqn:P; [|now rewrite ptm_sv0, svadd_0_l].
    pose proof (par_lt mb i p W Hi P) as LT.
    destruct (sub p) eqn:SP; [|now rewrite ptm_sv0, svadd_0_l].
    apply HS in SP; [|lia]. pose proof (anc_lt mb i p W Hi SP). lia.
  - rewrite svadd_0_r. destruct (sub k) eqn:SK.
    + apply HS in SK; auto. inversion SK as [x E1 E2|x p y PP A E1 E2]; subst; [congruence|].
      pose proof (pred_par _ _ _ PP) as P. rewrite P. pose proof (par_lt mb k p W Hk P).
      rewrite (proj2 (HS p ltac:(lia))) by auto.
      destruct (PL k Hk) as (R1 & R2 & E). rewrite E, P. apply ptm_mul. apply PL. lia.
    + destruct (par mb k) as [p|] eqn:P; [|now rewrite ptm_sv0].
      pose proof (par_lt mb k p W Hk P).
      destruct (sub p) eqn:SP; [|now rewrite ptm_sv0].
      apply HS in SP; [|lia]. exfalso. assert (sub k = true); [|congruence]. apply HS; auto.
      apply (anc_step _ _ p); auto. now apply par_pred.
Qed.
Lemma acc_sub f F u : acc (nrBodies mb) (par mb) (ptsn m) f F ->
  svdot (F i) (ptm (nth i (bodyPosW m) ptid) u) =
  rsum (nrBodies mb) (fun k => if sub k then svdot (f k) (ptm (nth k (bodyPosW m) ptid) u) else 0).
Proof.
  intro HF. pose proof (virtual_power0 (nrBodies mb) (par mb) (parlt mb W) (ptsn m) _ _ f F (sub_fwd u) HF) as E.
  cbv beta in E.
  rewrite (rsum_ext _ (fun k => svdot (F k) (if Nat.eqb k i then ptm (nth i (bodyPosW m) ptid) u else sv0))
    (fun k => if Nat.eqb k i then svdot (F k) (ptm (nth i (bodyPosW m) ptid) u) else 0)) in E.
  2:{ intros k Hk. destruct (Nat.eqb k i); auto. apply svdot_0_r. }
  rewrite (rsum_delta (nrBodies mb) i (fun k => svdot (F k) (ptm (nth i (bodyPosW m) ptid) u)) Hi) in E.
  rewrite <- E. apply rsum_ext. intros k Hk. destruct (sub k); auto. apply svdot_0_r.
Qed.
End Sub.

(** The local force of the inverse dynamics: rate of momentum minus what is applied. *)
Lemma local_power mb m A3 A X k c u : rigid X -> X = nth k (bodyPosW m) ptid ->
  A k = svadd A3 (ptm X (mkSV v0 (gravity m))) ->
  svdot (local_force mb m A k) (ptm X (ptm (pttr (vopp c)) u)) =
  svdot (momentum_rate c X (inertia_of mb k) (nth k (bodyVelB m) sv0) A3) u - svdot (applied_to mb m c k) u.
Proof.
  intros RX EX EA. unfold momentum_rate, applied_to, local_force, fext. rewrite wrench_at_dot, moved_to_dot, EA, <- EX.
  set (U := ptm (pttr (vopp c)) u). clearbody U.
  change (inertia_of mb k) with (Ib mb k). change (nth k (bodyVelB m) sv0) with (vb m k).
  pose proof (weight_local X (Ib mb k) (gravity m) RX) as WL.
  apply (f_equal (fun x => svdot x (ptm X U))) in WL. rewrite svdot_scale_l, ptdual_dot in WL by auto.
  rewrite rbim_add, !svdot_sub_l, !svdot_add_l, ptdual_dot by auto. lra.
Qed.

Lemma transmitted mb m f f' m' m3 i sub c : wf_mb mb -> dyn_state mb m -> length f = nrBodies mb ->
  inverseDynamics mb f m = Ok (f', m') -> forwardAcceleration mb m sv0 = Ok m3 ->
  (i < nrBodies mb)%nat -> (forall k, (k < nrBodies mb)%nat -> sub k = true <-> anc mb i k) ->
  svadd (wrench_at c (nth i (bodyPosW m) ptid) (nth i f' sv0))
        (svsum (nrBodies mb) (fun k => if sub k then applied_to mb m c k else sv0)) =
  svsum (nrBodies mb) (fun k => if sub k then
     momentum_rate c (nth k (bodyPosW m) ptid) (inertia_of mb k) (nth k (bodyVelB m) sv0) (nth k (bodyAccB m3) sv0) else sv0).
Proof.
  intros W D Lf E EA Hi HS. pose proof (ds_ok _ _ D) as K. pose proof (ds_placed _ _ D) as PL.
  pose proof (ID_run _ _ _ _ _ W K Lf E) as P. pose proof (FA_run _ _ _ _ W K EA) as Q.
  apply svdot_ext. intro u. rewrite svdot_add_l, wrench_at_dot, !svsum_vsum, !vsum_dot.
  rewrite (acc_sub mb m W PL i sub Hi HS _ _ _ (ip_F _ _ _ _ P)), <- rsum_plus. apply rsum_ext. intros k Hk.
  destruct (sub k); [|rewrite svdot_0_l; ring].
  rewrite (local_power mb m (nth k (bodyAccB m3) sv0) _ (nth k (bodyPosW m) ptid) k c u); auto.
  - ring.
  - apply PL; auto.
  - apply (acc_split_gravity mb m f' m'); auto.
Qed.

Lemma momentumDot_rate mb m com comDot A0 m3 : wf_mb mb -> dyn_state mb m -> forwardAcceleration mb m A0 = Ok m3 ->
  computeCentroidalMomentumDot mb m3 com comDot = Ok (vsum (nrBodies mb)
    (fun i => body_momentum_dot com comDot (nth i (bodyPosW m) ptid) (inertia_of mb i) (nth i (bodyVelB m) sv0) (nth i (bodyAccB m3) sv0))).
Proof.
  intros W D F. pose proof (ds_ok _ _ D) as K. pose proof (FA_run mb m A0 m3 W K F) as FP. apply vsum_loop_sv. intros i s Hi.
  rewrite (fa_frame _ _ _ _ FP). cbn [with_bodyAccB bodyPosW bodyVelW bodyVelB bodyAccB].
  rewrite (get_nth _ i sv0) by (rewrite (ok_bodyVelB _ _ K); auto). cbn [bind].
  rewrite (get_nth _ i ptid) by (rewrite (ok_bodyPosW _ _ K); auto). cbn [bind].
  rewrite (get_nth _ i bd) by auto. cbn [bind].
  rewrite (get_nth _ i sv0) by (rewrite (fa_len _ _ _ _ FP), (ok_bodyAccB _ _ K); auto). reflexivity.
Qed.
Lemma bmd_rate c X I V A : rigid X -> body_momentum_dot c v0 X I V A = momentum_rate c X I V A.
Proof.
  intro RX. unfold momentum_rate, body_momentum_dot. cbv zeta.
  rewrite <- wrench_at_trans, pttrans_add.
  rewrite <- (pttrans_dual_inv (ptmul X (pttr (vopp c)))) by (apply rigid_mul; [auto|apply rigid_pttr_opp]).
  generalize (pttrans (ptmul X (pttr (vopp c))) (scrossDual V (rbim I V))), (ptdual (ptinv (ptmul X (pttr (vopp c)))) (rbim I V)),
    (pttrans (ptmul X (pttr (vopp c))) (rbim I A)). clear. intros [[? ? ?] [? ? ?]] [[? ? ?] [? ? ?]] [[? ? ?] [? ? ?]]. svring.
Qed.

Lemma root_anc mb : wf_mb mb -> one_root mb -> forall k, (k < nrBodies mb)%nat -> anc mb 0 k.
Proof.
  intros W O1 k. induction k as [k IH] using lt_wf_ind. intro Hk.
  destruct (par mb k) as [p|] eqn:P.
  - pose proof (par_lt mb k p W Hk P). apply (anc_step _ _ p); [now apply par_pred|]. apply IH; lia.
  - destruct (wf_get_pred mb k W Hk) as [[E PP]|(p & E & _ & PP)]; [|congruence].
    rewrite (O1 k); [constructor|]. rewrite (get_nth _ k 0%Z) in E by (rewrite (wf_pred_len _ W); auto). injection E as E.
    rewrite (nth_error_nth' (mb_pred mb) 0%Z) by (rewrite (wf_pred_len _ W); auto). now rewrite E.
Qed.
Lemma newton_root mb m f f' m' m3 c hd : wf_mb mb -> one_root mb -> (0 < nrBodies mb)%nat -> dyn_state mb m -> length f = nrBodies mb ->
  inverseDynamics mb f m = Ok (f', m') -> forwardAcceleration mb m sv0 = Ok m3 ->
  computeCentroidalMomentumDot mb m3 c v0 = Ok hd ->
  hd = svadd (wrench_at c (nth 0 (bodyPosW m) ptid) (nth 0 f' sv0)) (applied mb m c).
Proof.
  intros W O1 N D Lf E EA EH. rewrite (momentumDot_rate mb m c v0 sv0 m3 W D EA) in EH. injection EH as <-.
  pose proof (transmitted mb m f f' m' m3 0 (fun _ => true) c W D Lf E EA N) as T. cbv beta in T.
  assert (HS : forall k, (k < nrBodies mb)%nat -> true = true <-> anc mb 0 k) by (intros k Hk; split; auto; intros; now apply root_anc).
  refine (eq_trans _ (eq_sym (T HS))).
  rewrite svsum_vsum. apply vsum_ext. intros k Hk. apply bmd_rate. apply (ds_placed _ _ D); auto.
Qed.

(** The torques of a free joint are the transmitted wrench. *)
Lemma free_coefs j : joint_unit j -> jtyp j = Free -> jfwd j = true ->
  forall F, sv_of (map (fun c => svdot c F) (jS j)) = F.
Proof.
  intros (ax & U & B) T D F. apply built_shape in B. destruct B as (ES & _ & _). rewrite ES, T, D. unfold sv_of.
  destruct F as [[? ? ?] [? ? ?]]. cbn [baseS map nth dirR]. apply SV_ext; apply V3_ext; svring.
Qed.
