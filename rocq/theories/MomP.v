(** Proofs about the centroidal momentum. *)
From Coq Require Import Reals String ZArith Bool Arith List Lia Lra.
From Verif Require Import Res ResP SMap Vec VecP Sva SvaP Mat JointM MultiBodyM KinM DynM JacM CoMM MomM Spec SpecDyn SpecJac SpecCoM
  JointP KinP KinPathP MbP TreeP DynP DynCP ConvP KinFinP DynFinP SpecDeriv DerivP DerivTreeP JacP JacFinP JacFin2P JacDerivP JacBlkP JacTopP CoMP CoMLoopP CoMCtorP CoMFinP CoMTopP.
Import ListNotations.
Open Scope R_scope.

(** ** Algebra *)
Lemma svsum_vsum n f : svsum n f = vsum n f.
Proof.
  unfold svsum. induction n as [|n IH]; [reflexivity|]. rewrite seq_S, fold_right_app. cbn [plus fold_right vsum]. rewrite <- IH.
  generalize (f n). generalize (seq 0 n). clear. intros l x. induction l as [|a l IH]; cbn [fold_right].
  - rewrite svadd_0_l. apply svadd_0_r.
  - rewrite IH. apply svadd_assoc.
Qed.
Lemma ptinv_com X com : rigid X -> ptinv (ptmul X (pttr (vopp com))) = ptmul (pttr com) (ptinv X).
Proof.
  intro RX. rewrite ptinv_mul by (auto; apply rigid_pttr). f_equal. apply PT_ext; cbn; v3ring.
Qed.
Lemma mom_alg X com f : rigid X -> pttrans (ptmul X (pttr (vopp com))) f = ptdual (ptmul (pttr com) (ptinv X)) f.
Proof.
  intro RX. rewrite pttrans_dual_inv by (apply rigid_mul; auto; apply rigid_pttr). now rewrite ptinv_com.
Qed.
Lemma mom_about X com I V : pttrans (ptmul X (pttr (vopp com))) (rbim I V) = momentum_about com X I V.
Proof.
  unfold momentum_about. destruct X as [E r]. unfold pttrans, ptmul, pttr, rbim. cbn [rotE trR sang slin]. rewrite (mmul_id_r E).
  assert (T : vadd (vopp com) (mapp (mtr mid) r) = vsub r com) by (clear; v3ring). rewrite T.
  assert (H : vsub (vscale (imass I) (slin V)) (vcross (imom I) (sang V)) = vadd (vscale (imass I) (slin V)) (vcross (sang V) (imom I))) by (clear; svring).
  now rewrite H.
Qed.
Lemma mom_lin com X I V c : imom I = vscale (imass I) c -> slin (momentum_about com X I V) = vscale (imass I) (slin (point_velocity X c V)).
Proof. intro E. unfold momentum_about, point_velocity. cbn [slin]. rewrite E. clear. svring. Qed.
Lemma bpv_0 V : body_point_velocity v0 V = V.
Proof. unfold body_point_velocity. svring. Qed.
Lemma ptm_tr0 V : ptm (pttr v0) V = V. Proof. svring. Qed.

Definition slinear (A : SV -> SV) : Prop :=
  (forall a b, A (svadd a b) = svadd (A a) (A b)) /\ (forall k a, A (svscale k a) = svscale k (A a)).
Lemma proj_linear w Y I : slinear (fun c => svscale w (jacProjector Y I c)).
Proof.
  unfold jacProjector. split; intros.
  - now rewrite rbim_add, ptdual_add, svscale_add.
  - rewrite rbim_scale, ptdual_scale. generalize (ptdual Y (rbim I a)). clear. intro. svring.
Qed.
Lemma projDot_linear w Y I V U : slinear (fun c => svscale w (jacProjectorDot Y I V U c)).
Proof.
  unfold jacProjectorDot. split; intros.
  - rewrite rbim_add, scrossDual_add_r, !ptdual_add, scrossDual_add_r.
    generalize (ptdual Y (scrossDual V (rbim I a))) (ptdual Y (scrossDual V (rbim I b))) (scrossDual U (ptdual Y (rbim I a))) (scrossDual U (ptdual Y (rbim I b))).
    clear. intros. svring.
  - rewrite rbim_scale, scrossDual_scale_r, !ptdual_scale, scrossDual_scale_r.
    generalize (ptdual Y (scrossDual V (rbim I a))) (scrossDual U (ptdual Y (rbim I a))). clear. intros. svring.
Qed.
Lemma smul_map_lin A S x : slinear A -> smul (map A S) x = A (smul S x).
Proof. intros (F & G). now apply smul_lin. Qed.
Lemma smul_combine A B J K : slinear A -> slinear B -> forall x, length J = length K ->
  smul (map (fun p => svadd (A (fst p)) (B (snd p))) (combine J K)) x = svadd (A (smul J x)) (B (smul K x)).
Proof.
  intros (A1 & A2) (B1 & B2).
  assert (A0 : A sv0 = sv0) by (rewrite <- (svscale_0 sv0), A2, !svscale_0; reflexivity).
  assert (B0 : B sv0 = sv0) by (rewrite <- (svscale_0 sv0), B2, !svscale_0; reflexivity).
  revert K. induction J as [|a J IH]; intros [|b K] x L; try discriminate.
  - cbn. rewrite A0, B0. now rewrite svadd_0_l.
  - destruct x as [|k x]; cbn [combine map smul fst snd].
    + rewrite A0, B0. now rewrite svadd_0_l.
    + rewrite IH by (cbn in L; lia). rewrite A1, A2, B1, B2.
      generalize (A a) (B b) (A (smul J x)) (B (smul K x)). clear. intros. svring.
Qed.
Lemma bmd_spec com comDot X I V A : rigid X ->
  body_momentum_dot com comDot X I V A =
  svadd (jacProjector (ptmul (pttr com) (ptinv X)) I A) (jacProjectorDot (ptmul (pttr com) (ptinv X)) I V (mkSV v0 comDot) V).
Proof.
  intro RX. unfold body_momentum_dot, jacProjector, jacProjectorDot. rewrite mom_alg, ptinv_com by auto. apply svadd_comm.
Qed.
Lemma vsum_loop_sv n (body : nat -> SV -> res SV) (f : nat -> SV) :
  (forall i s, (i < n)%nat -> body i s = Ok (svadd s (f i))) -> for_up n body sv0 = Ok (vsum n f).
Proof. intro B. apply (for_sum svadd f n body sv0 (fun n => vsum n f)); auto. Qed.
Lemma svcoef_vsum r n f : svcoef r (vsum n f) = rsum n (fun i => svcoef r (f i)).
Proof.
  induction n as [|n IH]; cbn [vsum rsum].
  - apply (linear_0 _ (sv_coef r)).
  - rewrite (proj1 (sv_coef r)). now rewrite IH.
Qed.
Lemma SV_coef u v : (forall r, (r < 6)%nat -> svcoef r u = svcoef r v) -> u = v.
Proof.
  intro E. apply SV_ext; apply V3_coef; intros r Hr.
  - specialize (E r ltac:(lia)). unfold svcoef in E. destruct (Nat.ltb_spec r 3); [exact E|lia].
  - specialize (E (r + 3)%nat ltac:(lia)). unfold svcoef in E. destruct (Nat.ltb_spec (r + 3) 3); [lia|]. now replace (r + 3 - 3)%nat with r in E by lia.
Qed.

(** ** The matrices *)
Definition bcols (mb : MultiBody) (m : MBC) (path : nat -> list nat) (b : nat) : list SV :=
  concat (map (fcols mb m (ptmul (pttr v0) (nth b (bodyPosW m) ptid))) (path b)).
Definition bdots (m : MBC) (path : nat -> list nat) (b : nat) : list SV :=
  concat (map (dcols m dcol_body (ptmul (pttr v0) (nth b (bodyPosW m) ptid)) (ptm (pttr v0) (vb m b))) (path b)).
Definition entry6 (mb : MultiBody) (path : nat -> list nat) (n : nat) (CB : nat -> list SV) (r x : nat) : R :=
  rsum n (fun b => ctr (pblocks mb (path b) 0) (fun e => svcoef r (nth e (CB b) sv0)) x).

Section Run.
Variables (mb : MultiBody) (m0 m : MBC).
Hypothesis W : wf_mb mb.
Hypothesis RN : run mb m0 m.
Variable path : nat -> list nat.
Hypothesis HP : forall b, (b < nrBodies mb)%nat -> root_path mb b (path b).
Variables (w : list R) (com comDot : V3).

Definition Y b := ptmul (pttr com) (ptinv (posW m b)).
Definition A b := fun c => svscale (nth b w 0) (jacProjector (Y b) (inertia_of mb b) c).
Definition B b := fun c => svscale (nth b w 0) (jacProjectorDot (Y b) (inertia_of mb b) (vb m b) (mkSV v0 comDot) c).
Definition mcolsM b := map (A b) (bcols mb m path b).
Definition mcolsD b := map (fun p => svadd (A b (fst p)) (B b (snd p))) (combine (bdots m path b) (bcols mb m path b)).

Lemma bcols_len b : (b < nrBodies mb)%nat -> length (bcols mb m path b) = path_dof mb (path b).
Proof.
  intro Hb. destruct (jac_exists mb b v0 (path b) (HP b Hb)) as (J & HJ & EP). unfold bcols. rewrite <- EP.
  rewrite (fcols_length mb m W b v0 J) by auto. apply (jo_jac _ _ _ _ HJ).
Qed.
Lemma bdots_len b : (b < nrBodies mb)%nat -> length (bdots m path b) = path_dof mb (path b).
Proof.
  intro Hb. destruct (jac_exists mb b v0 (path b) (HP b Hb)) as (J & HJ & EP). unfold bdots. rewrite <- EP.
  apply (dcols_total mb m0 m W RN b v0 J HJ).
Qed.
Lemma mcolsM_len b : (b < nrBodies mb)%nat -> length (mcolsM b) = path_dof mb (path b).
Proof. intro Hb. unfold mcolsM. rewrite map_length. now apply bcols_len. Qed.
Lemma mcolsD_len b : (b < nrBodies mb)%nat -> length (mcolsD b) = path_dof mb (path b).
Proof. intro Hb. unfold mcolsD. rewrite map_length, combine_length, bcols_len, bdots_len by auto. apply Nat.min_id. Qed.

Definition vec_ok (blocks : list (list Block)) (vec : list Jac) : Prop :=
  length vec = nrBodies mb /\
  forall i, (i < nrBodies mb)%nat -> exists J bs, nth_error vec i = Some J /\ jacobian_of mb i v0 J /\
     nth_error blocks i = Some bs /\ compactPath mb J = Ok bs.

Lemma path_of i J : (i < nrBodies mb)%nat -> jacobian_of mb i v0 J -> jc_path J = path i.
Proof. intros Hi HJ. apply (root_path_unique mb i); auto. apply (jo_path _ _ _ _ HJ). Qed.
Lemma add_ok i J bs jw M : (i < nrBodies mb)%nat -> jacobian_of mb i v0 J -> compactPath mb J = Ok bs ->
  length jw = path_dof mb (path i) -> mrows M = 6%nat -> mcols M = mb_nrDof mb ->
  exists M', addFullJacobian_compact bs (six_rows jw) M = Ok M' /\ mrows M' = 6%nat /\ mcols M' = mb_nrDof mb /\
   forall r x, (r < 6)%nat -> ment M' r x = ment M r x + ctr (pblocks mb (path i) 0) (fun e => svcoef r (nth e jw sv0)) x.
Proof.
  intros Hi HJ EB L M6 MC. destruct (compact_ex mb i v0 J W HJ) as (bs' & EB' & FT & CT). rewrite EB in EB'. injection EB' as <-.
  rewrite (path_of i J Hi HJ) in *.
  destruct (addC_ok bs (six_rows jw) M) as (M' & E & A1 & A2 & P).
  - cbn [six_rows mcols]. now rewrite L, MC.
  - cbn [six_rows mrows]. lia.
  - exists M'. split; [exact E|]. split; [congruence|]. split; [congruence|]. intros r x Hr. rewrite P. cbn [six_rows mrows].
    rewrite (proj2 (Nat.ltb_lt r 6)) by auto. f_equal. apply CT.
Qed.
(** Computing the body Jacobian, and its derivative, of body i and storing them. *)
Lemma vec_upd blocks vec i J J' : vec_ok blocks vec -> (i < nrBodies mb)%nat -> nth_error vec i = Some J ->
  jacobian_of mb i v0 J' -> compactPath mb J' = compactPath mb J -> vec_ok blocks (upd vec i J').
Proof.
  intros (L & V) Hi EJ HJ' EC. split; [now rewrite upd_length|]. intros k Hk. destruct (V k Hk) as (Jk & bs & E1 & E2 & E3 & E4).
  destruct (Nat.eq_dec i k) as [->|NE].
  - rewrite EJ in E1. injection E1 as <-. exists J', bs. rewrite nth_error_upd_eq by lia. rewrite EC. auto.
  - exists Jk, bs. rewrite nth_error_upd_neq by auto. auto.
Qed.
Lemma body_run i J : (i < nrBodies mb)%nat -> jacobian_of mb i v0 J -> exists J', bodyJacobian mb m J = Ok J' /\ jacobian_of mb i v0 J' /\
  jc_jac J' = bcols mb m path i /\ compactPath mb J' = compactPath mb J.
Proof.
  intros Hi HJ. eexists. split; [apply (bodyJacobian_run mb m0 m W RN i v0 J HJ)|]. rewrite (path_of i J Hi HJ).
  split; [|split; reflexivity]. apply jo_with_jac; auto.
  rewrite (jo_jac _ _ _ _ HJ), (path_of i J Hi HJ). now apply bcols_len.
Qed.
Lemma body_run_dot i J : (i < nrBodies mb)%nat -> jacobian_of mb i v0 J -> exists J', bodyJacobianDot mb m J = Ok J' /\ jacobian_of mb i v0 J' /\
  jc_jac J' = jc_jac J /\ jc_dot J' = bdots m path i /\ compactPath mb J' = compactPath mb J.
Proof.
  intros Hi HJ. eexists. split; [apply (bodyJacobianDot_run mb m0 m W RN i v0 J HJ)|]. rewrite (path_of i J Hi HJ).
  split; [|split; [|split]; reflexivity]. apply jo_with_dot; auto.
  rewrite (jo_dot _ _ _ _ HJ), (path_of i J Hi HJ). now apply bdots_len.
Qed.
Lemma cols_plus_ok b : (b < nrBodies mb)%nat -> cols_plus (A b) (B b) (bdots m path b) (bcols mb m path b) = Ok (mcolsD b).
Proof. intro Hb. unfold cols_plus. rewrite bcols_len, bdots_len, Nat.eqb_refl by auto. reflexivity. Qed.

Section Obj.
Variable c : CMM.
Hypothesis HC : cmm_of mb w c.

Lemma get_w i : (i < nrBodies mb)%nat -> get (cm_weight c) i = Ok (nth i w 0).
Proof. intro Hi. rewrite (cmo_weight _ _ _ HC). apply get_nth. now rewrite (cmo_w _ _ _ HC). Qed.
Lemma vec_ok0 : vec_ok (cm_blocks c) (cm_vec c).
Proof. split; [apply HC|]. exact (cmo_vec _ _ _ HC). Qed.

Definition st_ok (n : nat) (CB : nat -> list SV) (s : list Jac * list (list SV) * Mat) : Prop :=
  let '(vec, work, M) := s in vec_ok (cm_blocks c) vec /\ length work = nrBodies mb /\ mrows M = 6%nat /\ mcols M = mb_nrDof mb /\
  forall r x, (r < 6)%nat -> ment M r x = entry6 mb path n CB r x.
Lemma st_ok0 CB M : mrows M = 6%nat /\ mcols M = mb_nrDof mb -> st_ok 0 CB (cm_vec c, cm_work c, mat_clear M).
Proof. intros (M6 & MC). split; [exact vec_ok0|]. split; [apply HC|]. split; [exact M6|]. split; [exact MC|]. reflexivity. Qed.

Lemma matrix_ok : exists c', computeMatrix mb m com c = Ok c' /\ cmm_of mb w c' /\ cm_dot c' = cm_dot c /\
  forall r x, (r < 6)%nat -> ment (cm_mat c') r x = entry6 mb path (nrBodies mb) mcolsM r x.
Proof.
  unfold computeMatrix.
  destruct (for_up_inv (fun i => st_ok i mcolsM) (cmm_step mb m com c) (nrBodies mb) (cm_vec c, cm_work c, mat_clear (cm_mat c))) as (((vec & work) & M) & E & (V & LW & M6 & MC & P)).
  - apply st_ok0. apply HC.
  - intros i ((vec & work) & M) Hi (V & LW & M6 & MC & P). unfold cmm_step.
    destruct (proj2 V i Hi) as (J & bs & EJ & HJ & EB & CB). unfold get at 1. rewrite EJ. cbn [bind].
    destruct (body_run i J Hi HJ) as (J' & E1 & HJ' & EC & CP). rewrite E1. cbn [bind].
    rewrite set_ok by (rewrite (proj1 V); auto). cbn [bind]. rewrite (getX mb m0 m RN), get_body, get_w by auto. cbn [bind].
    rewrite set_ok by lia. cbn [bind]. unfold get at 1. rewrite EB. cbn [bind]. rewrite EC.
    change (map _ (bcols mb m path i)) with (mcolsM i).
    destruct (add_ok i J bs (mcolsM i) M Hi HJ CB (mcolsM_len i Hi) M6 MC) as (M' & EM & A1 & A2 & A3). rewrite EM. cbn [bind].
    eexists. split; [reflexivity|]. split; [|split; [|split; [|split]]]; auto.
    + now apply (vec_upd _ _ _ J).
    + now rewrite upd_length.
    + intros r x Hr. rewrite A3, P by auto. unfold entry6. now rewrite rsum_S.
  - rewrite E. cbn [bind]. eexists. split; [reflexivity|]. split; [|split; [reflexivity|exact P]].
    destruct HC, V. constructor; auto.
Qed.
Lemma matrixDot_ok : exists c', computeMatrixDot mb m com comDot c = Ok c' /\ cmm_of mb w c' /\ cm_mat c' = cm_mat c /\
  forall r x, (r < 6)%nat -> ment (cm_dot c') r x = entry6 mb path (nrBodies mb) mcolsD r x.
Proof.
  unfold computeMatrixDot.
  destruct (for_up_inv (fun i => st_ok i mcolsD) (cmm_dot_step mb m com comDot c) (nrBodies mb) (cm_vec c, cm_work c, mat_clear (cm_dot c))) as (((vec & work) & M) & E & (V & LW & M6 & MC & P)).
  - apply st_ok0. apply HC.
  - intros i ((vec & work) & M) Hi (V & LW & M6 & MC & P). unfold cmm_dot_step.
    destruct (proj2 V i Hi) as (J & bs & EJ & HJ & EB & CB). unfold get at 1. rewrite EJ. cbn [bind].
    destruct (body_run i J Hi HJ) as (J' & E1 & HJ' & EC & CP). rewrite E1. cbn [bind].
    destruct (body_run_dot i J' Hi HJ') as (J2 & E2 & HJ2 & EC2 & ED2 & CP2). rewrite E2. cbn [bind].
    rewrite set_ok by (rewrite (proj1 V); auto). cbn [bind]. rewrite (getX mb m0 m RN), get_body, get_w, (getV mb m0 m RN) by auto. cbn [bind].
    rewrite EC2, EC, ED2. match goal with |- context [cols_plus ?a ?b _ _] => change a with (A i); change b with (B i) end.
    rewrite cols_plus_ok by auto. cbn [bind].
    rewrite set_ok by lia. cbn [bind]. unfold get at 1. rewrite EB. cbn [bind].
    destruct (add_ok i J bs (mcolsD i) M Hi HJ CB (mcolsD_len i Hi) M6 MC) as (M' & EM & A1 & A2 & A3). rewrite EM. cbn [bind].
    eexists. split; [reflexivity|]. split; [|split; [|split; [|split]]]; auto.
    + apply (vec_upd _ _ _ J); auto. congruence.
    + now rewrite upd_length.
    + intros r x Hr. rewrite A3, P by auto. unfold entry6. now rewrite rsum_S.
  - rewrite E. cbn [bind]. eexists. split; [reflexivity|]. split; [|split; [reflexivity|exact P]].
    destruct HC, V. constructor; auto.
Qed.
Lemma both_ok : exists c', computeMatrixAndMatrixDot mb m com comDot c = Ok c' /\ cmm_of mb w c' /\
  forall r x, (r < 6)%nat -> ment (cm_mat c') r x = entry6 mb path (nrBodies mb) mcolsM r x /\
                             ment (cm_dot c') r x = entry6 mb path (nrBodies mb) mcolsD r x.
Proof.
  unfold computeMatrixAndMatrixDot.
  destruct (for_up_inv (fun i (s : list Jac * list (list SV) * Mat * Mat) => let '(vec, work, M, D) := s in
       st_ok i mcolsM (vec, work, M) /\ st_ok i mcolsD (vec, work, D))
     (cmm_both_step mb m com comDot c) (nrBodies mb) (cm_vec c, cm_work c, mat_clear (cm_mat c), mat_clear (cm_dot c)))
     as ((((vec & work) & M) & D) & E & ((V & LW & M6 & MC & P) & (_ & _ & D6 & DC & Q))).
  - split; apply st_ok0; apply HC.
  - intros i (((vec & work) & M) & D) Hi ((V & LW & M6 & MC & P) & (_ & _ & D6 & DC & Q)). unfold cmm_both_step.
    destruct (proj2 V i Hi) as (J & bs & EJ & HJ & EB & CB). unfold get at 1. rewrite EJ. cbn [bind].
    destruct (body_run i J Hi HJ) as (J' & E1 & HJ' & EC & CP). rewrite E1. cbn [bind].
    destruct (body_run_dot i J' Hi HJ') as (J2 & E2 & HJ2 & EC2 & ED2 & CP2). rewrite E2. cbn [bind].
    rewrite set_ok by (rewrite (proj1 V); auto). cbn [bind]. rewrite (getX mb m0 m RN), get_body, get_w, (getV mb m0 m RN) by auto. cbn [bind].
    unfold get at 1. rewrite EB. cbn [bind].
    rewrite EC2, EC, ED2. match goal with |- context [cols_plus ?a ?b _ _] => change a with (A i); change b with (B i) end.
    change (map _ (bcols mb m path i)) with (mcolsM i).
    rewrite set_ok by lia. cbn [bind].
    destruct (add_ok i J bs (mcolsM i) M Hi HJ CB (mcolsM_len i Hi) M6 MC) as (M' & EM & A1 & A2 & A3). rewrite EM. cbn [bind].
    rewrite cols_plus_ok by auto. cbn [bind].
    rewrite set_ok by (rewrite upd_length; lia). cbn [bind].
    destruct (add_ok i J bs (mcolsD i) D Hi HJ CB (mcolsD_len i Hi) D6 DC) as (D' & ED & B1 & B2 & B3). rewrite ED. cbn [bind].
    assert (VU : vec_ok (cm_blocks c) (upd vec i J2)) by (apply (vec_upd _ _ _ J); auto; congruence).
    eexists. split; [reflexivity|]. split; (split; [|split; [|split; [|split]]]); auto; try (now rewrite !upd_length).
    + intros r x Hr. rewrite A3, P by auto. unfold entry6. now rewrite rsum_S.
    + intros r x Hr. rewrite B3, Q by auto. unfold entry6. now rewrite rsum_S.
  - rewrite E. cbn [bind]. eexists. split; [reflexivity|]. split; [|intros r x Hr; split; [apply P|apply Q]; auto].
    destruct HC, V. constructor; auto.
Qed.
End Obj.

Lemma entry6_times M CB a r : mcols M = mb_nrDof mb ->
  (forall b, (b < nrBodies mb)%nat -> length (CB b) = path_dof mb (path b)) ->
  (forall x, (x < mb_nrDof mb)%nat -> ment M r x = entry6 mb path (nrBodies mb) CB r x) -> sized mb jdof a ->
  mat_vec M (concat a) r = svcoef r (vsum (nrBodies mb) (fun b => smul (CB b) (on_path (path b) a))).
Proof.
  intros MC LC P SA. unfold mat_vec. rewrite MC, svcoef_vsum.
  rewrite (rsum_ext _ _ (fun x => rsum (nrBodies mb) (fun b => ctr (pblocks mb (path b) 0) (fun e => svcoef r (nth e (CB b) sv0)) x * nth x (concat a) 0))).
  2:{ intros x Hx. rewrite P by auto. unfold entry6. rewrite Rmult_comm, <- rsum_scal. apply rsum_ext. intros. ring. }
  rewrite rsum_swap. apply rsum_ext. intros b Hb.
  rewrite (ctr_product mb (path b) (CB b) (svcoef r) a W); auto.
  - apply (root_path_in _ _ _ W (HP b Hb)).
  - apply sv_coef.
  - apply (on_path_length mb W a b); auto.
Qed.
Definition psum a b := path_sum (fun k => ptm (relX (bodyPosW m) b k) (smul (jS (nth k (mb_joints mb) jd)) (nth k a []))) (path b).
Lemma bcols_times b a : (b < nrBodies mb)%nat -> sized mb jdof a -> smul (bcols mb m path b) (on_path (path b) a) = psum a b.
Proof.
  intros Hb SA. destruct (jac_exists mb b v0 (path b) (HP b Hb)) as (J & HJ & EP).
  destruct (body_jac_product mb m0 m W RN b v0 J HJ) as (J1 & E1 & _ & P). specialize (P a SA). destruct P as (_ & P).
  rewrite (bodyJacobian_run mb m0 m W RN b v0 J HJ) in E1. injection E1 as <-. cbn [with_jac jc_jac] in P. rewrite EP, bpv_0 in P. exact P.
Qed.
Lemma bdots_times b : (b < nrBodies mb)%nat -> smul (bdots m path b) (on_path (path b) (alpha m)) = nacc m (path b) b.
Proof.
  intros Hb. destruct (jac_exists mb b v0 (path b) (HP b Hb)) as (J & HJ & EP).
  pose proof (dot_body_sum mb m0 m W RN b v0 J HJ) as D. rewrite EP in D. unfold bdots. now rewrite D, ptm_tr0.
Qed.
Lemma mcolsM_times b a : (b < nrBodies mb)%nat -> sized mb jdof a -> smul (mcolsM b) (on_path (path b) a) = A b (psum a b).
Proof. intros Hb SA. unfold mcolsM. rewrite smul_map_lin by apply proj_linear. now rewrite bcols_times. Qed.
Lemma vb_psum b : (b < nrBodies mb)%nat -> psum (alpha m) b = vb m b.
Proof. intro Hb. symmetry. exact (vb_closed mb m0 m W RN b (path b) (HP b Hb)). Qed.
Lemma mcolsD_times b : (b < nrBodies mb)%nat ->
  smul (mcolsD b) (on_path (path b) (alpha m)) = svadd (A b (nacc m (path b) b)) (B b (vb m b)).
Proof.
  intros Hb. unfold mcolsD. rewrite smul_combine; [|apply proj_linear|apply projDot_linear|rewrite bcols_len, bdots_len; auto].
  rewrite bdots_times, bcols_times, vb_psum by (auto; apply (ok_alpha _ _ (r_ok _ _ _ RN))). reflexivity.
Qed.
Lemma A_about b V : (b < nrBodies mb)%nat -> A b V = svscale (nth b w 0) (momentum_about com (posW m b) (inertia_of mb b) V).
Proof. intro Hb. unfold A, jacProjector, Y. rewrite <- mom_alg, mom_about by (apply (r_rw _ _ _ RN); auto). reflexivity. Qed.
End Run.
