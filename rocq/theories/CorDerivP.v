(** The Coriolis matrix and the derivative of the mass matrix. *)
From Coq Require Import Reals String ZArith Bool Arith List Lia Lra.
From Verif Require Import Res ResP SMap Vec VecP Sva SvaP Mat JointM MultiBodyM KinM DynM JacM CoMM MomM CoriolisM Spec SpecDyn SpecJac SpecCoM SpecCor
  JointP KinP KinPathP MbP TreeP DynP DynCP DynHP ConvP KinFinP DynFinP DynFin2P SpecDeriv DerivP DerivTreeP JacP JacFinP JacFin2P JacDerivP JacBlkP JacTopP CoMP CoMLoopP CoMCtorP CoMFinP CoMTopP MomP MomTopP CoriolisP.
Import ListNotations.
Open Scope R_scope.

Lemma cor_energy I p X U V : rigid X -> imom I = vscale (imass I) p ->
  svdot (point_velocity X p U) (corA I p X (point_velocity X p V)) = svdot (rbim I V) U.
Proof.
  intros RX E. unfold corA, corP, point_velocity, svdot. cbn [sang slin].
  rewrite !mapp_mmul, !(SO3_cancel_r (rotE X)) by apply RX. rewrite <- mapp_scale.
  rewrite !(SO3_dot (mtr (rotE X))) by (apply SO3_tr, RX).
  unfold rbim. cbn [sang slin]. rewrite E.
  destruct V as [[w1 w2 w3] [v1 v2 v3]], U as [[u1 u2 u3] [s1 s2 s3]], p as [p1 p2 p3].
  destruct I as [mm h [i1 i2 i3 i4 i5 i6]]. clear E.
  cbv [imass iine sang slin sym_mat sxx sxy sxz syy syz szz mcross mtr msub mmul mapp vscale vadd vsub vcross vdot vx vy vz
    m00 m01 m02 m10 m11 m12 m20 m21 m22 vopp]. ring.
Qed.
Lemma corP_sym I p X : mtr (corP I p X) = corP I p X.
Proof.
  unfold corP. rewrite !mtr_mmul, mtr_mtr. rewrite !mmul_assoc. f_equal. f_equal.
  destruct p as [p1 p2 p3], I as [mm h [i1 i2 i3 i4 i5 i6]].
  cbv [imass iine sym_mat sxx sxy sxz syy syz szz mcross mtr msub mmul vscale vx vy vz m00 m01 m02 m10 m11 m12 m20 m21 m22]. f_equal; ring.
Qed.
Lemma corP_deriv I p (X : R -> PT) t w :
  derivM (fun s => mtr (rotE (X s))) t (mmul (mcross w) (mtr (rotE (X t)))) ->
  derivM (fun s => corP I p (X s)) t (madd (mmul (mcross w) (corP I p (X t))) (mmul (corP I p (X t)) (mtr (mcross w)))).
Proof.
  intros DD. unfold corP. set (N := msub _ _).
  assert (D2 : derivM (fun s => rotE (X s)) t (mmul (rotE (X t)) (mtr (mcross w)))).
  { eapply derivM_eq; [eapply derivM_ext; [|apply (derivM_tr _ _ _ DD)]; intro s; cbv beta; now rewrite mtr_mtr|].
    now rewrite mtr_mmul, mtr_mtr. }
  pose proof (derivM_mul (fun _ => N) _ t _ _ (derivM_const N t) D2) as D3.
  eapply derivM_eq; [exact (derivM_mul _ _ t _ _ DD D3)|].
  cbv beta. assert (Z : forall A B, madd (mmul mzero B) A = A) by (clear; intros; v3ring). rewrite Z, !mmul_assoc. reflexivity.
Qed.
Lemma D_vdot u v t u' v' : derivV u t u' -> derivV v t v' -> D (fun s => vdot (u s) (v s)) t (vdot u' (v t) + vdot (u t) v').
Proof.
  intros (A & B & C) (A' & B' & C'). unfold vdot. eapply D_eq.
  - repeat apply D_plus; apply D_mult; eassumption.
  - cbv beta. ring.
Qed.
Lemma cor_form_deriv I p (X : R -> PT) t w (a b : R -> SV) a' b' :
  derivM (fun s => mtr (rotE (X s))) t (mmul (mcross w) (mtr (rotE (X t)))) -> derivS a t a' -> derivS b t b' ->
  D (fun s => svdot (a s) (corA I p (X s) (b s))) t
    (svdot (a t) (svadd (corA I p (X t) b') (corB I p (X t) (mkSV w v0) (b t))) +
     svdot (b t) (svadd (corA I p (X t) a') (corB I p (X t) (mkSV w v0) (a t)))).
Proof.
  intros DX Da Db. pose proof (corP_deriv I p X t w DX) as DP. pose proof (corP_sym I p (X t)) as SY.
  assert (DA : derivS (fun s => corA I p (X s) (b s)) t
     (svadd (corA I p (X t) b') (mkSV (mapp (madd (mmul (mcross w) (corP I p (X t))) (mmul (corP I p (X t)) (mtr (mcross w)))) (sang (b t))) v0))).
  { destruct Db as (B1 & B2). split; cbn [sang slin corA svadd].
    - eapply derivV_eq; [apply (derivV_app _ _ _ _ _ DP B1)|]. cbv beta. generalize (mapp (corP I p (X t)) (sang b')). clear.
      intros u. match goal with |- context [mapp ?A ?B] => generalize (mapp A B) end. intro. v3ring.
    - eapply derivV_eq; [apply (derivV_cscale (imass I) _ _ _ B2)|]. rewrite vadd_0_r. reflexivity. }
  eapply D_eq; [apply (deriv_dot2 _ _ _ _ _ Da DA)|]. cbv beta.
  unfold corA, corB, corQ, svdot, svadd. cbn [sang slin]. generalize dependent (corP I p (X t)). intros P. intros. clear DX Da Db.
  rewrite !vadd_0_r. rewrite mapp_madd, !mapp_mmul, mtr_mcross.
  generalize (sang (a t)) (sang a') (sang (b t)) (sang b') (slin (a t)) (slin a') (slin (b t)) (slin b').
  intros [x1 x2 x3] [y1 y2 y3] [z1 z2 z3] [w1 w2 w3] [r1 r2 r3] [s1 s2 s3] [t1 t2 t3] [u1 u2 u3].
  destruct P as [p00 p01 p02 p10 p11 p12 p20 p21 p22]. injection SY as S1 S2 S3 S4 S5 S6. subst. destruct w as [k1 k2 k3].
  cbv [vdot vadd vscale mapp mcross mscale vx vy vz m00 m01 m02 m10 m11 m12 m20 m21 m22]. ring.
Qed.

Lemma D_rsum n (f : R -> nat -> R) t d : (forall i, (i < n)%nat -> D (fun s => f s i) t (d i)) ->
  D (fun s => rsum n (f s)) t (rsum n d).
Proof.
  induction n as [|n IH]; intro H.
  - exact (D_const 0 t).
  - cbn [rsum]. eapply D_eq; [apply D_plus; [apply IH; intros; apply H; lia|apply H; lia]|]. reflexivity.
Qed.
(** A product with constant coefficients of columns that move. *)
Lemma deriv_smul_cols (cols : R -> list SV) dc x t : (forall s, length (cols s) = length dc) -> length x = length dc ->
  (forall n, derivS (fun s => nth n (cols s) sv0) t (nth n dc sv0)) -> derivS (fun s => smul (cols s) x) t (smul dc x).
Proof.
  intros L LX H. apply (derivS_ext _ (fun s => vsum (length dc) (fun a => svscale (nth a x 0) (nth a (cols s) sv0)))).
  { intro s. rewrite smul_vsum by (rewrite L; auto). now rewrite L. }
  rewrite smul_vsum by auto. apply (deriv_vsum _ (fun s a => svscale (nth a x 0) (nth a (cols s) sv0))).
  intros a Ha. eapply derivS_eq; [apply (derivS_scale (fun _ => nth a x 0) _ t 0); [apply D_const|apply H]|].
  cbv beta. generalize (nth a (cols t) sv0) (nth a dc sv0). intros u v. clear. svring.
Qed.

Section Traj.
Variables (mb : MultiBody) (M K : R -> MBC) (t : R).
Hypothesis W : wf_mb mb.
Hypothesis RM : rigid_mb mb.
Hypothesis OK : forall s, mbc_ok mb (M s).
Hypothesis CO : forall s, config_ok mb (M s).
Hypothesis AK : forall s, after_kinematics mb (M s) (K s).
Hypothesis RG : forall j, In j (mb_joints mb) -> regular j.
Hypothesis F : forall i, (i < nrBodies mb)%nat ->
     follows (nth i (mb_joints mb) jd) (fun s => nth i (q (M s)) []) t (nth i (alpha (M t)) []).
Variable c : Cor.
Hypothesis HC : cor_of mb c.
Hypothesis SM : sane_masses mb.
Let RU : forall s, run mb (M s) (K s) := fun s => kin_run mb (M s) (K s) W RM (OK s) (CO s) (AK s).
Let JM := follow_moves mb M t W RM OK CO RG F.

Lemma body_energy_rate k x y : (k < nrBodies mb)%nat -> sized mb jdof x -> sized mb jdof y ->
  exists e, (forall s mx my, forwardVelocity mb (with_alpha x (K s)) = Ok mx -> forwardVelocity mb (with_alpha y (K s)) = Ok my ->
      e s = svdot (rbim (Ib mb k) (vb my k)) (vb mx k)) /\
    D e t (body_form mb (K t) c k x y + body_form mb (K t) c k y x).
Proof.
  intros Hk SX SY. destruct (coo_body _ _ HC k Hk) as (J & bs & N1 & HJ & _).
  pose proof (jo_path _ _ _ _ HJ) as RP.
  set (JW := fun s => match jacobian mb (K s) J with Ok J1 => J1 | _ => J end).
  assert (EW : forall s, jacobian mb (K s) J = Ok (JW s)).
  { intro s. unfold JW. destruct (jac_product mb (M s) (K s) W (RU s) k _ J HJ) as (J1 & E1 & _). now rewrite E1. }
  destruct (both_runs mb (M t) (K t) W (RU t) k _ J HJ) as (J1 & J2 & E1 & E2 & H1 & H2 & P2 & J12 & EDD).
  pose proof (jacobian_deriv mb M K t W RM OK CO AK JM k _ J HJ JW _ EW EDD) as DJ. cbn [with_dot jc_dot] in DJ.
  assert (LD : length (jc_dot J2) = path_dof mb (jc_path J)) by (rewrite (jo_dot _ _ _ _ H2), P2; reflexivity).
  assert (LJ : forall s, length (jc_jac (JW s)) = path_dof mb (jc_path J)).
  { intro s. destruct (jac_product mb (M s) (K s) W (RU s) k _ J HJ) as (J3 & E3 & H3 & P3 & _). rewrite EW in E3. injection E3 as <-.
    rewrite (jo_jac _ _ _ _ H3), P3. reflexivity. }
  assert (LO : forall z : list (list R), sized mb jdof z -> length (on_path (jc_path J) z) = path_dof mb (jc_path J)).
  { intros z Sz. eapply on_path_length; eauto. }
  exists (fun s => svdot (smul (jc_jac (JW s)) (on_path (jc_path J) x)) (corA (Ib mb k) (own_com mb k) (posW (K s) k) (smul (jc_jac (JW s)) (on_path (jc_path J) y)))).
  split.
  - intros s mx my EX EY.
    destruct (jac_product mb (M s) (K s) W (RU s) k _ J HJ) as (J1' & E1' & _ & _ & PV). rewrite EW in E1'. injection E1' as <-.
    rewrite (proj2 (PV _ SX)), (proj2 (PV _ SY)).
    assert (EU : forall z mz, sized mb jdof z -> forwardVelocity mb (with_alpha z (K s)) = Ok mz -> vb mz k =
      path_sum (fun k0 => ptm (relX (bodyPosW (K s)) k k0) (smul (jS (nth k0 (mb_joints mb) jd)) (nth k0 z []))) (jc_path J)).
    { intros z mz SZ EZ. pose proof (FV_run _ _ _ W (with_alpha_ok _ _ _ (r_ok _ _ _ (RU s)) SZ) EZ) as FP.
      pose proof (fv_closed mb (with_alpha z (K s)) mz k _ W (run_placed mb (M s) (K s) (RU s)) FP RP) as EU. cbn [with_alpha bodyPosW alpha] in EU.
      exact EU. }
    rewrite <- (EU x mx SX EX), <- (EU y my SY EY).
    apply cor_energy; [apply (r_rw _ _ _ (RU s)); auto|apply (own_com_of _ SM k Hk)].
  - pose proof (proj2 (body_world mb M K t W RM OK CO AK JM k Hk)) as BW.
    assert (DS : forall z, sized mb jdof z -> derivS (fun s => smul (jc_jac (JW s)) (on_path (jc_path J) z)) t (smul (jc_dot J2) (on_path (jc_path J) z))).
    { intros z SZ. apply (deriv_smul_cols (fun s => jc_jac (JW s))); [intro s; now rewrite LJ, LD|rewrite LD; auto|exact DJ]. }
    eapply D_eq; [exact (cor_form_deriv (Ib mb k) (own_com mb k) (fun s => posW (K s) k) t _ _ _ _ _ BW (DS x SX) (DS y SY))|].
    cbv beta. unfold body_form, cor_jac, get. rewrite N1. cbn [bind]. rewrite E1. cbn [bind]. rewrite E2. cbv zeta. rewrite P2, J12.
    pose proof (EW t) as EWt. rewrite E1 in EWt. injection EWt as <-. unfold corB, corQ. cbn [sang]. reflexivity.
Qed.

Lemma mass_matrix_rate c' s0 (S : R -> FD) : fd_ok mb s0 -> (forall s, computeH mb (K s) s0 = Ok (S s)) ->
  coriolis mb (K t) c = Ok c' -> forall r k, (r < mb_nrDof mb)%nat -> (k < mb_nrDof mb)%nat ->
  D (fun s => ment (fd_H (S s)) r k) t (ment (co_mat c') r k + ment (co_mat c') k r).
Proof.
  intros FO ES EC r k Hr Hk.
  destruct (coriolis_ok mb (M t) (K t) W (RU t) c HC) as (c2 & E & _ & Q). rewrite EC in E. injection E as <-.
  destruct (unflat mb (fun i => if Nat.eqb i r then 1 else 0) W) as (x & SX & EX).
  destruct (unflat mb (fun i => if Nat.eqb i k then 1 else 0) W) as (y & SY & EY).
  assert (PICK : forall G u v a b, (a < mb_nrDof mb)%nat -> (b < mb_nrDof mb)%nat ->
    (forall i, (i < mb_nrDof mb)%nat -> flat u i = if Nat.eqb i a then 1 else 0) ->
    (forall i, (i < mb_nrDof mb)%nat -> flat v i = if Nat.eqb i b then 1 else 0) -> quad (mb_nrDof mb) G (flat v) (flat u) = G a b).
  { intros G u v a b Ha Hb EA EB. unfold quad.
    rewrite (rsum_ext _ _ (fun i => if Nat.eqb i a then rsum (mb_nrDof mb) (fun e => G i e * flat v e) else 0)).
    2:{ intros i Hi. rewrite EA by auto. destruct (Nat.eqb i a); ring. }
    rewrite rsum_delta by auto.
    rewrite (rsum_ext _ _ (fun i => if Nat.eqb i b then G a i else 0)); [now apply rsum_delta|].
    intros i Hi. rewrite EB by auto. destruct (Nat.eqb i b); ring. }
  rewrite <- (PICK (ment (co_mat c')) x y r k Hr Hk EX EY), <- (PICK (ment (co_mat c')) y x k r Hk Hr EY EX).
  rewrite (Q x y SX SY), (Q y x SY SX), <- rsum_plus.
  assert (CH : forall n, (n <= nrBodies mb)%nat -> exists e : R -> R,
    (forall s mx my, forwardVelocity mb (with_alpha x (K s)) = Ok mx -> forwardVelocity mb (with_alpha y (K s)) = Ok my ->
      e s = rsum n (fun i => svdot (rbim (Ib mb i) (vb my i)) (vb mx i))) /\
    D e t (rsum n (fun i => body_form mb (K t) c i x y + body_form mb (K t) c i y x))).
  { induction n as [|n IH]; intro Hn.
    - exists (fun _ => 0). split; [reflexivity|]. exact (D_const 0 t).
    - destruct IH as (e1 & A1 & B1); [lia|]. destruct (body_energy_rate n x y ltac:(lia) SX SY) as (e2 & A2 & B2).
      exists (fun s => e1 s + e2 s). split.
      + intros s mx my Ex Ey. cbn [rsum]. now rewrite (A1 s mx my Ex Ey), (A2 s mx my Ex Ey).
      + cbn [rsum]. now apply D_plus. }
  destruct (CH _ (le_n _)) as (e & He & De).
  eapply D_ext; [|exact De]. intro s. cbv beta.
  rewrite <- (PICK (ment (fd_H (S s))) x y r k Hr Hk EX EY).
  pose proof (r_ok _ _ _ (RU s)) as KS.
  destruct (FV_total mb (with_alpha x (K s)) W (with_alpha_ok _ _ _ KS SX)) as (mx & E1 & _).
  destruct (FV_total mb (with_alpha y (K s)) W (with_alpha_ok _ _ _ KS SY)) as (my & E2 & _).
  rewrite (He s mx my E1 E2).
  destruct (H_run mb (M s) (K s) s0 (S s) W RM (OK s) (CO s) (AK s) FO (ES s)) as [DS P].
  assert (HV : forall z mz, sized mb jdof z -> forwardVelocity mb (with_alpha z (K s)) = Ok mz ->
    fwd (nrBodies mb) (par mb) (ptsn (K s)) sv0 (incr mb (K s) (flat z)) (vb mz)).
  { intros z mz SZ EV. eapply fwd_ext; [apply parlt; auto| | |apply (virtual_fwd mb (K s) z mz W KS SZ (ds_ms _ _ DS) EV)]; auto.
    intros i Hi. symmetry. apply incr_smul; auto; apply KS. }
  apply (H_quad mb (K s) (fd_H (S s)) W (hp_H _ _ _ _ P) _ _ _ _ (HV y my SY E2) (HV x mx SX E1)).
Qed.
End Traj.
