(** Proofs about the Coriolis matrix. *)
From Coq Require Import Reals String ZArith Bool Arith List Lia Lra.
From Verif Require Import Res ResP SMap Vec VecP Sva SvaP Mat JointM MultiBodyM KinM DynM JacM CoMM MomM CoriolisM Spec SpecDyn SpecJac SpecCoM SpecCor
  JointP KinP KinPathP MbP TreeP DynP DynCP DynHP ConvP KinFinP DynFinP DynFin2P SpecDeriv DerivP DerivTreeP JacP JacFinP JacFin2P JacDerivP JacBlkP JacTopP CoMP CoMLoopP CoMCtorP CoMFinP CoMTopP MomP.
Import ListNotations.
Open Scope R_scope.

(** ** Algebra *)
(** The covector of a column pair. *)
Definition corP (I : RBI) (p : V3) (X : PT) : M3 :=
  mmul (mtr (rotE X)) (mmul (msub (sym_mat (iine I)) (mmul (mcross (vscale (imass I) p)) (mtr (mcross p)))) (rotE X)).
Definition corQ (I : RBI) (p : V3) (X : PT) (VW : SV) : M3 :=
  mmul (mcross (sang VW)) (corP I p X).
Definition corA (I : RBI) (p : V3) (X : PT) (d : SV) : SV := mkSV (mapp (corP I p X) (sang d)) (vscale (imass I) (slin d)).
Definition corB (I : RBI) (p : V3) (X : PT) (VW j : SV) : SV := mkSV (mapp (corQ I p X VW) (sang j)) v0.

Lemma cor_entry_eq I p X VW ja jb db : cor_entry I p X VW ja jb db = svdot ja (svadd (corA I p X db) (corB I p X VW jb)).
Proof.
  unfold cor_entry, corA, corB, corQ, corP, svdot, svadd. cbn [sang slin]. rewrite mtr_mtr, !mmul_assoc.
  rewrite vadd_0_r. rewrite Rplus_comm. f_equal. generalize (slin ja) (slin db). clear. intros [a b c] [d e f]. unfold vdot, vscale. cbn [vx vy vz]. ring.
Qed.
Lemma corA_lin I p X : slinear (corA I p X).
Proof.
  unfold corA. split; intros; apply SV_ext; cbn [sang slin svadd svscale].
  - apply mapp_add. - generalize (slin a) (slin b). v3ring.
  - apply mapp_scale. - generalize (slin a). v3ring.
Qed.
Lemma corB_lin I p X VW : slinear (corB I p X VW).
Proof.
  unfold corB. split; intros; apply SV_ext; cbn [sang slin svadd svscale].
  - apply mapp_add. - v3ring. - apply mapp_scale. - v3ring.
Qed.
(** The bilinear form of a body. *)
Lemma cor_bilinear I p X VW Jc Dc x y : length Jc = length Dc -> length x = length Jc -> length y = length Jc ->
  quad (length Jc) (fun a b => cor_entry I p X VW (nth a Jc sv0) (nth b Jc sv0) (nth b Dc sv0)) (fun e => nth e y 0) (fun e => nth e x 0) =
  svdot (smul Jc x) (svadd (corA I p X (smul Dc y)) (corB I p X VW (smul Jc y))).
Proof.
  intros L Lx Ly. set (G := map (fun q => svadd (corA I p X (fst q)) (corB I p X VW (snd q))) (combine Dc Jc)).
  rewrite <- (smul_combine _ _ Dc Jc (corA_lin I p X) (corB_lin I p X VW) y (eq_sym L)). fold G.
  assert (LG : length G = length Jc) by (unfold G; rewrite map_length, combine_length; lia).
  rewrite svdot_comm, smul_dot_rsum by lia. unfold quad. apply rsum_ext. intros a Ha.
  rewrite svdot_comm, smul_dot_rsum by lia. rewrite Rmult_comm. f_equal. rewrite LG. apply rsum_ext. intros b Hb. f_equal.
  rewrite cor_entry_eq. f_equal. unfold G.
  rewrite (nth_map_lt _ _ _ (sv0, sv0)) by (rewrite combine_length; lia). rewrite combine_nth by lia. reflexivity.
Qed.

(** Newton-Euler at the centre of mass. *)
Lemma cor_newton I p X V A U : rigid X -> imom I = vscale (imass I) p ->
  svdot (point_velocity X p U)
    (svadd (corA I p X (point_acceleration X p V A)) (corB I p X (mkSV (mapp (mtr (rotE X)) (sang V)) v0) (point_velocity X p V))) =
  svdot (svadd (rbim I A) (scrossDual V (rbim I V))) U.
Proof.
  intros RX E. unfold corA, corB, corQ, corP, point_velocity, point_acceleration, svdot, svadd. cbn [sang slin].
  rewrite !mapp_mmul, !(SO3_cancel_r (rotE X)) by apply RX. rewrite mapp_mcross.
  rewrite (SO3_cross (mtr (rotE X))) by (apply SO3_tr, RX). rewrite <- mapp_scale, vadd_0_r.
  rewrite <- !mapp_add, !(SO3_dot (mtr (rotE X))) by (apply SO3_tr, RX).
  unfold rbim, scrossDual. cbn [sang slin]. rewrite E.
  destruct V as [[w1 w2 w3] [v1 v2 v3]], A as [[a1 a2 a3] [b1 b2 b3]], U as [[u1 u2 u3] [s1 s2 s3]], p as [p1 p2 p3].
  destruct I as [mm h [i1 i2 i3 i4 i5 i6]]. clear E.
  cbv [imass iine sang slin sym_mat sxx sxy sxz syy syz szz mcross mtr msub mmul mapp vscale vadd vsub vcross vdot vx vy vz
    m00 m01 m02 m10 m11 m12 m20 m21 m22 vopp]. ring.
Qed.

(** ** Constructor *)
Lemma Coriolis_ctor_ok g gm gr mb : wf_mb mb -> names_ok mb -> exists c, Coriolis_ctor g gm gr mb = Ok c /\ cor_of mb c.
Proof.
  intros W NO. unfold Coriolis_ctor.
  destruct (for_up_inv (fun i s => let '(vec, bl, r) := s in length vec = i /\ length bl = i /\ mrows r = mcols r /\
     forall k, (k < i)%nat -> exists J bs, nth_error vec k = Some J /\ jacobian_of mb k (own_com mb k) J /\
        nth_error bl k = Some bs /\ compactPath mb J = Ok bs /\ (path_dof mb (jc_path J) <= mrows r)%nat)
      (cor_init_step g gr mb) (nrBodies mb) ([], [], mat_zero 0 0)) as (((vec & bl) & r) & E & L1 & L2 & SQ & P).
  - cbn. do 3 (split; auto). intros; lia.
  - intros i ((vec & bl) & r) Hi (L1 & L2 & SQ & P). unfold cor_init_step. rewrite get_body by auto. cbn [bind].
    destruct (ctor_ok (g i) mb _ (own_com mb i) i W (NO i Hi) Hi) as (J & EJ & HJ).
    change (if Rlt_dec 0 _ then _ else _) with (own_com mb i). rewrite EJ. cbn [bind].
    destruct (compact_ex mb i _ J W HJ) as (bs & EB & _). rewrite EB. cbn [bind].
    eexists. split; [reflexivity|]. cbv beta iota zeta. rewrite !app_length. cbn [length]. split; [lia|]. split; [lia|].
    assert (LE : (mrows r <= mrows (if (mrows r <? jac_dof J)%nat then mkMat (jac_dof J) (jac_dof J) (gr i) else r))%nat /\
                 (jac_dof J <= mrows (if (mrows r <? jac_dof J)%nat then mkMat (jac_dof J) (jac_dof J) (gr i) else r))%nat).
    { destruct (Nat.ltb_spec (mrows r) (jac_dof J)); cbn [mrows]; lia. }
    split. { destruct (mrows r <? jac_dof J)%nat; auto. }
    intros k Hk. destruct (Nat.eq_dec k i) as [->|N].
    + exists J, bs. rewrite !nth_error_app2 by lia. rewrite L1, L2, Nat.sub_diag. do 4 (split; auto).
      rewrite <- (jo_jac _ _ _ _ HJ). apply LE.
    + destruct (P k) as (J' & bs' & Q1 & Q2 & Q3 & Q4 & Q5); [lia|]. exists J', bs'. rewrite !nth_error_app1 by lia. do 4 (split; auto). lia.
  - rewrite E. cbn [bind]. eexists. split; [reflexivity|]. constructor; cbn [co_mat co_res co_jacs co_blocks mrows mcols]; auto.
    intros i Hi. destruct (P i Hi) as (J & bs & Q1 & Q2 & Q3 & Q4 & Q5). exists J, bs. do 5 (split; auto). lia.
Qed.

(** ** The loop *)
Section Loop.
Variables (mb : MultiBody) (m0 m : MBC).
Hypothesis W : wf_mb mb.
Hypothesis RN : run mb m0 m.
Variable c : Cor.
Hypothesis HC : cor_of mb c.
Let K := r_ok _ _ _ RN.

(** The Jacobian object of body k after its update. *)
Definition cor_jac (k : nat) : res Jac := J <- get (co_jacs c) k ;; J <- jacobian mb m J ;; jacobianDot mb m J.

Lemma both_runs i p J : jacobian_of mb i p J -> exists J1 J2, jacobian mb m J = Ok J1 /\ jacobianDot mb m J1 = Ok J2 /\
  jacobian_of mb i p J1 /\ jacobian_of mb i p J2 /\ jc_path J2 = jc_path J /\ jc_jac J2 = jc_jac J1 /\
  jacobianDot mb m J = Ok (with_dot (jc_dot J2) J).
Proof.
  intros HJ. destruct (jac_product mb m0 m W RN i p J HJ) as (J1 & E1 & H1 & P1 & _). exists J1.
  rewrite (jacobianDot_run mb m0 m W RN i p J1 H1), (jacobianDot_run mb m0 m W RN i p J HJ). eexists. split; [exact E1|]. split; [reflexivity|].
  split; auto. split. { apply jo_with_dot; auto. rewrite (dcols_total mb m0 m W RN i p J1 H1). symmetry. apply (jo_dot _ _ _ _ H1). }
  cbn [with_dot jc_path jc_jac jc_dot]. rewrite P1. auto.
Qed.

Definition body_form (k : nat) (x y : list (list R)) : R :=
  match cor_jac k with
  | Ok J => let X := posW m k in let I := Ib mb k in let p := own_com mb k in
      svdot (smul (jc_jac J) (on_path (jc_path J) x))
        (svadd (corA I p X (smul (jc_dot J) (on_path (jc_path J) y)))
               (corB I p X (nth k (bodyVelW m) sv0) (smul (jc_jac J) (on_path (jc_path J) y))))
  | _ => 0
  end.

Lemma compact_path J J' : jc_path J = jc_path J' -> compactPath mb J = compactPath mb J'.
Proof. intro E. unfold compactPath. now rewrite E. Qed.

Lemma coriolis_ok : exists c', coriolis mb m c = Ok c' /\ cor_of mb c' /\
  forall x y, sized mb jdof x -> sized mb jdof y ->
    quad (mb_nrDof mb) (ment (co_mat c')) (flat y) (flat x) = rsum (nrBodies mb) (fun k => body_form k x y).
Proof.
  unfold coriolis. destruct HC as [HM HL HB].
  destruct (for_up_inv (fun i s => let '(vec, r, M) := s in length vec = nrBodies mb /\
      mrows r = mrows (co_res c) /\ mcols r = mcols (co_res c) /\ mrows M = mb_nrDof mb /\ mcols M = mb_nrDof mb /\
      (forall k, (k < nrBodies mb)%nat -> exists J bs, nth_error vec k = Some J /\ jacobian_of mb k (own_com mb k) J /\
        nth_error (co_blocks c) k = Some bs /\ compactPath mb J = Ok bs /\
        (path_dof mb (jc_path J) <= mrows (co_res c))%nat /\ (path_dof mb (jc_path J) <= mcols (co_res c))%nat) /\
      (forall k, (i <= k)%nat -> nth_error vec k = nth_error (co_jacs c) k) /\
      forall x y, sized mb jdof x -> sized mb jdof y ->
        quad (mb_nrDof mb) (ment M) (flat y) (flat x) = rsum i (fun k => body_form k x y))
     (cor_step mb m c) (nrBodies mb) (co_jacs c, co_res c, mat_clear (co_mat c)))
    as (((vec & r) & M) & E & L & R1 & R2 & M1 & M2 & B & _ & Q).
  - do 3 (split; [reflexivity || assumption|]). destruct HM as (HM1 & HM2). cbn [mat_clear mat_zero mrows mcols].
    split; [assumption|]. split; [assumption|]. split; [exact HB|]. split; [auto|].
    intros x y _ _. cbn [rsum]. unfold quad. apply rsum_eq0. intros a Ha. cbn [mat_clear mat_zero ment].
    rewrite (rsum_eq0 _ (fun e => 0 * flat y e)); [ring|]. intros; ring.
  - intros i ((vec & r) & M) Hi (L & R1 & R2 & M1 & M2 & B & SAME & Q). unfold cor_step.
    destruct (B i Hi) as (J & bs & N1 & HJ & N2 & EB & D1 & D2).
    assert (G : get vec i = Ok J) by (unfold get; now rewrite N1). rewrite G. cbn [bind].
    destruct (both_runs i _ J HJ) as (J1 & J2 & E1 & E2 & H1 & H2 & P2 & J12 & _).
    rewrite E1. cbn [bind]. rewrite E2. cbn [bind].
    assert (CJ : cor_jac i = Ok J2).
    { unfold cor_jac, get. rewrite <- SAME, N1 by lia. cbn [bind]. rewrite E1. cbn [bind]. exact E2. }
    rewrite set_ok by lia. cbn [bind].
    rewrite (get_nth (bodyPosW m) i ptid) by (rewrite (ok_bodyPosW _ _ K); auto). cbn [bind].
    rewrite (get_nth (bodyVelW m) i sv0) by (rewrite (ok_bodyVelW _ _ K); auto). cbn [bind].
    rewrite get_body by auto. cbn [bind].
    assert (LJ : jac_dof J2 = path_dof mb (jc_path J)) by (unfold jac_dof; rewrite (jo_jac _ _ _ _ H2); now rewrite P2).
    assert (LD : length (jc_dot J2) = jac_dof J2) by (unfold jac_dof; now rewrite (jo_jac _ _ _ _ H2), (jo_dot _ _ _ _ H2)).
    rewrite LD, Nat.eqb_refl. unfold set_block.
    replace ((0 + jac_dof J2 <=? mrows r) && (0 + jac_dof J2 <=? mcols r))%nat with true.
    2:{ symmetry. apply andb_true_intro. split; apply Nat.leb_le; rewrite LJ; lia. }
    cbn [bind]. unfold get at 1. rewrite N2. cbn [bind]. unfold get_block. cbn [mrows mcols ment].
    replace ((0 + jac_dof J2 <=? mrows r) && (0 + jac_dof J2 <=? mcols r))%nat with true.
    2:{ symmetry. apply andb_true_intro. split; apply Nat.leb_le; rewrite LJ; lia. }
    cbn [bind].
    match goal with |- context [expandAdd_compact bs ?B0 M] => set (BM := B0) end.
    destruct (expandAdd_ok mb i _ J W HJ BM M) as (M' & EM & MR & MC & QM & bs' & M'' & EB' & EM' & SM).
    { unfold BM; cbn [mrows]; auto. } { unfold BM; cbn [mcols]; auto. } { auto. } { auto. }
    rewrite EB in EB'. injection EB' as <-. rewrite EM'. cbn [bind]. eexists. split; [reflexivity|].
    cbv beta iota zeta. rewrite upd_length. cbn [mrows mcols]. split; [auto|]. split; [auto|]. split; [auto|].
    destruct SM as (S1 & S2 & S3). split; [congruence|]. split; [congruence|]. split; [|split].
    + intros k Hk. destruct (Nat.eq_dec k i) as [->|N].
      * exists J2, bs. rewrite nth_error_upd_eq by lia. rewrite (compact_path J2 J P2), P2. auto 10.
      * rewrite nth_error_upd_neq by auto. now apply B.
    + intros k Hk. rewrite nth_error_upd_neq by lia. apply SAME. lia.
    + intros x y SX SY. cbn [rsum]. rewrite <- Q by auto.
      transitivity (quad (mb_nrDof mb) (ment M') (flat y) (flat x)).
      { unfold quad. apply rsum_ext. intros a Ha. f_equal. apply rsum_ext. intros b Hb. now rewrite S3. }
      rewrite QM by auto. f_equal. unfold body_form. rewrite CJ. cbv zeta.
      assert (LO : forall z : list (list R), sized mb jdof z -> length (on_path (jc_path J) z) = jac_dof J2).
      { intros z Sz. rewrite LJ. eapply on_path_length; eauto. apply (jo_path _ _ _ _ HJ). }
      rewrite P2. rewrite <- (cor_bilinear _ _ _ _ (jc_jac J2) (jc_dot J2)); [|now rewrite LD|apply LO; auto|apply LO; auto].
      fold (jac_dof J2). rewrite LJ. unfold quad. apply rsum_ext. intros a Ha. f_equal. apply rsum_ext. intros b Hb. f_equal.
      unfold BM. cbn [ment plus].
      assert (IB : in_block 0 (jac_dof J2) 0 (jac_dof J2) a b = true).
      { unfold in_block. rewrite LJ. clear -Ha Hb. destruct (Nat.leb_spec 0 a), (Nat.ltb_spec a (0 + path_dof mb (jc_path J))), (Nat.leb_spec 0 b), (Nat.ltb_spec b (0 + path_dof mb (jc_path J))); try lia; reflexivity. }
      rewrite IB, !Nat.sub_0_r. unfold jac_point. rewrite (jo_point _ _ _ _ H2). reflexivity.
  - rewrite E. cbn [bind]. eexists. split; [reflexivity|]. split; [|exact Q].
    constructor; cbn [co_mat co_res co_jacs co_blocks]; auto. rewrite R1, R2. auto.
Qed.

Hypothesis SM : sane_masses mb.

(** The normal accelerations. *)
Lemma nacc_fwd A k l : fwd (nrBodies mb) (par mb) (fun i => nth i (parentToSon m) ptid) sv0 (fun i => scross (vb m i) (vj m i)) A ->
  root_path mb k l -> A k = nacc m l k.
Proof.
  intros F RP. rewrite (forward_closed mb m A sv0 (fun i => scross (vb m i) (vj m i)) W (run_placed _ _ _ RN)) with (l := l); auto.
  now rewrite ptm_sv0, svadd_0_l.
Qed.

Lemma body_form_alpha k x mv A : (k < nrBodies mb)%nat -> sized mb jdof x -> forwardVelocity mb (with_alpha x m) = Ok mv ->
  fwd (nrBodies mb) (par mb) (fun i => nth i (parentToSon m) ptid) sv0 (fun i => scross (vb m i) (vj m i)) A ->
  body_form k x (alpha m) =
  svdot (svadd (rbim (Ib mb k) (A k)) (scrossDual (vb m k) (rbim (Ib mb k) (vb m k)))) (vb mv k).
Proof.
  intros Hk SX EV FA. destruct (coo_body _ _ HC k Hk) as (J & bs & N1 & HJ & _).
  pose proof (jo_path _ _ _ _ HJ) as RP.
  destruct (both_runs k _ J HJ) as (J1 & J2 & E1 & E2 & H1 & H2 & P2 & J12 & EDD).
  unfold body_form, cor_jac, get. rewrite N1. cbn [bind]. rewrite E1. cbn [bind]. rewrite E2. cbv zeta.
  rewrite P2, J12.
  destruct (jac_product mb m0 m W RN k _ J HJ) as (J1' & E1' & _ & _ & PV). rewrite E1 in E1'. injection E1' as <-.
  rewrite (proj2 (PV _ SX)), (proj2 (PV _ (ok_alpha _ _ K))).
  rewrite <- (vb_closed mb m0 m W RN k _ RP).
  pose proof (FV_run _ _ _ W (with_alpha_ok _ _ _ K SX) EV) as FP.
  pose proof (fv_closed mb (with_alpha x m) mv k _ W (run_placed mb m0 m RN) FP RP) as EU. cbn [with_alpha bodyPosW alpha] in EU.
  rewrite <- EU.
  rewrite (nacc_fwd A k _ FA RP).
  assert (ED : smul (jc_dot J2) (on_path (jc_path J) (alpha m)) = point_acceleration (posW m k) (own_com mb k) (vb m k) (nacc m (jc_path J) k)).
  { rewrite (jacobianDot_run mb m0 m W RN k _ J HJ) in EDD. injection EDD as <-.
    rewrite (dot_world_sum mb m0 m W RN k _ J HJ). apply (world_acc mb m0 m W RN k _ J HJ). }
  rewrite ED.
  pose proof (cor_newton (Ib mb k) (own_com mb k) (posW m k) (vb m k) (nacc m (jc_path J) k) (vb mv k) (r_rw _ _ _ RN k Hk)
     (own_com_of _ SM k Hk)) as CN.
  unfold vb at 6 in CN. unfold vb in CN |- *. rewrite <- CN. f_equal. f_equal. unfold corB, corQ. rewrite (r_vw _ _ _ RN k Hk). reflexivity.
Qed.
End Loop.

Lemma cor_nowrench X f : svsub f (ptdual X sv0) = f.
Proof. assert (E : ptdual X sv0 = sv0) by svring. rewrite E. svring. Qed.
Lemma dof_vectors_eq mb (f g : nat -> R) : wf_mb mb ->
  (forall x, sized mb jdof x -> rsum (mb_nrDof mb) (fun r => flat x r * f r) = rsum (mb_nrDof mb) (fun r => flat x r * g r)) ->
  forall r, (r < mb_nrDof mb)%nat -> f r = g r.
Proof.
  intros W H r Hr. destruct (unflat mb (fun k => if Nat.eqb k r then 1 else 0) W) as (x & SX & EX). specialize (H x SX).
  assert (G : forall h : nat -> R, rsum (mb_nrDof mb) (fun k => flat x k * h k) = h r).
  { intro h. rewrite (rsum_ext _ _ (fun k => if Nat.eqb k r then h k else 0)).
    - now apply rsum_delta.
    - intros k Hk. rewrite EX by auto. destruct (Nat.eqb k r); ring. }
  now rewrite !G in H.
Qed.

Lemma coriolis_bias mb m0 m c s : wf_mb mb -> rigid_mb mb -> mbc_ok mb m0 -> config_ok mb m0 -> after_kinematics mb m0 m ->
  sane_masses mb -> cor_of mb c -> fd_ok mb s ->
  exists c' s', coriolis mb m c = Ok c' /\ cor_of mb c' /\
    computeC mb (with_gravity v0 (with_force (repeat sv0 (nrBodies mb)) m)) s = Ok s' /\
    forall r, (r < mb_nrDof mb)%nat -> mat_vec (co_mat c') (concat (alpha m)) r = nth r (fd_C s') 0.
Proof.
  intros W RM K0 C0 AK SM HC FO. pose proof (kin_run mb m0 m W RM K0 C0 AK) as RN. pose proof (r_ok _ _ _ RN) as K.
  pose proof (after_kin_state _ _ _ W RM K0 C0 AK) as D.
  set (m' := with_gravity v0 (with_force (repeat sv0 (nrBodies mb)) m)).
  pose proof (dyn_state_with_gravity mb _ v0 (dyn_state_with_force mb m (repeat sv0 (nrBodies mb)) D (repeat_length _ _))) as D'. fold m' in D'.
  destruct (coriolis_ok mb m0 m W RN c HC) as (c' & E & HC' & Q). exists c'.
  destruct (C_ok mb m' s W (ds_ok _ _ D') FO) as (s' & ES & [FO' _ _ (A & f & F & HA & HF & HACC & HCC)]). exists s'.
  split; [exact E|]. split; [exact HC'|]. split; [exact ES|].
  pose proof (wf_nrJoints mb W) as NJ.
  unfold mat_vec. rewrite (proj2 (coo_mat _ _ HC')).
  apply (dof_vectors_eq mb (fun r => rsum (mb_nrDof mb) (fun j => ment (co_mat c') r j * nth j (concat (alpha m)) 0)) (fun r => nth r (fd_C s') 0) W).
  intros x SX. change (quad (mb_nrDof mb) (ment (co_mat c')) (flat (alpha m)) (flat x) = rsum (mb_nrDof mb) (fun r => flat x r * nth r (fd_C s') 0)).
  rewrite (Q x (alpha m) SX (ok_alpha _ _ K)).
  destruct (FV_total mb (with_alpha x m) W (with_alpha_ok _ _ _ K SX)) as (mv & EV & _).
  set (t := map (fun i => map (fun col => svdot col (F i)) (nth i (motionSubspace m) [])) (seq 0 (nrBodies mb))).
  assert (Lt : length t = nrBodies mb) by (unfold t; now rewrite map_length, seq_length).
  assert (Ht : forall i, (i < nrBodies mb)%nat -> nth i t [] = map (fun col => svdot col (F i)) (nth i (motionSubspace m) [])).
  { intros i Hi. unfold t. now rewrite nth_map_seq. }
  set (Fl := map F (seq 0 (nrBodies mb))).
  assert (HFl : forall i, (i < nrBodies mb)%nat -> nth i Fl sv0 = F i) by (intros i Hi; unfold Fl; now rewrite nth_map_seq).
  assert (HV : fwd (nrBodies mb) (par mb) (fun i => nth i (parentToSon m) ptid) sv0 (fun i => smul (nth i (motionSubspace m) []) (nth i x [])) (vb mv)).
  { apply (virtual_fwd mb m x mv W K SX (ds_ms _ _ D) EV). }
  transitivity (rsum (mb_nrDof mb) (fun r => flat t r * flat x r)).
  - rewrite (torque_power mb m Fl t x (vb mv) f W K SX Lt).
    + apply rsum_ext. intros k Hk.
      rewrite (body_form_alpha mb m0 m W RN c HC SM k x mv A Hk SX EV).
      * rewrite HF by auto. unfold local_force, fext. unfold m'. cbn [with_gravity with_force force bodyPosW].
        rewrite nth_repeat. rewrite cor_nowrench. reflexivity.
      * exact HA.
    + intros i Hi. rewrite Ht, HFl by auto. reflexivity.
    + intros i Hi u. rewrite HFl by auto. specialize (HACC i Hi u). rewrite HACC. f_equal. apply rsum_ext. intros k Hk. rewrite HFl by auto. reflexivity.
    + exact HV.
  - pose proof (torque_sized mb m Fl t W K Lt) as St.
    assert (St' : sized mb jdof t) by (apply St; intros i Hi; rewrite Ht, HFl by auto; reflexivity).
    apply rsum_ext. intros r Lr. rewrite Rmult_comm. f_equal.
    rewrite (wf_nrDof mb W), <- pos_all in Lr. apply pos_find in Lr; auto.
    destruct Lr as (i & a & Li & La & ->). rewrite NJ in Li. unfold flat. rewrite (concat_tile mb t) by (auto; lia).
    rewrite HCC by auto. rewrite Ht by auto. rewrite (nth_map_lt _ _ _ sv0); [reflexivity|].
    pose proof (sized_nth _ _ _ i (ok_motionSubspace _ _ K) ltac:(lia)). unfold dofi in La. lia.
Qed.
