(** Proofs about the derivatives of the torques of inverse statics: whole calls and trajectories. *)
From Coq Require Import Reals String ZArith Bool Arith Lia Lra List.
From Verif Require Import Res ResP Vec VecP Sva SvaP Mat JointM JointP MultiBodyM KinM DynM JacM CoMM MomM ISM Spec SpecDyn SpecJac SpecDeriv SpecIS KinP MbP KinFinP TreeP DynP DynCP DynFin2P
  DynHP DynFinP JacP JacBlkP JacTopP JacFinP CoMP MomP DerivP DerivTreeP MomTopP ISP IsDerivP IsLoopP.
Import ListNotations.
Open Scope R_scope.

(** ** Sizes *)
Lemma wanted_ok mb N jacs : force_jacobians mb N jacs ->
  exists w, is_wanted mb jacs = Ok w /\ (w <= N)%nat /\ forall JF, In JF jacs -> (mcols JF <= w)%nat.
Proof.
  intros (L & HN & HC & _). unfold is_wanted.
  destruct (for_up_inv (fun k w => (w <= N)%nat /\ forall i, (i < k)%nat -> (mcols (nth i jacs md) <= w)%nat)
    (fun i w => J <- get jacs i ;; Ok (if (w <? mcols J)%nat then mcols J else w)) (nrBodies mb) 0%nat) as (w & E & A & B).
  - split; [lia|]. intros; lia.
  - intros i w Hi (A & B). rewrite (get_nth jacs i md) by lia. cbn [bind]. eexists. split; [reflexivity|].
    assert (C : (mcols (nth i jacs md) <= N)%nat) by (destruct (HC (nth i jacs md)) as [Z|(_ & Z)]; [apply nth_In; lia| |]; lia).
    destruct (Nat.ltb_spec w (mcols (nth i jacs md))); (split; [lia|]); intros k Hk; (destruct (Nat.eq_dec k i) as [->|]; [lia|]); specialize (B k ltac:(lia)); lia.
  - exists w. split; [exact E|]. split; [auto|]. intros JF H. destruct (In_nth _ _ md H) as (i & Hi & <-). apply B. lia.
Qed.
Lemma resize_ok mb m N jacs s : wf_mb mb -> mbc_ok mb m -> force_jacobians mb N jacs -> isd_ok mb (mb_nrDof mb) s ->
  exists s', setJacobianSize mb m jacs s = Ok s' /\ isd_ok mb N s' /\ id_set s' = true.
Proof.
  intros W K FJ HS. destruct (wanted_ok mb N jacs FJ) as (w & E & WN & WJ). unfold setJacobianSize. rewrite E. cbn [bind].
  destruct FJ as (_ & HN & _ & HW). mbclens W K. pose proof (wf_nrJoints mb W) as NJ.
  destruct (for_up_inv (fun k s' => length (id_f s') = nrBodies mb /\ length (id_df s') = nrBodies mb /\
     (forall i, (i < k)%nat -> mrows (nth i (id_df s') md) = 6%nat /\ mcols (nth i (id_df s') md) = N) /\
     (forall i, (k <= i)%nat -> nth i (id_df s') md = nth i (id_df s) md) /\
     length (id_diff s') = nrBodies mb /\ id_f s' = id_f s /\ id_jac s' = id_jac s /\ id_full s' = id_full s) (is_resize m w) (nrBodies mb) s) as (s' & E' & L1 & L2 & P & _ & L3 & E1 & E2 & E3).
  - destruct HS. do 2 (split; [auto|]). split; [intros; lia|]. auto.
  - intros i s' Hi (L1 & L2 & P & Q & L3 & E1 & E2 & E3). unfold is_resize.
    rewrite (get_nth (id_df s') i md) by lia. cbn [bind]. rewrite set_ok by lia. cbn [bind]. gets.
    eexists. split; [reflexivity|]. cbn [id_f id_df id_diff id_jac id_full id_set]. rewrite !upd_length.
    do 2 (split; [auto|]). split; [|split; [|auto]].
    + intros k Hk. destruct (Nat.eq_dec k i) as [->|]; [|rewrite nth_upd_neq by auto; apply P; lia]. rewrite nth_upd_eq by lia.
      rewrite Q by lia. destruct (io_d _ _ _ HS i Hi) as (R1 & C1). rewrite C1.
      destruct (Nat.ltb_spec (mb_nrDof mb) w); cbn [mat_zero mrows mcols]; (split; [auto|]).
      * destruct HW as [->|(JF & I & <-)]; [lia|]. specialize (WJ JF I). lia.
      * destruct HW as [->|(JF & I & <-)]; [auto|]. specialize (WJ JF I). lia.
    + intros k Hk. rewrite nth_upd_neq by lia. apply Q. lia.
  - rewrite E'. cbn [bind]. eexists. split; [reflexivity|]. split; [|reflexivity].
    destruct HS. constructor; cbn [id_f id_df id_diff id_jac id_full id_set]; auto; try congruence. rewrite E2. auto.
Qed.

(** ** One call *)
Definition ready (mb : MultiBody) (N : nat) (s : ISd) : Prop := isd_ok mb (if id_set s then N else mb_nrDof mb) s.
Lemma call_ok mb m0 m N jacs s : wf_mb mb -> rigid_mb mb -> mbc_ok mb m0 -> config_ok mb m0 -> after_kinematics mb m0 m ->
  force_jacobians mb N jacs -> ready mb N s ->
  exists s' A, computeTorqueJacobianJoint mb m jacs s = Ok (s', with_bodyAccB A m) /\ isd_ok mb N s' /\ id_set s' = true /\
    length A = nrBodies mb /\ (forall i, (i < nrBodies mb)%nat -> nth i A sv0 = ptm (posW m i) (mkSV v0 (gravity m))) /\
    forall x, (forall j, (j < mb_nrDof mb)%nat -> nth j x 0 = nth j (concat (alpha m)) 0) ->
      accG mb 0 (own_f mb m) (conF m s') (fun k => nth k (id_f s') sv0) /\
      accG mb 0 (own_d mb m jacs x) (conD mb m x s') (fun k => mv6 (nth k (id_df s') md) x) /\
      forall i, (i < nrBodies mb)%nat -> diffI m N x s' i.
Proof.
  intros W RM K0 C0 AK FJ RS. pose proof (kin_run mb m0 m W RM K0 C0 AK) as RN. pose proof (r_ok _ _ _ RN) as K.
  unfold computeTorqueJacobianJoint. rewrite (proj1 FJ), Nat.eqb_refl.
  assert (S1 : exists s1, (if id_set s then Ok s else setJacobianSize mb m jacs s) = Ok s1 /\ isd_ok mb N s1 /\ id_set s1 = true).
  { unfold ready in RS. destruct (id_set s) eqn:ES; [exists s; auto|]. now apply resize_ok. }
  destruct S1 as (s1 & E1 & H1 & T1). rewrite E1. cbn [bind].
  assert (HJ : jacs_ok mb N jacs) by (split; [apply FJ|apply FJ]).
  assert (HN : (mb_nrDof mb <= N)%nat) by apply FJ.
  destruct (isd_forward mb m0 m N jacs (concat (alpha m)) W RM K0 C0 AK HN HJ (fun j _ => eq_refl) s1 H1) as (s2 & A & E2 & H2 & _ & T2 & LA & HA & _).
  cbn [fst snd] in *. rewrite E2. cbn [bind fst snd].
  destruct (isd_backward mb m0 m N (concat (alpha m)) W RM K0 C0 AK HN (fun j _ => eq_refl) s2 H2) as (s3 & E3 & H3 & T3 & _).
  change (isd_torque mb (with_bodyAccB A m)) with (isd_torque mb m). rewrite E3. cbn [bind]. exists s3, A.
  split; [reflexivity|]. split; [auto|]. split; [congruence|]. split; [auto|]. split; [auto|].
  intros x HX.
  destruct (isd_forward mb m0 m N jacs x W RM K0 C0 AK HN HJ HX s1 H1) as (s2' & A' & E2' & _ & _ & _ & _ & _ & F2 & D2).
  rewrite E2 in E2'. injection E2' as <- <-. cbn [fst snd] in *.
  destruct (isd_backward mb m0 m N x W RM K0 C0 AK HN HX s2 H2) as (s3' & E3' & _ & _ & AF & AD & HD).
  rewrite E3 in E3'. injection E3' as <-. split; [|split].
  - intros k Hk. rewrite (AF k Hk), F2 by auto. reflexivity.
  - intros k Hk. rewrite (AD k Hk), D2 by auto. reflexivity.
  - intros i Hi. apply HD. lia.
Qed.

(** ** Constructed objects *)
Lemma ctor_ready g gf mb N s : wf_mb mb -> names_found mb -> ISd_ctor g gf mb = Ok s -> ready mb N s.
Proof.
  intros W HB E. unfold ISd_ctor in E.
  set (F := fun i => b <- get (mb_bodies mb) i ;; Jacobian_ctor (g i) mb (bname b) v0) in E.
  destruct (map_res F (seq 0 (nrBodies mb))) as [js| | |] eqn:EM; cbn [bind] in E; try discriminate. injection E as <-.
  pose proof (wf_joints mb W) as NJ.
  assert (HF : forall i, (i < nrBodies mb)%nat -> exists J, F i = Ok J /\ jacobian_of mb i v0 J).
  { intros i Hi. unfold F. rewrite (get_nth _ i bd) by exact Hi. cbn [bind]. apply ctor_ok; auto. apply HB. now apply nth_error_len. }
  destruct (map_res_Ok _ _ _ EM) as (L & PM). rewrite seq_length in L.
  unfold ready. cbn [id_set]. constructor; cbn [id_f id_df id_diff id_jac id_full id_set]; rewrite ?map_length, ?seq_length; auto.
  - intros i Hi. rewrite (nth_map_seq (fun _ => mat_zero 6 (mb_nrDof mb))) by auto. split; reflexivity.
  - intros i J EJ. assert (Hi : (i < nrBodies mb)%nat) by (rewrite <- L; apply nth_error_Some; congruence).
    destruct (HF i Hi) as (J' & EJ' & H). destruct (PM i i) as (b & Eb & E).
    { rewrite (nth_error_len _ _ 0%nat) by (rewrite seq_length; auto). now rewrite seq_nth. }
    rewrite EJ in Eb. injection Eb as <-. congruence.
Qed.
Lemma ctor_runs g gf mb : wf_mb mb -> names_found mb -> exists s, ISd_ctor g gf mb = Ok s.
Proof.
  intros W HB. unfold ISd_ctor.
  set (F := fun i => b <- get (mb_bodies mb) i ;; Jacobian_ctor (g i) mb (bname b) v0).
  assert (HF : forall i, In i (seq 0 (nrBodies mb)) -> exists J, F i = Ok J).
  { intros i Hi. apply in_seq in Hi. unfold F. rewrite (get_nth _ i bd) by (change (length (mb_bodies mb)) with (nrBodies mb); lia). cbn [bind].
    destruct (ctor_ok (g i) mb (bname (nth i (mb_bodies mb) bd)) v0 i W) as (J & E & _); [|lia|eauto]. apply HB. apply nth_error_len. change (length (mb_bodies mb)) with (nrBodies mb). lia. }
  assert (HM : exists js, map_res F (seq 0 (nrBodies mb)) = Ok js).
  { induction (seq 0 (nrBodies mb)) as [|a l IH]; [exists []; reflexivity|]. cbn [map_res]. destruct (HF a (or_introl eq_refl)) as (J & ->). cbn [bind].
    destruct IH as (js & ->); [intros; apply HF; now right|]. cbn [bind]. eauto. }
  destruct HM as (js & ->). cbn [bind]. eauto.
Qed.
Lemma object_ready mb N s : wf_mb mb -> rigid_mb mb -> names_found mb -> is_object mb N s -> ready mb N s.
Proof.
  intros W RM NF H. induction H as [g gf s E|m0 m jacs s s' m' _ IH K0 C0 AK FJ E].
  - eapply ctor_ready; eauto.
  - destruct (call_ok mb m0 m N jacs s W RM K0 C0 AK FJ IH) as (s1 & A & E1 & H1 & T1 & _). rewrite E in E1. injection E1 as -> _.
    unfold ready. now rewrite T1.
Qed.

(** ** Joints *)
Lemma inner_joint j q X a : joint_unit j -> q_ok j q -> jtyp j = Rev \/ jtyp j = Fixed -> pose j q = Ok X -> length a = jdof j ->
  slin (smul (jS j) a) = v0 /\ mapp (mtr (rotE X)) (sang (smul (jS j) a)) = sang (smul (jS j) a).
Proof.
  intros (ax & U & B) (LQ & _) T P La. apply built_shape in B. destruct B as (E & PA & Dd).
  pose proof (vdot_dir ax (jfwd j) U) as UD. unfold pose in P. rewrite E in *. rewrite PA in LQ. rewrite Dd in La. destruct T as [T|T]; rewrite T in *.
  - cbn in LQ, La. destruct q as [|q0 [|]]; try discriminate LQ. destruct a as [|a0 [|]]; try discriminate La. cbn in P. injection P as <-.
    set (d := vscale (dirR (jfwd j)) ax) in *.
    assert (E0 : smul (map (svscale (dirR (jfwd j))) (baseS Rev ax)) [a0] = mkSV (vscale a0 d) v0).
    { unfold d. cbn [baseS map smul]. generalize (dirR (jfwd j)). clear. intros. svring. }
    rewrite E0. cbn [sang slin ptrot rotE]. split; [reflexivity|]. rewrite mapp_scale. f_equal. now apply angleAxis_axis.
  - cbn in La. destruct a; try discriminate La. injection P as <-. split; cbn; clear; svring.
Qed.

Lemma sub_neg a b : svsub a (svscale (-1) b) = svadd a b. Proof. svring. Qed.
Lemma add_neg a b : svadd a (svscale (-1) b) = svsub a b. Proof. svring. Qed.
Lemma opp_neg a : svopp a = svscale (-1) a. Proof. svring. Qed.
Section Traj.
Variables (mb : MultiBody) (M K : R -> MBC) (t : R) (N : nat) (jacs : list Mat) (x : list R) (g : V3) (fb : R -> list SV) (f1 : R -> list SV) (m1 : R -> MBC) (s0 s1 : ISd) (m' : MBC).
Hypothesis W : wf_mb mb.
Hypothesis RM : rigid_mb mb.
Hypothesis NF : names_found mb.
Hypothesis IR : inner_revolute mb.
Hypothesis RG : forall j, In j (mb_joints mb) -> regular j.
Hypothesis OK : forall s, mbc_ok mb (M s).
Hypothesis CO : forall s, config_ok mb (M s).
Hypothesis AK : forall s, after_kinematics mb (M s) (K s).
Hypothesis F : forall i, (i < nrBodies mb)%nat ->
     follows (nth i (mb_joints mb) jd) (fun s => nth i (q (M s)) []) t (nth i (alpha (M t)) []).
Hypothesis G : forall s, gravity (K s) = g.
Hypothesis FJ : force_jacobians mb N jacs.
Hypothesis X0 : firstn (mb_nrDof mb) x = concat (alpha (M t)).
Hypothesis DF : forall i, (i < nrBodies mb)%nat -> derivS (fun s => nth i (force (K s)) sv0) t (svopp (mv6 (nth i jacs md) x)).
Hypothesis LB : forall s, length (fb s) = nrBodies mb.
Hypothesis IS : forall s, inverseStatics mb (fb s) (K s) = Ok (f1 s, m1 s).
Hypothesis OB : is_object mb N s0.
Hypothesis CT : computeTorqueJacobianJoint mb (K t) jacs s0 = Ok (s1, m').
Let JM := follow_moves mb M t W RM OK CO RG F.
Let RU : forall s, run mb (M s) (K s) := fun s => kin_run mb (M s) (K s) W RM (OK s) (CO s) (AK s).

Lemma is_post_at s : is_post mb (K s) (f1 s) (m1 s).
Proof. destruct (IS_total mb (K s) (fb s) W (r_ok _ _ _ (RU s)) (LB s)) as (f & m & E & P). rewrite IS in E. injection E as -> ->. exact P. Qed.
Lemma f_sum s k : (k < nrBodies mb)%nat -> nth k (f1 s) sv0 =
  svadd (own_f mb (K s) k) (vsum (nrBodies mb) (fun c => if is_par (par mb) c k then pttrans (ptsn (K s) c) (nth c (f1 s) sv0) else sv0)).
Proof.
  intro Hk. apply svdot_ext. intro u. rewrite (sp_F _ _ _ _ (is_post_at s) k Hk u), svdot_add_l, vsum_dot. f_equal.
  apply rsum_ext. intros c Hc. destruct (is_par (par mb) c k); [|now rewrite svdot_0_l]. now rewrite pttrans_adj.
Qed.
Lemma x_alpha j : (j < mb_nrDof mb)%nat -> nth j x 0 = nth j (concat (alpha (K t))) 0.
Proof.
  intro Hj. rewrite (r_a _ _ _ (RU t)), <- X0. symmetry. rewrite <- (firstn_skipn (mb_nrDof mb) x) at 2. symmetry. apply app_nth1.
  rewrite X0, (concat_nrDof mb _ W); auto. apply (ok_alpha _ _ (OK t)).
Qed.
Lemma call_facts : isd_ok mb N s1 /\ accG mb 0 (own_f mb (K t)) (conF (K t) s1) (fun k => nth k (id_f s1) sv0) /\
   accG mb 0 (own_d mb (K t) jacs x) (conD mb (K t) x s1) (fun k => mv6 (nth k (id_df s1) md) x) /\
   forall i, (i < nrBodies mb)%nat -> diffI (K t) N x s1 i.
Proof.
  destruct (call_ok mb (M t) (K t) N jacs s0 W RM (OK t) (CO t) (AK t) FJ (object_ready mb N s0 W RM NF OB)) as (s' & A & E & H & _ & _ & _ & P).
  rewrite CT in E. injection E as -> _. split; [exact H|]. apply P. exact x_alpha.
Qed.
Lemma f_same k : (k < nrBodies mb)%nat -> nth k (id_f s1) sv0 = nth k (f1 t) sv0.
Proof.
  destruct call_facts as (_ & AF & _). intro Hk.
  apply (acc_unique (nrBodies mb) (par mb) (parlt mb W) (ptsn (K t)) (own_f mb (K t)) (fun i => nth i (id_f s1) sv0) (fun i => nth i (f1 t) sv0)); auto.
  - intros i Hi u. rewrite (AF i Hi), svdot_add_l, vsum_dot. f_equal. apply rsum_ext. intros c Hc. cbn [Nat.leb andb].
    destruct (is_par (par mb) c i); [|apply svdot_0_l]. unfold conF. now rewrite pttrans_adj.
  - exact (sp_F _ _ _ _ (is_post_at t)).
Qed.
Lemma own_deriv k : (k < nrBodies mb)%nat -> derivS (fun s => own_f mb (K s) k) t (own_d mb (K t) jacs x k).
Proof.
  intro Hk. pose proof (body_moves mb M K t W RM OK CO AK JM k Hk) as MV.
  eapply derivS_ext; [intro s; unfold own_f, fext; rewrite G; reflexivity|].
  eapply derivS_eq; [apply (local_deriv (fun s => posW (K s) k) (Ib mb k) g (fun s => nth k (force (K s)) sv0) t _ _ MV (r_rw _ _ _ (RU t) k Hk) (DF k Hk))|].
  unfold own_d. rewrite G. unfold vb.
  assert (E : forall X v, ptdual X (svopp v) = svscale (-1) (ptdual X v)).
  { intros X v. rewrite <- (proj2 (ptdual_linear X)). f_equal. apply opp_neg. }
  rewrite E. apply sub_neg.
Qed.
Lemma pred_par i p : (i < nrBodies mb)%nat -> par mb i = Some p -> exists z, nth_error (mb_pred mb) i = Some z /\ z <> (-1)%Z.
Proof.
  intros Hi P. pose proof (wf_pred_len mb W) as L. exists (nth i (mb_pred mb) 0%Z). split; [now rewrite (nth_error_len _ _ 0%Z) by lia|].
  intro Z. destruct (wf_get_pred mb i W Hi) as [[E PP]|(p' & E & _ & PP)]; [congruence|].
  rewrite (get_nth _ i 0%Z) in E by lia. injection E as E. lia.
Qed.
Lemma child_deriv c p D : (c < nrBodies mb)%nat -> par mb c = Some p -> derivS (fun s => nth c (f1 s) sv0) t D ->
  D = mv6 (nth c (id_df s1) md) x -> derivS (fun s => pttrans (ptsn (K s) c) (nth c (f1 s) sv0)) t (conD mb (K t) x s1 c).
Proof.
  intros Hc P DD ED. pose proof (pts_moves mb M K t W RM OK CO AK JM c Hc) as MV.
  eapply derivS_eq; [apply (deriv_pttrans (fun s => ptsn (K s) c) (fun s => nth c (f1 s) sv0) t _ _ MV (r_rx _ _ _ (RU t) c Hc) DD)|].
  cbv beta. rewrite (proj1 (pttrans_linear _)), ED. unfold conD. rewrite (f_same c Hc).
  assert (E : pttrans (ptsn (K t) c) (scrossDual (nth c (jointVelocity (K t)) sv0) (nth c (f1 t) sv0)) =
    svscale (-1) (pttrans (nth c (mb_Xt mb) ptid) (is_MJ (nth c (jointConfig (K t)) ptid) (nth c (f1 t) sv0) (smul (nth c (motionSubspace (K t)) []) (nth c (alpha (K t)) []))))).
  { rewrite (r_pts _ _ _ (RU t)), (r_vj _ _ _ (RU t)), (r_ms _ _ _ (RU t)), (r_a _ _ _ (RU t)) by auto.
    rewrite pttrans_mul by (apply (proj2 RM), nth_In; rewrite (wf_Xt_len mb W); auto). rewrite <- (proj2 (pttrans_linear _)). f_equal.
    assert (IJ : (c < length (mb_joints mb))%nat) by (rewrite (wf_joints mb W); auto).
    destruct (pred_par c p Hc P) as (z & Ez & NZ).
    assert (TJ : jtyp (nth c (mb_joints mb) jd) = Rev \/ jtyp (nth c (mb_joints mb) jd) = Fixed) by (eapply IR; [now apply nth_error_len|exact Ez|exact NZ]).
    destruct (inner_joint (nth c (mb_joints mb) jd) (nth c (q (M t)) []) (nth c (jointConfig (K t)) ptid) (nth c (alpha (M t)) [])) as (A1 & A2); auto.
    - apply (proj1 RM). now apply nth_In.
    - apply (CO t c). 
      + now apply nth_error_len.
      + apply nth_error_len. rewrite (sized_length _ _ _ (ok_q _ _ (OK t))). auto.
    - now apply (r_pose _ _ _ (RU t)).
    - apply (sized_nth _ _ _ _ (ok_alpha _ _ (OK t))). auto.
    - rewrite MJ_alg; auto; [|apply (r_rj _ _ _ (RU t)); auto].
      apply opp_neg. }
  rewrite E. apply add_neg.
Qed.
Lemma f_deriv : forall j k, (nrBodies mb - k <= j)%nat -> (k < nrBodies mb)%nat -> derivS (fun s => nth k (f1 s) sv0) t (mv6 (nth k (id_df s1) md) x).
Proof.
  destruct call_facts as (_ & _ & AD & _).
  induction j as [|j IH]; intros k Hj Hk; [lia|].
  eapply derivS_ext; [intro s; now apply f_sum|]. rewrite (AD k Hk). apply derivS_add; [now apply own_deriv|].
  apply (deriv_vsum (nrBodies mb) (fun s c => if is_par (par mb) c k then pttrans (ptsn (K s) c) (nth c (f1 s) sv0) else sv0)). intros c Hc. cbn [Nat.leb andb].
  destruct (is_par (par mb) c k) eqn:P; [|apply derivS_const]. apply is_par_iff in P. pose proof (par_lt mb c k W Hc P).
  eapply child_deriv; eauto. apply IH; lia.
Qed.
Lemma torque_deriv i : (i < nrBodies mb)%nat -> exists D, nth_error (id_diff s1) i = Some D /\ mrows D = jdof (nth i (mb_joints mb) jd) /\ mcols D = N /\
  forall r, (r < jdof (nth i (mb_joints mb) jd))%nat -> derivable_pt_lim (fun s => co (nth i (jointTorque (m1 s)) []) r) t (mat_vec D x r).
Proof.
  intro Hi. destruct call_facts as (HS & _ & _ & HD). destruct (HD i Hi) as (D1 & D2 & D3). exists (nth i (id_diff s1) md).
  pose proof (wf_joints mb W) as LJ.
  assert (LS : forall s, length (nth i (motionSubspace (K s)) []) = jdof (nth i (mb_joints mb) jd)).
  { intro s. apply (sized_nth _ _ _ _ (ok_motionSubspace _ _ (r_ok _ _ _ (RU s)))). now rewrite (wf_nrJoints mb W). }
  split; [apply nth_error_len; rewrite (io_tl _ _ _ HS); auto|]. split; [now rewrite D1, LS|]. split; [auto|]. intros r Hr. rewrite D3.
  eapply D_ext.
  { intro s. rewrite (sp_t _ _ _ _ (is_post_at s)) by auto. unfold co. rewrite (nth_map_lt _ _ _ sv0) by (rewrite LS; auto). rewrite (r_ms _ _ _ (RU s)) by auto. reflexivity. }
  rewrite (r_ms _ _ _ (RU t)) by auto.
  eapply D_eq; [apply (deriv_dot2 (fun _ => nth r (jS (nth i (mb_joints mb) jd)) sv0) (fun s => nth i (f1 s) sv0) t sv0); [apply derivS_const|apply (f_deriv (nrBodies mb)); auto; lia]|].
  cbv beta. rewrite svdot_0_l. ring.
Qed.
End Traj.

Lemma svcoef_ext u v : (forall r, (r < 6)%nat -> svcoef r u = svcoef r v) -> u = v.
Proof.
  intro H. pose proof (H 0%nat ltac:(lia)). pose proof (H 1%nat ltac:(lia)). pose proof (H 2%nat ltac:(lia)).
  pose proof (H 3%nat ltac:(lia)). pose proof (H 4%nat ltac:(lia)). pose proof (H 5%nat ltac:(lia)).
  destruct u as [[? ? ?] [? ? ?]], v as [[? ? ?] [? ? ?]]; cbn in *. congruence.
Qed.
Theorem torque_derivative : forall mb (M K : R -> MBC) t N jacs x g f f1 m1 s0,
  wf_mb mb -> rigid_mb mb -> names_found mb -> inner_revolute mb -> (forall j, In j (mb_joints mb) -> regular j) ->
  (forall s, mbc_ok mb (M s)) -> (forall s, config_ok mb (M s)) -> (forall s, after_kinematics mb (M s) (K s)) ->
  (forall i, (i < nrBodies mb)%nat -> follows (nth i (mb_joints mb) jd) (fun s => nth i (q (M s)) []) t (nth i (alpha (M t)) [])) ->
  (forall s, gravity (K s) = g) -> force_jacobians mb N jacs ->
  (forall i JF, nth_error jacs i = Some JF -> exists F', (forall r, (r < 6)%nat -> svcoef r F' = - mat_vec JF x r) /\
     derivS (fun s => nth i (force (K s)) sv0) t F') ->
  firstn (mb_nrDof mb) x = concat (alpha (M t)) -> length f = nrBodies mb -> (forall s, inverseStatics mb f (K s) = Ok (f1 s, m1 s)) ->
  is_object mb N s0 ->
  exists s1 m', computeTorqueJacobianJoint mb (K t) jacs s0 = Ok (s1, m') /\ is_object mb N s1 /\ length (id_diff s1) = nrBodies mb /\
    forall i, (i < nrBodies mb)%nat -> exists Dm, nth_error (id_diff s1) i = Some Dm /\
      mrows Dm = jdof (nth i (mb_joints mb) jd) /\ mcols Dm = N /\
      forall r, (r < mrows Dm)%nat -> derivable_pt_lim (fun s => co (nth i (jointTorque (m1 s)) []) r) t (mat_vec Dm x r).
Proof.
  intros mb M K t N jacs x g f f1 m1 s0 W RM NF IR RG OK CO AK F G FJ DF X0 LB IS OB.
  destruct (call_ok mb (M t) (K t) N jacs s0 W RM (OK t) (CO t) (AK t) FJ (object_ready _ _ _ W RM NF OB)) as (s1 & A & E & H & _).
  exists s1, (with_bodyAccB A (K t)). split; [exact E|]. split; [eapply iso_call; eauto|]. split; [apply (io_tl _ _ _ H)|].
  intros i Hi. destruct (torque_deriv mb M K t N jacs x g (fun _ => f) f1 m1 s0 s1 (with_bodyAccB A (K t)) W RM NF IR RG OK CO AK F G FJ X0) with (i := i) as (D1 & E1 & R1 & C1 & HD); auto.
  { intros k Hk. pose proof (proj1 FJ) as LJ. destruct (DF k (nth k jacs md)) as (F' & E1 & E2); [apply nth_error_len; lia|].
    eapply derivS_eq; [exact E2|]. apply svcoef_ext. intros r Hr. rewrite E1 by auto.
    rewrite <- (mv6_coef (nth k jacs md) x r) by auto. clear. generalize (mv6 (nth k jacs md) x). intros [[? ? ?] [? ? ?]].
    do 5 (destruct r as [|r]; [reflexivity|]). reflexivity. }
  exists D1. split; [auto|]. split; [auto|]. split; [auto|]. intros r Hr. apply HD. congruence.
Qed.
Theorem torque_derivative_const : forall mb (M K : R -> MBC) t g F0 f f1 m1 s0,
  wf_mb mb -> rigid_mb mb -> names_found mb -> inner_revolute mb -> (forall j, In j (mb_joints mb) -> regular j) ->
  (forall s, mbc_ok mb (M s)) -> (forall s, config_ok mb (M s)) -> (forall s, after_kinematics mb (M s) (K s)) ->
  (forall i, (i < nrBodies mb)%nat -> follows (nth i (mb_joints mb) jd) (fun s => nth i (q (M s)) []) t (nth i (alpha (M t)) [])) ->
  (forall s, gravity (K s) = g) -> (forall s, force (K s) = F0) -> length f = nrBodies mb -> (forall s, inverseStatics mb f (K s) = Ok (f1 s, m1 s)) ->
  is_object mb (mb_nrDof mb) s0 ->
  exists s1 m', computeTorqueJacobianJoint_const mb (K t) s0 = Ok (s1, m') /\ is_object mb (mb_nrDof mb) s1 /\ length (id_diff s1) = nrBodies mb /\
    forall i, (i < nrBodies mb)%nat -> exists Dm, nth_error (id_diff s1) i = Some Dm /\
      mrows Dm = jdof (nth i (mb_joints mb) jd) /\ mcols Dm = mb_nrDof mb /\
      forall r, (r < mrows Dm)%nat -> derivable_pt_lim (fun s => co (nth i (jointTorque (m1 s)) []) r) t (mat_vec Dm (concat (alpha (M t))) r).
Proof.
  intros mb M K t g F0 f f1 m1 s0 W RM NF IR RG OK CO AK F G CF LB IS OB.
  unfold computeTorqueJacobianJoint_const. 
  eapply torque_derivative with (M := M) (x := concat (alpha (M t))); eauto.
  - split; [now rewrite map_length, seq_length, (wf_nrJoints mb W)|]. split; [lia|]. split; [|now left]. intros JF H. left. apply in_map_iff in H. destruct H as (k & <- & _). reflexivity.
  - intros i JF H. exists sv0. assert (E : JF = mat_zero 0 0) by (apply nth_error_In in H; apply in_map_iff in H; destruct H as (k & <- & _); reflexivity). subst JF.
    split; [intros r Hr; do 6 (destruct r as [|r]; [unfold mat_vec; cbn; ring|]); lia|].
    eapply derivS_ext; [intro s; rewrite CF; reflexivity|apply derivS_const].
  - rewrite <- (concat_nrDof mb (alpha (M t)) W (ok_alpha _ _ (OK t))). apply firstn_all.
Qed.
