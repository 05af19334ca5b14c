(** Top-level statements about integration. *)
From Coq Require Import Reals ZArith Bool List Lia Lra.
From Verif Require Import Res ResP Vec VecP Sva JointM MultiBodyM KinM IntegM Spec SpecDeriv SpecInteg JointP DerivP KinP ConfFinP IntegP IntegJointP IntegAllP IntegExactP.
Import ListNotations.
Open Scope R_scope.

(** *** More fuel does not change the result. *)
Lemma spherical_mono f : forall f' qi w wD h prec r, (f <= f')%nat -> sphericalJointIntegration f qi w wD h prec = Ok r -> sphericalJointIntegration f' qi w wD h prec = Ok r.
Proof.
  induction f as [|f IH]; intros f' qi w wD h prec r L H; [discriminate|]. destruct f' as [|f']; [lia|]. cbn [sphericalJointIntegration] in *. destruct (snd _); auto.
  destruct (sphericalJointIntegration f qi w wD (h / 2) prec) as [q1| | |] eqn:E; cbn [bind] in H; try discriminate. rewrite (IH f' _ _ _ _ _ _ ltac:(lia) E). cbn [bind]. apply (IH f'); auto; lia.
Qed.
Lemma free_mono f : forall f' qi xi w v wD vD h prec r, (f <= f')%nat -> freeJointIntegration f qi xi w v wD vD h prec = Ok r -> freeJointIntegration f' qi xi w v wD vD h prec = Ok r.
Proof.
  induction f as [|f IH]; intros f' qi xi w v wD vD h prec r L H; [discriminate|]. destruct f' as [|f']; [lia|]. cbn [freeJointIntegration] in *. destruct (snd _); auto.
  destruct (freeJointIntegration f qi xi w v wD vD (h / 2) prec) as [q1| | |] eqn:E; cbn [bind] in H; try discriminate. rewrite (IH f' _ _ _ _ _ _ _ _ _ ltac:(lia) E). cbn [bind]. apply (IH f'); auto; lia.
Qed.
Lemma ji_mono f f' t a d h q prec r : (f <= f')%nat -> sizes t q a d -> jointIntegration f t a d h q prec = Ok r -> jointIntegration f' t a d h q prec = Ok r.
Proof.
  intros L (Lq & La & Ld). destruct t; cbn [tparams tdof] in *; auto; spell.
  - rewrite !ji_spherical. intro H. destruct (sphericalJointIntegration f _ _ _ _ _) as [q1| | |] eqn:E; cbn [bind] in H; try discriminate. now rewrite (spherical_mono f f' _ _ _ _ _ _ L E).
  - rewrite !ji_free. intro H. destruct (freeJointIntegration f _ _ _ _ _ _ _ _) as [q1| | |] eqn:E; cbn [bind] in H; try discriminate. now rewrite (free_mono f f' _ _ _ _ _ _ _ _ _ L E).
Qed.
Lemma done_same mb m h prec f m1 m2 : done_upto mb m h prec f (length (mb_joints mb)) m1 -> done_upto mb m h prec f (length (mb_joints mb)) m2 -> m1 = m2.
Proof.
  intros (O1 & Lq1 & La1 & V1 & _) (O2 & Lq2 & La2 & V2 & _). rewrite O1, O2. f_equal; [|f_equal].
  - apply (list2_ext _ _ (length (mb_joints mb))); auto. intros i Hi. destruct (V1 i Hi) as (_ & S1), (V2 i Hi) as (_ & S2). eapply speed_up_ext; eauto.
  - apply (list2_ext _ _ (length (mb_joints mb))); auto. intros i Hi. destruct (V1 i Hi) as (S1 & _), (V2 i Hi) as (S2 & _). congruence.
Qed.
Lemma integration_mono mb m h prec f f' m' : wf_mb mb -> sized mb jparams (q m) -> sized mb jdof (alpha m) -> sized mb jdof (alphaD m) -> (f <= f')%nat ->
  integration f mb m h prec = Ok m' -> integration f' mb m h prec = Ok m'.
Proof.
  intros W SQ SA SD L E. pose proof (integration_char mb m h prec SQ SA SD f m' E) as DU.
  assert (DU' : done_upto mb m h prec f' (length (mb_joints mb)) m').
  { destruct DU as (HO & Lq & La & V & U). do 3 (split; [auto|]). split; [|auto]. intros k Hk. destruct (V k Hk) as (V1 & V2). split; auto. apply (ji_mono f f'); auto. now apply jt_sizes. }
  destruct (integration_ok mb m h prec SQ SA SD f') as (m2 & E2 & D2).
  - intros i Hi. destruct DU' as (_ & _ & _ & V & _). destruct (V i Hi). eauto.
  - rewrite E2. f_equal. exact (done_same _ _ _ _ _ _ _ D2 DU').
Qed.
(** *** The planar angle. *)
Lemma planar_iter wD vD dl : forall k s, psq (Nat.iter k (planar_step wD vD dl) s) = psq s + (psw s * (INR k * dl) + wD * (INR k * dl * (INR k * dl)) / 2) /\
  psw (Nat.iter k (planar_step wD vD dl) s) = psw s + INR k * dl * wD.
Proof.
  induction k as [|k IH]; intro s.
  - cbn. split; field.
  - destruct (IH s) as (E1 & E2). change (Nat.iter (S k) (planar_step wD vD dl) s) with (planar_step wD vD dl (Nat.iter k (planar_step wD vD dl) s)). unfold planar_step at 1 3. cbn [psq psw]. rewrite E1, E2, S_INR. split; field.
Qed.
Lemma substeps_pos h err prec n : 0 < prec -> 0 <= err -> substeps h err prec = Ok n -> (1 <= n)%Z.
Proof.
  intros P E H. destruct (Rle_lt_dec 0 h) as [L|L].
  - destruct (substeps_ok h err prec P L E) as (n' & E' & H1). rewrite E' in H. injection H as <-. exact H1.
  - unfold substeps in H. destruct (Req_EM_T prec 0); [lra|]. destruct (Rlt_dec _ 0) as [|NL]; [discriminate|]. assert (PP : 0 < 180 * prec) by lra.
    assert (err = 0). { destruct E as [E|E]; auto. exfalso. apply NL. unfold Rdiv. apply Ropp_lt_cancel. rewrite Ropp_0. replace (- (err * h * / (180 * prec))) with (err * - h * / (180 * prec)) by ring.
      apply Rmult_lt_0_compat; [apply Rmult_lt_0_compat; lra|]. now apply Rinv_0_lt_compat. }
    subst err. replace (0 * h / (180 * prec)) with 0 in H by (field; lra). rewrite !sqrt_0, Rmult_0_r, ceil_0 in H. cbn in H. injection H as <-. lia.
Qed.
Lemma planar_angle q0 x w v wD vD h prec r : 0 < prec -> planarJointIntegration q0 x w v wD vD h prec = Ok r -> fst r = q0 + w * h + wD * (h * h) / 2.
Proof.
  intros P H. unfold planarJointIntegration in H. cbv zeta in H. destruct (substeps _ _ _) as [n| | |] eqn:E; cbn [bind] in H; try discriminate. injection H as <-. cbn [fst].
  apply substeps_pos in E; auto using sqrt_pos. destruct (planar_iter wD vD (h / IZR n) (Z.to_nat (n - 1)) (mkPS q0 (rot2 q0 (v2add (v2scale 6 x) (v2scale (h / IZR n) v))) v w)) as (E1 & E2).
  rewrite E1, E2. cbn [psq psw]. assert (EN : INR (Z.to_nat (n - 1)) = IZR n - 1). { rewrite INR_IZR_INZ, Z2Nat.id by lia. now rewrite minus_IZR. } rewrite EN.
  assert (IZR n <> 0) by (apply (not_0_IZR n); lia). field. auto.
Qed.
(** *** C52 *)
Lemma nth_err {A} (l : list A) i d x : nth_error l i = Some x -> (i < length l)%nat /\ nth i l d = x.
Proof. intro H. split; [apply nth_error_Some; congruence|now apply nth_error_nth]. Qed.
Theorem integrate_exact fuel mb m h prec m' : wf_mb mb -> mbc_ok mb m -> integration fuel mb m h prec = Ok m' ->
  only_q_alpha m m' /\ mbc_ok mb m' /\
  forall i j, nth_error (mb_joints mb) i = Some j ->
    speed_up h (nth i (alpha m) []) (nth i (alphaD m) []) (nth i (alpha m') []) /\
    (~ curved (jtyp j) -> drift h (nth i (q m) []) (nth i (alpha m) []) (nth i (alphaD m) []) (nth i (q m') [])) /\
    (jtyp j = Planar -> 0 < prec -> co (nth i (q m') []) 0 = co (nth i (q m) []) 0 + co (nth i (alpha m) []) 0 * h + co (nth i (alphaD m) []) 0 * (h * h) / 2).
Proof.
  intros W K E. pose proof (integration_char mb m h prec (ok_q _ _ K) (ok_alpha _ _ K) (ok_alphaD _ _ K) fuel m' E) as DU.
  split; [apply DU|]. split; [eapply done_ok; eauto; apply K|]. intros i j EJ. destruct (nth_err _ _ jd _ EJ) as (Hi & <-). pose proof (jt_sizes mb m W (ok_q _ _ K) (ok_alpha _ _ K) (ok_alphaD _ _ K) i Hi) as SZ.
  destruct DU as (_ & _ & _ & V & _). destruct (V i Hi) as (EI & SP). split; auto. split.
  - intro NC. exact (ji_drift _ _ _ _ _ _ _ _ SZ NC EI).
  - intros TP P. rewrite TP in *. destruct SZ as (Lq & La & Ld). cbn [tparams tdof] in *. destruct (len3 _ Lq) as (q0 & q1 & q2 & Eq), (len3 _ La) as (a0 & a1 & a2 & Ea), (len3 _ Ld) as (d0 & d1 & d2 & Ed).
    rewrite Eq, Ea, Ed in *. rewrite ji_planar in EI. destruct (planarJointIntegration _ _ _ _ _ _ _ _) as [r| | |] eqn:EP; cbn [bind] in EI; try discriminate. injection EI as <-. exact (planar_angle _ _ _ _ _ _ _ _ _ P EP).
Qed.
Lemma integrate_returns fuel mb m h prec : wf_mb mb -> mbc_ok mb m -> (forall j, In j (mb_joints mb) -> ~ curved (jtyp j)) -> exists m', integration fuel mb m h prec = Ok m'.
Proof.
  intros W K NC. destruct (integration_ok mb m h prec (ok_q _ _ K) (ok_alpha _ _ K) (ok_alphaD _ _ K) fuel) as (m' & E & _); eauto. intros i Hi.
  pose proof (jt_sizes mb m W (ok_q _ _ K) (ok_alpha _ _ K) (ok_alphaD _ _ K) i Hi) as (Lq & La & Ld). specialize (NC _ (nth_In _ jd Hi)). unfold curved in NC.
  destruct (jtyp (nth i (mb_joints mb) jd)); try (exfalso; now auto); cbn [tparams tdof] in *.
  - destruct (len1 _ Lq) as (q0 & ->), (len1 _ La) as (a0 & ->), (len1 _ Ld) as (d0 & ->). rewrite ji_rev by auto. eauto.
  - destruct (len1 _ Lq) as (q0 & ->), (len1 _ La) as (a0 & ->), (len1 _ Ld) as (d0 & ->). rewrite ji_rev by auto. eauto.
  - destruct (len2 _ Lq) as (q0 & q1 & ->), (len2 _ La) as (a0 & a1 & ->), (len2 _ Ld) as (d0 & d1 & ->). rewrite ji_cyl. eauto.
  - cbn. eauto.
Qed.
Lemma sIntegration_checks fuel mb m h prec :
  (sized mb jparams (q m) /\ sized mb jdof (alpha m) /\ sized mb jdof (alphaD m) -> sIntegration fuel mb m h prec = integration fuel mb m h prec) /\
  (~ (sized mb jparams (q m) /\ sized mb jdof (alpha m) /\ sized mb jdof (alphaD m)) -> sIntegration fuel mb m h prec = Throw DomainError).
Proof.
  destruct (checks_exact mb m) as (Q1 & Q2 & A1 & A2 & D1 & D2 & _). unfold sIntegration. split.
  - intros (SQ & SA & SD). rewrite (proj2 Q1 SQ), (proj2 A1 SA), (proj2 D1 SD). reflexivity.
  - intro N. destruct (sized_dec mb jparams (q m)) as [SQ|SQ]; [rewrite (proj2 Q1 SQ)|rewrite (proj2 Q2 SQ); reflexivity]. destruct (sized_dec mb jdof (alpha m)) as [SA|SA]; [rewrite (proj2 A1 SA)|rewrite (proj2 A2 SA); reflexivity].
    destruct (sized_dec mb jdof (alphaD m)) as [SD|SD]; [exfalso; auto|rewrite (proj2 D2 SD); reflexivity].
Qed.
(** *** C53 *)
Lemma with_alphaD_ok mb m d : mbc_ok mb m -> sized mb jdof d -> mbc_ok mb (with_alphaD d m).
Proof. intros [] S. constructor; cbn; auto. Qed.
Theorem simulate_ok mb prec : wf_mb mb -> 0 < prec -> forall l m, mbc_ok mb m -> config_ok mb m -> (forall h d, In (h, d) l -> sized mb jdof d /\ step_fits mb h) ->
  exists N m', mbc_ok mb m' /\ config_ok mb m' /\ forall f, (N <= f)%nat -> simulate f mb prec l m = Ok m'.
Proof.
  intros W P. induction l as [|(h & d) l IH]; intros m K C S.
  - exists 0%nat, m. auto.
  - destruct (S h d (or_introl eq_refl)) as (SD & FO). pose proof (with_alphaD_ok mb m d K SD) as K'. assert (C' : config_ok mb (with_alphaD d m)) by exact C.
    destruct (integration_total mb (with_alphaD d m) h prec W (ok_q _ _ K') (ok_alpha _ _ K') (ok_alphaD _ _ K') C' P FO) as (N1 & T). destruct (T N1 (le_n _)) as (m1 & E1).
    pose proof (integration_char _ _ _ _ (ok_q _ _ K') (ok_alpha _ _ K') (ok_alphaD _ _ K') _ _ E1) as DU.
    assert (K1 : mbc_ok mb m1) by (eapply done_ok; eauto; apply K'). assert (C1 : config_ok mb m1) by (eapply done_config; eauto; apply K').
    destruct (IH m1 K1 C1) as (N2 & m' & Km & Cm & H2); [intros; apply S; now right|]. exists (Nat.max N1 N2), m'. do 2 (split; [auto|]). intros f Hf. cbn [simulate].
    rewrite (integration_mono mb _ h prec N1 f m1 W (ok_q _ _ K') (ok_alpha _ _ K') (ok_alphaD _ _ K') ltac:(lia) E1). cbn [bind]. apply H2. lia.
Qed.
Lemma SO3_group qi w wD h r a b : qnorm2 qi = 1 -> qnorm2 (fst (SO3Integration qi w wD h r a b)) = 1.
Proof. apply SO3_unit. Qed.
Lemma spherical_group qi w wD h prec : qnorm2 qi = 1 -> 0 < prec -> exists N q', qnorm2 q' = 1 /\ forall f, (N <= f)%nat -> sphericalJointIntegration f qi w wD h prec = Ok q'.
Proof.
  intros U P. destruct (spherical_total w wD h prec P) as (N & T). destruct (T N qi (le_n _)) as (q' & E). exists N, q'. split; [exact (spherical_unit _ _ _ _ _ _ _ U E)|]. intros f L. exact (spherical_mono N f _ _ _ _ _ _ L E).
Qed.
Lemma free_group qi xi w v wD vD h prec : qnorm2 qi = 1 -> 0 < prec -> 0 <= h -> exists N r, qnorm2 (fst r) = 1 /\ forall f, (N <= f)%nat -> freeJointIntegration f qi xi w v wD vD h prec = Ok r.
Proof.
  intros U P Hh. destruct (free_total w v wD vD h prec P Hh) as (N & T). destruct (T N qi xi (le_n _)) as (q' & E). exists N, q'. split; [exact (free_unit _ _ _ _ _ _ _ _ _ _ U E)|]. intros f L. exact (free_mono N f _ _ _ _ _ _ _ _ _ L E).
Qed.
(** A free joint is not integrated backwards. *)
Lemma negative_step_refuted : exists qi xi w v, qnorm2 qi = 1 /\ forall f prec, 0 < prec -> freeJointIntegration (S f) qi xi w v v0 v0 (-1) prec = UB.
Proof.
  exists (mkQ 1 0 0 0), v0, (mkV3 0 0 1), (mkV3 1 0 0). split; [unfold qnorm2; cbn; ring|]. intros f prec P. assert (A : on_axis (mkV3 0 0 1) (mkV3 0 0 1) v0 1 0).
  { split; [unfold vnorm2, vdot; cbn; ring|]. unfold vscale, v0; cbn. split; f_equal; ring. }
  cbn [freeJointIntegration]. rewrite (SO3_axis _ _ _ _ _ (-1) prec prec false (mkQ 1 0 0 0) A P P). cbn [fst snd]. unfold freeJointIntegration_. cbv zeta. rewrite !vscale_v0.
  replace (vadd (mkV3 1 0 0) v0) with (mkV3 1 0 0) by (unfold vadd, v0; cbn; f_equal; ring). replace (vadd (mkV3 0 0 1) v0) with (mkV3 0 0 1) by (unfold vadd, v0; cbn; f_equal; ring).
  replace (fourthFree (mkV3 1 0 0) (mkV3 0 0 1) v0 v0) with 1 by (unfold fourthFree, vnorm2, vdot, vsub, vadd, vscale, vcross, v0; cbn; ring). rewrite Rmax_left by lra. rewrite sqrt_1.
  unfold substeps. destruct (Req_EM_T prec 0); [lra|]. destruct (Rlt_dec _ 0) as [L|L]; [reflexivity|]. exfalso. apply L. assert (0 < / (180 * prec)) by (apply Rinv_0_lt_compat; lra). unfold Rdiv. lra.
Qed.
(** *** The kinematic law. *)
Lemma choose_all {B} (P : nat -> B -> Prop) n : (forall i, (i < n)%nat -> exists b, P i b) -> forall b0 : B, exists l, length l = n /\ forall i, (i < n)%nat -> P i (nth i l b0).
Proof.
  induction n as [|n IH]; intros H b0.
  - exists []. split; auto. intros; lia.
  - destruct (IH (fun i Hi => H i ltac:(lia)) b0) as (l & L & V). destruct (H n ltac:(lia)) as (b & Hb). exists (l ++ [b]). split; [rewrite app_length; cbn; lia|]. intros i Hi. destruct (Nat.eq_dec i n) as [->|].
    + rewrite app_nth2 by lia. rewrite L, Nat.sub_diag. exact Hb.
    + rewrite app_nth1 by lia. apply V. lia.
Qed.
Definition speeds (h : R) (a d : list R) : list R := map (fun k => co a k + co d k * h) (seq 0 (length a)).
Lemma speeds_ok h a d : speed_up h a d (speeds h a d).
Proof.
  split; [unfold speeds; now rewrite map_length, seq_length|]. intros k Hk. unfold speeds, co. rewrite (nth_indep _ 0 ((fun k => nth k a 0 + nth k d 0 * h) 0%nat)) by (rewrite map_length, seq_length; auto).
  rewrite (map_nth (fun k => nth k a 0 + nth k d 0 * h)), seq_nth by auto. reflexivity.
Qed.
Theorem exact_motion mb m prec : wf_mb mb -> mbc_ok mb m -> config_ok mb m -> 0 < prec ->
  (forall i j, nth_error (mb_joints mb) i = Some j -> steady (jtyp j) (nth i (alpha m) []) (nth i (alphaD m) [])) ->
  exists M : R -> MBC, M 0 = m /\ (forall f h, integration (S f) mb m h prec = Ok (M h)) /\
    forall h i j, nth_error (mb_joints mb) i = Some j -> follows j (fun t => nth i (q (M t)) []) h (nth i (alpha (M h)) []).
Proof.
  intros W K C P ST. set (n := length (mb_joints mb)).
  destruct (choose_all (fun i Q => (forall f h, jointIntegration (S f) (jtyp (nth i (mb_joints mb) jd)) (nth i (alpha m) []) (nth i (alphaD m) []) h (nth i (q m) []) prec = Ok (Q h)) /\
     forall h ah, speed_up h (nth i (alpha m) []) (nth i (alphaD m) []) ah -> forall k, (k < tparams (jtyp (nth i (mb_joints mb) jd)))%nat -> D (fun s => co (Q s) k) h (co (qrate (jtyp (nth i (mb_joints mb) jd)) (Q h) ah) k)) n) with (b0 := fun _ : R => @nil R) as (Qs & LQ & V).
  { intros i Hi. destruct (ji_exact (jtyp (nth i (mb_joints mb) jd)) (nth i (q m) []) (nth i (alpha m) []) (nth i (alphaD m) []) prec) as (Q & H1 & H2); eauto.
    - apply jt_sizes; auto; apply K.
    - apply nth_unit; auto; apply K.
    - apply (ST i). now apply nth_error_nth'. }
  set (M := fun h => with_alpha (map (fun i => speeds h (nth i (alpha m) []) (nth i (alphaD m) [])) (seq 0 n)) (with_q (map (fun i => nth i Qs (fun _ => []) h) (seq 0 n)) m)).
  assert (Nq : forall h i, (i < n)%nat -> nth i (q (M h)) [] = nth i Qs (fun _ => []) h).
  { intros h i Hi. cbn [M q with_q with_alpha]. rewrite (nth_indep _ [] ((fun i => nth i Qs (fun _ => []) h) 0%nat)) by (rewrite map_length, seq_length; auto). rewrite (map_nth (fun i => nth i Qs (fun _ => []) h)), seq_nth; auto. }
  assert (Na : forall h i, (i < n)%nat -> nth i (alpha (M h)) [] = speeds h (nth i (alpha m) []) (nth i (alphaD m) [])).
  { intros h i Hi. cbn [M alpha with_q with_alpha]. rewrite (nth_indep _ [] ((fun i => speeds h (nth i (alpha m) []) (nth i (alphaD m) [])) 0%nat)) by (rewrite map_length, seq_length; auto). rewrite (map_nth (fun i => speeds h (nth i (alpha m) []) (nth i (alphaD m) []))), seq_nth; auto. }
  assert (DM : forall f h, done_upto mb m h prec (S f) n (M h)).
  { intros f h. split; [reflexivity|]. split; [cbn; now rewrite map_length, seq_length|]. split; [cbn; now rewrite map_length, seq_length|]. split; [|intros; lia]. intros k Hk. rewrite Nq, Na by auto. destruct (V k Hk) as (V1 & _). split; auto. apply speeds_ok. }
  assert (EM : forall f h, integration (S f) mb m h prec = Ok (M h)).
  { intros f h. destruct (integration_ok mb m h prec (ok_q _ _ K) (ok_alpha _ _ K) (ok_alphaD _ _ K) (S f)) as (m2 & E2 & D2).
    - intros i Hi. destruct (V i Hi) as (V1 & _). eauto.
    - rewrite E2. f_equal. exact (done_same _ _ _ _ _ _ _ D2 (DM f h)). }
  exists M. split; [|split; auto].
  - pose proof (EM 0%nat 0) as E0. rewrite (integration_0 mb m prec 0 W K C P) in E0. congruence.
  - intros h i j EJ k Hk. destruct (nth_err _ _ jd _ EJ) as (Hi & <-). rewrite (joint_ok_params _ (jt_ok mb W i Hi)) in Hk. destruct (V i Hi) as (_ & V2). rewrite (Nq h i Hi), (Na h i Hi).
    apply (D_ext _ (fun s => co (nth i Qs (fun _ => []) s) k)); [intro s; now rewrite (Nq s i Hi)|]. apply V2; auto. apply speeds_ok.
Qed.
