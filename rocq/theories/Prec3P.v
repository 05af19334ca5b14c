(** Every joint: the result of integration against the exact motion. *)
From Coq Require Import Reals ZArith Bool List Lia Lra.
From Verif Require Import Res ResP Vec VecP Sva JointM MultiBodyM IntegM Spec SpecDeriv SpecInteg SpecPrec JointP DerivP KinP IntegP IntegJointP IntegAllP IntegExactP IntegEndP SimpsonP CorDerivP PrecP Prec2P VisP Newton3P.
Import ListNotations.
Open Scope R_scope.

(** *** Uniqueness. *)
Lemma derivV_unique f t a b : derivV f t a -> derivV f t b -> a = b.
Proof. intros (A & B & C) (A' & B' & C'). apply V3_ext; eapply D_unique; eauto. Qed.
Lemma derivV_const_all f : (forall t, derivV f t v0) -> forall s t, f s = f t.
Proof.
  intros H s t. apply V3_ext.
  - apply (D_const_all (fun s => vx (f s))). intro x. apply (H x).
  - apply (D_const_all (fun s => vy (f s))). intro x. apply (H x).
  - apply (D_const_all (fun s => vz (f s))). intro x. apply (H x).
Qed.
Lemma same_deriv f g g' : (forall t, D f t (g' t)) -> (forall t, D g t (g' t)) -> f 0 = g 0 -> forall t, f t = g t.
Proof.
  intros F G E t. assert (H : f t - g t = f 0 - g 0); [|lra]. apply (D_const_all (fun s => f s - g s)). intro s. eapply D_eq; [apply D_minus; [apply F|apply G]|ring].
Qed.
Definition quatD (p : R -> Quat) (t : R) (r : Quat) : Prop :=
  D (fun s => qw (p s)) t (qw r) /\ D (fun s => qx (p s)) t (qx r) /\ D (fun s => qy (p s)) t (qy r) /\ D (fun s => qz (p s)) t (qz r).
Lemma quat_unique (p r : R -> Quat) (W : R -> V3) : (forall t, quatD p t (quat_rate (p t) (W t))) -> (forall t, quatD r t (quat_rate (r t) (W t))) ->
  p 0 = r 0 -> forall t, p t = r t.
Proof.
  intros HP HR E0 t.
  set (n := fun s => (qw (p s) - qw (r s)) * (qw (p s) - qw (r s)) + (qx (p s) - qx (r s)) * (qx (p s) - qx (r s)) + (qy (p s) - qy (r s)) * (qy (p s) - qy (r s)) + (qz (p s) - qz (r s)) * (qz (p s) - qz (r s))).
  assert (DN : forall s, D n s 0).
  { intro s. destruct (HP s) as (P0 & P1 & P2 & P3), (HR s) as (R0 & R1 & R2 & R3). unfold n.
    eapply D_eq; [apply D_plus; [apply D_plus; [apply D_plus|]|]; apply D_mult; apply D_minus; eassumption|]. cbv beta.
    unfold quat_rate; cbn [qw qx qy qz]. field. }
  assert (Z : n t = 0). { rewrite (D_const_all n DN t 0). unfold n. rewrite E0. ring. }
  unfold n in Z. set (a := qw (p t) - qw (r t)) in *. set (b := qx (p t) - qx (r t)) in *. set (c := qy (p t) - qy (r t)) in *. set (e := qz (p t) - qz (r t)) in *.
  pose proof (Rle_0_sqr a). pose proof (Rle_0_sqr b). pose proof (Rle_0_sqr c). pose proof (Rle_0_sqr e). unfold Rsqr in *.
  assert (a = 0) by (apply Rsqr_0_uniq; unfold Rsqr; lra). assert (b = 0) by (apply Rsqr_0_uniq; unfold Rsqr; lra).
  assert (c = 0) by (apply Rsqr_0_uniq; unfold Rsqr; lra). assert (e = 0) by (apply Rsqr_0_uniq; unfold Rsqr; lra).
  unfold a, b, c, e in *. destruct (p t), (r t); cbn in *. f_equal; lra.
Qed.
(** *** The condition on the exact motion is the one on the numbers the code compares. *)
Lemma len_norm a b : len a <= len b -> vnorm2 a <= vnorm2 b.
Proof.
  unfold len. intro H. change (vx a * vx a + vy a * vy a + vz a * vz a) with (vnorm2 a) in H. change (vx b * vx b + vy b * vy b + vz b * vz b) with (vnorm2 b) in H.
  apply sqrt_le_0 in H; auto; apply vnorm2_pos.
Qed.
Lemma fifth_is p p5 f f1 f2 f3 f4 : fifth p p5 -> (forall t, derivV p t (f t)) ->
  (forall t, derivV f t (f1 t) /\ derivV f1 t (f2 t) /\ derivV f2 t (f3 t) /\ derivV f3 t (f4 t)) -> forall t, p5 t = f4 t.
Proof.
  intros (p1 & p2 & p3 & p4 & C) P0 F.
  assert (E1 : forall t, f t = p1 t) by (intro t; eapply derivV_unique; [apply P0|apply C]).
  assert (E2 : forall t, f1 t = p2 t). { intro t. destruct (F t) as (F1 & _). destruct (C t) as (_ & C1 & _). eapply derivV_unique; [exact F1|]. eapply derivV_ext; [exact E1|exact C1]. }
  assert (E3 : forall t, f2 t = p3 t). { intro t. destruct (F t) as (_ & F1 & _). destruct (C t) as (_ & _ & C1 & _). eapply derivV_unique; [exact F1|]. eapply derivV_ext; [exact E2|exact C1]. }
  assert (E4 : forall t, f3 t = p4 t). { intro t. destruct (F t) as (_ & _ & F1 & _). destruct (C t) as (_ & _ & _ & C1 & _). eapply derivV_unique; [exact F1|]. eapply derivV_ext; [exact E3|exact C1]. }
  intro t. destruct (F t) as (_ & _ & _ & F1). destruct (C t) as (_ & _ & _ & _ & C1). symmetry. eapply derivV_unique; [exact F1|]. eapply derivV_ext; [exact E4|exact C1].
Qed.
Section Rotating.
Variable Rot : R -> V3 -> V3.
Variables w d v e : V3.
Hypothesis RotD : forall x t x', derivV x t x' -> derivV (fun s => Rot s (x s)) t (Rot t (vadd (vcross (wt w d t) (x t)) x')).
Hypothesis RotN : forall t x, vnorm2 (Rot t x) = vnorm2 x.
Lemma bent_ends p h : (forall t, derivV p t (fr Rot v e t)) ->
  (exists p5, fifth p p5 /\ forall s, 0 <= s <= h -> len (p5 s) <= len (p5 0) \/ len (p5 s) <= len (p5 h)) ->
  forall t, 0 <= t <= h -> fourthFree (wt v e t) (wt w d t) e d <= Rmax (fourthFree v w e d) (fourthFree (wt v e h) (wt w d h) e d).
Proof.
  intros P (p5 & F & B) t Ht. destruct (fr_chain Rot w d v e RotD RotN) as (f1 & f2 & f3 & f4 & C & N4).
  pose proof (fifth_is _ _ _ _ _ _ _ F P C) as E5. pose proof (N4 0) as N0. rewrite !wt_0 in N0.
  rewrite <- N0, <- !N4. destruct (B t Ht) as [L|L]; rewrite !E5 in L; apply len_norm in L.
  - eapply Rle_trans; [exact L|apply Rmax_l].
  - eapply Rle_trans; [exact L|apply Rmax_r].
Qed.
End Rotating.

(** *** Free joints. *)
Lemma wt_ang a d t : (3 <= length a)%nat -> ang (speeds t a d) = wt (ang a) (ang d) t.
Proof. intro L. apply speed_ang; auto. apply speeds_ok. Qed.
Lemma wt_lin a d t : (6 <= length a)%nat -> lin (speeds t a d) = wt (lin a) (lin d) t.
Proof. intro L. apply speed_lin; auto. apply speeds_ok. Qed.
Definition quat_of (q : list R) : Quat := mkQ (co q 0) (co q 1) (co q 2) (co q 3).
Lemma quat_motion (t : jtype) (c : R -> list R) a d qi u s0 s1 : (t = Spherical \/ t = Free) -> (3 <= length a)%nat -> on_axis u (ang a) (ang d) s0 s1 ->
  (forall s k, (k < 4)%nat -> D (fun x => co (c x) k) s (co (qrate t (c s) (speeds s a d)) k)) -> quat_of (c 0) = qi ->
  forall s, quat_of (c s) = Qt qi u s0 s1 s.
Proof.
  intros T L A H E0. apply (quat_unique (fun s => quat_of (c s)) (fun s => Qt qi u s0 s1 s) (fun s => wt (ang a) (ang d) s)).
  - intro s. rewrite <- (wt_ang a d s L). unfold quatD, quat_rate, quat_of, ang; cbn [qw qx qy qz vx vy vz].
    pose proof (H s 0%nat ltac:(lia)). pose proof (H s 1%nat ltac:(lia)). pose proof (H s 2%nat ltac:(lia)). pose proof (H s 3%nat ltac:(lia)).
    destruct T; subst t; unfold co at 2 in H0; unfold co at 2 in H1; unfold co at 2 in H2; unfold co at 2 in H3; cbn [qrate nth app] in *; auto.
  - intro s. exact (D_Qt qi u _ _ s0 s1 s A).
  - cbn beta. rewrite E0. unfold Qt, phi. replace ((s0 * 0 + s1 * (0 * 0) / 2) / 2) with 0 by field. rewrite cos_0, sin_0.
    unfold qcs. rewrite !Rmult_0_l. symmetry. apply qmul_1.
Qed.
Lemma free_within f c a d q h prec q' : length q = 7%nat -> length a = 6%nat -> length d = 6%nat -> quat_unit q -> 0 < prec -> 0 <= h ->
  one_axis Free a d -> jointIntegration f Free a d h q prec = Ok q' -> c 0 = q ->
  (forall s k, (k < 7)%nat -> D (fun x => co (c x) k) s (co (qrate Free (c s) (speeds s a d)) k)) ->
  bent_at_ends Free c h \/ steady_turn Free d -> within prec Free q' (c h).
Proof.
  intros Lq La Ld U P Hh OA E C0 HC HB. cbn [one_axis steady_turn] in *. destruct (common_axis _ _ OA) as (u & s0 & s1 & A).
  set (qi := quat_of q). assert (U' : qnorm2 qi = 1). { destruct (len7 q Lq) as (p0 & p1 & p2 & p3 & y1 & y2 & y3 & ->). exact U. }
  assert (QM : forall s, quat_of (c s) = Qt qi u s0 s1 s).
  { apply (quat_motion Free c a d qi u s0 s1); auto; [lia|intros; apply HC; lia|now rewrite C0]. }
  set (Rot := fun t => qrot (Qt qi u s0 s1 t)). pose proof (D_qrot_Qt qi u _ _ s0 s1 U' A) as RotD.
  assert (RotN : forall t x, vnorm2 (Rot t x) = vnorm2 x) by (intros t x; apply qrot_norm, (Qt_unit _ _ _ _ _ U' (proj1 A))).
  assert (PD : forall t, derivV (fun s => place Free (c s)) t (fr Rot (lin a) (lin d) t)).
  { intro t. unfold fr, Rot. rewrite (qrot_E _ _ (Qt_unit _ _ _ _ t U' (proj1 A))), <- (QM t), <- (wt_lin a d t) by lia.
    pose proof (HC t 4%nat ltac:(lia)). pose proof (HC t 5%nat ltac:(lia)). pose proof (HC t 6%nat ltac:(lia)).
    unfold derivV, place, quat_of; cbn [vx vy vz qw qx qy qz]. unfold lin. unfold co at 2 in H; unfold co at 2 in H0; unfold co at 2 in H1. cbn [qrate nth app] in *. auto. }
  assert (BE : forall t, 0 <= t <= h -> fourthFree (wt (lin a) (lin d) t) (wt (ang a) (ang d) t) (lin d) (ang d) <=
     Rmax (fourthFree (lin a) (ang a) (lin d) (ang d)) (fourthFree (wt (lin a) (lin d) h) (wt (ang a) (ang d) h) (lin d) (ang d))).
  { destruct HB as [B|Z]; [exact (bent_ends Rot _ _ _ _ RotD RotN _ h PD B)|]. intros t Ht. rewrite Z. now apply ends_decide. }
  destruct (len7 q Lq) as (p0 & p1 & p2 & p3 & y1 & y2 & y3 & Eq). destruct (len6 a La) as (a0 & a1 & a2 & a3 & a4 & a5 & Ea), (len6 d Ld) as (d0 & d1 & d2 & d3 & d4 & d5 & Ed).
  pose proof E as E'. rewrite Eq, Ea, Ed, ji_free in E'.
  change (mkV3 a0 a1 a2) with (ang [a0; a1; a2; a3; a4; a5]) in E'. change (mkV3 a3 a4 a5) with (lin [a0; a1; a2; a3; a4; a5]) in E'.
  change (mkV3 d0 d1 d2) with (ang [d0; d1; d2; d3; d4; d5]) in E'. change (mkV3 d3 d4 d5) with (lin [d0; d1; d2; d3; d4; d5]) in E'.
  rewrite <- Ea, <- Ed in E'. replace (mkQ p0 p1 p2 p3) with qi in E' by (unfold qi; rewrite Eq; reflexivity).
  destruct (freeJointIntegration f qi (mkV3 y1 y2 y3) (ang a) (lin a) (ang d) (lin d) h prec) as [r| | |] eqn:EF; cbn [bind] in E'; try discriminate.
  destruct f as [|f]; [discriminate|].
  destruct (substeps_ok h (sqrt (Rmax (fourthFree (lin a) (ang a) (lin d) (ang d)) (fourthFree (wt (lin a) (lin d) h) (wt (ang a) (ang d) h) (lin d) (ang d)))) prec P Hh (sqrt_pos _)) as (n & ES & N1).
  destruct (free_result f qi _ u _ _ _ _ s0 s1 h prec n r A P ES EF) as (R1 & R2).
  rewrite R1, (norm1 _ (Qt_unit qi u s0 s1 h U' (proj1 A))) in E'. rewrite <- (QM h) in E'. destruct (Req_EM_T 1 0); [lra|]. injection E' as <-.
  pose proof (precise Rot (ang a) (ang d) (lin a) (lin d) RotD RotN _ h prec n PD Hh P ES BE) as PR.
  split.
  - intros k Hk. rewrite !Rdiv_1. do 4 (destruct k as [|k]; [reflexivity|]). lia.
  - replace (len (vsub (place Free _) (place Free (c h)))) with (len (vsub (vsub (place Free (c h)) (place Free (c 0))) (vpieces (fr Rot (lin a) (lin d)) (h / IZR n) (Z.to_nat n)))); [exact PR|].
    change (place Free [_; _; _; _; vx (snd r); vy (snd r); vz (snd r)]) with (mkV3 (vx (snd r)) (vy (snd r)) (vz (snd r))). rewrite R2. fold Rot. rewrite C0, Eq. change (place Free [p0; p1; p2; p3; y1; y2; y3]) with (mkV3 y1 y2 y3).
    generalize (vpieces (fr Rot (lin a) (lin d)) (h / IZR n) (Z.to_nat n)), (place Free (c h)). clear. intros x y. destruct x as [x1 x2 x3], y as [z1 z2 z3]. unfold len, vsub, vadd; cbn [vx vy vz]. f_equal. ring.
Qed.

(** *** Planar joints. *)
Definition l2 (a : V2) : V3 := mkV3 (fst a) (snd a) 0.
Definition Rz (th : R) (x : V3) : V3 := mkV3 (cos th * vx x - sin th * vy x) (sin th * vx x + cos th * vy x) (vz x).
Definition tht (q0 w d t : R) : R := q0 + (w * t + d * (t * t) / 2).
Definition ez (w : R) : V3 := mkV3 0 0 w.
Lemma l2_add a b : l2 (v2add a b) = vadd (l2 a) (l2 b). Proof. unfold l2, v2add, vadd; cbn [fst snd vx vy vz]. f_equal; ring. Qed.
Lemma l2_scale k a : l2 (v2scale k a) = vscale k (l2 a). Proof. unfold l2, v2scale, vscale; cbn [fst snd vx vy vz]. f_equal; ring. Qed.
Lemma l2_rot q a : l2 (rot2 q a) = Rz q (l2 a). Proof. reflexivity. Qed.
Lemma Rz_add q a b : Rz q (vadd a b) = vadd (Rz q a) (Rz q b). Proof. unfold Rz, vadd; cbn [vx vy vz]. f_equal; ring. Qed.
Lemma Rz_scale q k a : Rz q (vscale k a) = vscale k (Rz q a). Proof. unfold Rz, vscale; cbn [vx vy vz]. f_equal; ring. Qed.
Lemma Rz_norm q a : vnorm2 (Rz q a) = vnorm2 a.
Proof.
  unfold vnorm2, vdot, Rz; cbn [vx vy vz]. pose proof (sin2_cos2 q) as S. unfold Rsqr in S.
  replace ((cos q * vx a - sin q * vy a) * (cos q * vx a - sin q * vy a) + (sin q * vx a + cos q * vy a) * (sin q * vx a + cos q * vy a) + vz a * vz a)
    with ((sin q * sin q + cos q * cos q) * (vx a * vx a + vy a * vy a) + vz a * vz a) by ring. rewrite S. ring.
Qed.
Lemma Rz_back q a : Rz q (l2 (rot2t q a)) = l2 a.
Proof.
  unfold Rz, l2, rot2t; cbn [vx vy vz fst snd]. pose proof (sin2_cos2 q) as S. unfold Rsqr in S. destruct a as [a b]; cbn [fst snd].
  f_equal; [replace (cos q * (cos q * a + sin q * b) - sin q * (- sin q * a + cos q * b)) with ((sin q * sin q + cos q * cos q) * a) by ring|
    replace (sin q * (cos q * a + sin q * b) + cos q * (- sin q * a + cos q * b)) with ((sin q * sin q + cos q * cos q) * b) by ring]; rewrite S; ring.
Qed.
Lemma fourth_planar v w dv dw : fourthPlanar v w dv dw = fourthFree (l2 v) (ez w) (l2 dv) (ez dw).
Proof. destruct v as [v1 v2], dv as [e1 e2]. unfold fourthPlanar, fourthFree, l2, ez, vnorm2, vdot, vcross, vadd, vsub, vscale, v2sub, v2scale; cbv zeta; cbn [fst snd vx vy vz]. ring. Qed.
Lemma D_tht q0 w d t : D (tht q0 w d) t (w + d * t).
Proof. unfold tht. eapply D_eq; [apply D_quad|ring]. Qed.
Lemma D_Rz (th : R -> R) t th' x x' : D th t th' -> derivV x t x' -> derivV (fun s => Rz (th s) (x s)) t (Rz (th t) (vadd (vcross (ez th') (x t)) x')).
Proof.
  intros T (X1 & X2 & X3). unfold derivV, Rz, vadd, vcross, ez; cbn [vx vy vz]. split; [|split].
  - eapply D_eq; [apply D_minus; (apply D_mult; [|eassumption]); [apply D_cos|apply D_sin]; exact T|]. cbv beta. ring.
  - eapply D_eq; [apply D_plus; (apply D_mult; [|eassumption]); [apply D_sin|apply D_cos]; exact T|]. cbv beta. ring.
  - eapply D_eq; [exact X3|ring].
Qed.
Lemma tht_later q0 w d t h : tht q0 w d t + (w + t * d) * h + d * (h * h) / 2 = tht q0 w d (t + h). Proof. unfold tht. field. Qed.
Lemma wt_l2 v e t : l2 (v2add v (v2scale t e)) = wt (l2 v) (l2 e) t. Proof. unfold wt. now rewrite l2_add, l2_scale. Qed.
Lemma wt_ez w d t : wt (ez w) (ez d) t = ez (w + t * d). Proof. unfold wt, ez, vadd, vscale; cbn [vx vy vz]. f_equal; ring. Qed.
Lemma v2_later v e t h : v2add (v2add v (v2scale t e)) (v2scale h e) = v2add v (v2scale (t + h) e). Proof. unfold v2add, v2scale; cbn [fst snd]. f_equal; ring. Qed.
Section PlanarCode.
Variables (qi w d : R) (xi v e : V2) (h : R).
Local Notation th := (tht qi w d).
Local Notation f := (fr (fun t => Rz (th t)) (l2 v) (l2 e)).
Lemma planar_sum k : let s := Nat.iter k (planar_step d e h) (mkPS qi (rot2 qi (v2add (v2scale 6 xi) (v2scale h v))) v w) in
  psq s = th (INR k * h) /\ psv s = v2add v (v2scale (INR k * h) e) /\ psw s = w + INR k * h * d /\
  l2 (psx s) = vadd (vadd (vscale 6 (Rz qi (l2 xi))) (vscale 6 (vpieces f h k))) (vscale h (f (INR k * h))).
Proof.
  induction k as [|k IH]; cbv zeta in *.
  - cbn [Nat.iter nat_rect psq psv psw psx]. simpl INR. rewrite Rmult_0_l. split; [unfold tht; field|]. split; [unfold v2add, v2scale; destruct v; cbn [fst snd]; f_equal; ring|]. split; [ring|].
    unfold fr. replace (th 0) with qi by (unfold tht; field). rewrite !wt_0. cbn [vpieces]. rewrite l2_rot, l2_add, !l2_scale, Rz_add, !Rz_scale. apply start_sum.
  - change (Nat.iter (S k) ?g ?s) with (g (Nat.iter k g s)). destruct IH as (E1 & E2 & E3 & E4). unfold planar_step at 1 3 5 7. cbn [psq psv psw psx]. rewrite E1, E2, E3.
    assert (EK : INR k * h + h = INR (S k) * h) by (rewrite S_INR; ring).
    replace (h * (h / 2)) with (h * h / 2) by field. replace (d * (h * h / 2)) with (d * (h * h) / 2) by field. replace (d * (h / 2 * (h / 2) / 2)) with (d * (h / 2 * (h / 2)) / 2) by field.
    rewrite !tht_later, !v2_later, EK. split; [reflexivity|]. split; [reflexivity|]. split; [rewrite <- EK; ring|].
    rewrite l2_add, !l2_scale, l2_add, !l2_scale, !l2_rot, E4, !wt_l2. cbn [vpieces].
    change (Rz (th (INR k * h + h / 2)) (wt (l2 v) (l2 e) (INR k * h + h / 2))) with (f (INR k * h + h / 2)). change (Rz (th (INR (S k) * h)) (wt (l2 v) (l2 e) (INR (S k) * h))) with (f (INR (S k) * h)).
    apply next_sum.
Qed.
End PlanarCode.
Lemma planar_result qi xi w v d e step prec n r : 0 < prec ->
  substeps step (sqrt (Rmax (fourthFree (l2 v) (ez w) (l2 e) (ez d)) (fourthFree (wt (l2 v) (l2 e) step) (wt (ez w) (ez d) step) (l2 e) (ez d)))) prec = Ok n ->
  planarJointIntegration qi xi w v d e step prec = Ok r ->
  fst r = tht qi w d step /\ Rz (fst r) (l2 (snd r)) = vadd (Rz qi (l2 xi)) (vpieces (fr (fun t => Rz (tht qi w d t)) (l2 v) (l2 e)) (step / IZR n) (Z.to_nat n)).
Proof.
  intros P ES E. unfold planarJointIntegration in E. cbv zeta in E. rewrite !fourth_planar, wt_l2, <- wt_ez, ES in E. cbn [bind] in E.
  pose proof (substeps_pos _ _ _ _ P (sqrt_pos _) ES) as N1. set (h := step / IZR n) in *.
  pose proof (planar_sum qi w d xi v e h (Z.to_nat (n - 1))) as PS. cbv zeta in PS. destruct (Nat.iter _ _ _) as [sq sx sv sw]. cbn [psq psx psv psw] in *. destruct PS as (-> & -> & -> & E4).
  assert (NP : 1 <= IZR n) by (now apply IZR_le). destruct (Z.to_nat n) as [|k] eqn:EN; [lia|]. replace (Z.to_nat (n - 1)) with k in E, E4 by lia.
  assert (EK : INR k * h + h = step). { replace (INR k * h + h) with (INR (S k) * h) by (rewrite S_INR; ring). rewrite <- EN, INR_IZR_INZ, Z2Nat.id by lia. unfold h. field. lra. }
  replace (h * (h / 2)) with (h * h / 2) in E by field. replace (d * (h * h / 2)) with (d * (h * h) / 2) in E by field. replace (d * (h / 2 * (h / 2) / 2)) with (d * (h / 2 * (h / 2)) / 2) in E by field.
  rewrite <- !Rplus_assoc in E. rewrite !tht_later, !v2_later, EK in E. injection E as <-. split; [reflexivity|]. cbn [fst snd].
  rewrite Rz_back, l2_scale, l2_add, l2_scale, l2_add, l2_scale, !l2_rot, E4, !wt_l2. cbn [vpieces]. replace (INR (S k) * h) with step by (rewrite S_INR; lra). apply last_sum.
Qed.
Lemma place_planar q : place Planar q = Rz (co q 0) (l2 (co q 1, co q 2)). Proof. reflexivity. Qed.
Lemma planar_within f c a d q h prec q' : length q = 3%nat -> length a = 3%nat -> length d = 3%nat -> 0 < prec -> 0 <= h ->
  jointIntegration f Planar a d h q prec = Ok q' -> c 0 = q ->
  (forall s k, (k < 3)%nat -> D (fun x => co (c x) k) s (co (qrate Planar (c s) (speeds s a d)) k)) ->
  bent_at_ends Planar c h \/ steady_turn Planar d -> within prec Planar q' (c h).
Proof.
  intros Lq La Ld P Hh E C0 HC HB. cbn [steady_turn] in *.
  destruct (len3 q Lq) as (y0 & y1 & y2 & Eq), (len3 a La) as (w & v1 & v2 & Ea), (len3 d Ld) as (dw & e1 & e2 & Ed).
  assert (SP : forall s, co (speeds s a d) 0 = w + dw * s /\ co (speeds s a d) 1 = v1 + e1 * s /\ co (speeds s a d) 2 = v2 + e2 * s).
  { intro s. destruct (speeds_ok s a d) as (_ & S). rewrite La in S. rewrite !S by lia. rewrite Ea, Ed. now unfold co. }
  assert (TH : forall s, co (c s) 0 = tht y0 w dw s).
  { apply (same_deriv _ _ (fun s => w + dw * s)).
    - intro s. pose proof (HC s 0%nat ltac:(lia)) as H. unfold co at 2 in H. cbn [qrate nth] in H. now rewrite (proj1 (SP s)) in H.
    - intro s. apply D_tht.
    - rewrite C0, Eq. unfold co, tht. cbn [nth]. field. }
  set (Rot := fun t => Rz (tht y0 w dw t)). set (v := (v1, v2)). set (e := (e1, e2)).
  assert (RotD : forall x t x', derivV x t x' -> derivV (fun s => Rot s (x s)) t (Rot t (vadd (vcross (wt (ez w) (ez dw) t) (x t)) x'))).
  { intros x t x' X. rewrite wt_ez, (Rmult_comm t dw). apply D_Rz; [apply D_tht|exact X]. }
  assert (RotN : forall t x, vnorm2 (Rot t x) = vnorm2 x) by (intros t x; apply Rz_norm).
  assert (PD : forall t, derivV (fun s => place Planar (c s)) t (fr Rot (l2 v) (l2 e) t)).
  { intro t. pose proof (HC t 0%nat ltac:(lia)) as H0. pose proof (HC t 1%nat ltac:(lia)) as H1. pose proof (HC t 2%nat ltac:(lia)) as H2. destruct (SP t) as (S0 & S1 & S2).
    unfold co at 2 in H0; unfold co at 2 in H1; unfold co at 2 in H2. cbn [qrate nth] in H0, H1, H2. rewrite S0 in *. rewrite S1 in H1. rewrite S2 in H2.
    assert (XD : derivV (fun s => l2 (co (c s) 1, co (c s) 2)) t (l2 (v1 + e1 * t + (w + dw * t) * co (c t) 2, v2 + e2 * t - (w + dw * t) * co (c t) 1))).
    { split; [|split]; cbn [l2 fst snd vx vy vz]; auto. apply D_const. }
    pose proof (D_Rz (fun s => co (c s) 0) t _ _ _ H0 XD) as G. cbv beta in G. eapply derivV_eq; [exact G|]. unfold fr, Rot. rewrite (TH t). f_equal.
    unfold l2, ez, wt, v, e, vadd, vcross, vscale; cbn [fst snd vx vy vz]. f_equal; ring. }
  assert (BE : forall t, 0 <= t <= h -> fourthFree (wt (l2 v) (l2 e) t) (wt (ez w) (ez dw) t) (l2 e) (ez dw) <=
     Rmax (fourthFree (l2 v) (ez w) (l2 e) (ez dw)) (fourthFree (wt (l2 v) (l2 e) h) (wt (ez w) (ez dw) h) (l2 e) (ez dw))).
  { destruct HB as [B|Z]; [exact (bent_ends Rot _ _ _ _ RotD RotN _ h PD B)|]. intros t Ht. rewrite Ed in Z. unfold co in Z. cbn [nth] in Z. rewrite Z. change (ez 0) with v0. now apply ends_decide. }
  rewrite Eq, Ea, Ed, ji_planar in E. fold v e in E. destruct (planarJointIntegration y0 (y1, y2) w v dw e h prec) as [r| | |] eqn:EP; cbn [bind] in E; try discriminate. injection E as <-.
  destruct (substeps_ok h (sqrt (Rmax (fourthFree (l2 v) (ez w) (l2 e) (ez dw)) (fourthFree (wt (l2 v) (l2 e) h) (wt (ez w) (ez dw) h) (l2 e) (ez dw)))) prec P Hh (sqrt_pos _)) as (n & ES & N1).
  destruct (planar_result _ _ _ _ _ _ _ _ _ _ P ES EP) as (R1 & R2). fold Rot in R2.
  pose proof (precise Rot _ _ _ _ RotD RotN _ h prec n PD Hh P ES BE) as PR. split.
  - rewrite (TH h), <- R1. reflexivity.
  - rewrite (place_planar [_; _; _]). change (co [fst r; fst (snd r); snd (snd r)] 0) with (fst r). change (co [fst r; fst (snd r); snd (snd r)] 1, co [fst r; fst (snd r); snd (snd r)] 2) with (fst (snd r), snd (snd r)).
    rewrite <- surjective_pairing, R2. cbv beta in PR. rewrite C0, Eq, (place_planar [y0; y1; y2]) in PR. change (co [y0; y1; y2] 0) with y0 in PR. change (co [y0; y1; y2] 1, co [y0; y1; y2] 2) with (y1, y2) in PR.
    revert PR. generalize (vpieces (fr Rot (l2 v) (l2 e)) (h / IZR n) (Z.to_nat n)), (place Planar (c h)), (Rz y0 (l2 (y1, y2))). clear. intros x y z. destruct x as [x1 x2 x3], y as [z1 z2 z3], z as [t1 t2 t3].
    unfold len, vsub, vadd; cbn [vx vy vz]. intro L. replace ((t1 + x1 - z1) * (t1 + x1 - z1)) with ((z1 - t1 - x1) * (z1 - t1 - x1)) by ring.
    replace ((t2 + x2 - z2) * (t2 + x2 - z2)) with ((z2 - t2 - x2) * (z2 - t2 - x2)) by ring. replace ((t3 + x3 - z3) * (t3 + x3 - z3)) with ((z3 - t3 - x3) * (z3 - t3 - x3)) by ring. exact L.
Qed.
