(** Steady joints are integrated exactly. *)
From Coq Require Import Reals ZArith Bool List Lia Lra.
From Verif Require Import Res ResP Vec VecP Sva JointM MultiBodyM IntegM Spec SpecDeriv SpecInteg JointP DerivP KinP IntegP IntegJointP IntegAllP.
Import ListNotations.
Open Scope R_scope.

(** *** A common axis. *)
Definition on_axis (u : V3) (w wD : V3) (s0 s1 : R) : Prop := vnorm2 u = 1 /\ w = vscale s0 u /\ wD = vscale s1 u.
Lemma vscale_0 u : vscale 0 u = v0. Proof. unfold vscale, v0. f_equal; ring. Qed.
Lemma unit_of w : w <> v0 -> exists u s, vnorm2 u = 1 /\ 0 < s /\ w = vscale s u.
Proof.
  intro NZ. assert (P : 0 < vnorm2 w). { pose proof (vnorm2_pos w) as [H|H]; auto. symmetry in H. apply vnorm2_zero in H. contradiction. }
  set (s := sqrt (vnorm2 w)). assert (S : 0 < s) by (apply sqrt_lt_R0; auto). assert (SS : s * s = vnorm2 w) by (apply sqrt_sqrt; lra).
  exists (vscale (/ s) w), s. split; [|split; auto].
  - rewrite vnorm2_scale, <- SS. field. lra.
  - destruct w; unfold vscale; cbn. f_equal; field; lra.
Qed.
Lemma common_axis w wD : vcross w wD = v0 -> exists u s0 s1, on_axis u w wD s0 s1.
Proof.
  intro C. destruct (Req_EM_T (vnorm2 w) 0) as [Z|NZ].
  - apply vnorm2_zero in Z. destruct (Req_EM_T (vnorm2 wD) 0) as [Z'|NZ'].
    + apply vnorm2_zero in Z'. exists (mkV3 1 0 0), 0, 0. subst. split; [unfold vnorm2, vdot; cbn; ring|]. now rewrite vscale_0.
    + destruct (unit_of wD) as (u & s & U & _ & E). { intros ->. apply NZ'. unfold vnorm2, vdot, v0; cbn; ring. }
      exists u, 0, s. split; auto. split; auto. now rewrite vscale_0.
  - destruct (unit_of w) as (u & s & U & S & E). { intros ->. apply NZ. unfold vnorm2, vdot, v0; cbn; ring. }
    exists u, s, (vdot u wD). split; auto. split; auto. assert (CU : vcross u wD = v0).
    { subst w. destruct u as [a b c], wD as [d e f]; unfold vcross, vscale, v0 in *; cbn in *. injection C as C1 C2 C3.
      assert (forall x, s * x = 0 -> x = 0). { intros x X. apply (Rmult_eq_reg_l s); [|lra]. now rewrite X, Rmult_0_r. }
      f_equal; apply H; rewrite <- ?C1, <- ?C2, <- ?C3; ring_simplify; lra. }
    destruct u as [a b c], wD as [d e f]; unfold vcross, vscale, vdot, vnorm2, v0 in *; cbn in *. unfold vdot in U; cbn in U. injection CU as C1 C2 C3.
    assert (U' : a * a + b * b + c * c = 1) by exact U. f_equal.
    + transitivity (d * (a * a + b * b + c * c) + 0); [rewrite U'; ring|]. replace 0 with (b * (a * e - b * d) - c * (c * d - a * f)) by (rewrite C2, C3; ring). ring.
    + transitivity (e * (a * a + b * b + c * c) + 0); [rewrite U'; ring|]. replace 0 with (- a * (a * e - b * d) + c * (b * f - c * e)) by (rewrite C1, C3; ring). ring.
    + transitivity (f * (a * a + b * b + c * c) + 0); [rewrite U'; ring|]. replace 0 with (a * (c * d - a * f) - b * (b * f - c * e)) by (rewrite C1, C2; ring). ring.
Qed.
(** *** The exponential along the axis. *)
Definition qcs (u : V3) (c s : R) : Quat := mkQ c (s * vx u) (s * vy u) (s * vz u).
Lemma sinc_even x : sinc (Rabs x) * x = sin x.
Proof.
  unfold Rabs. destruct (Rcase_abs x) as [N|N].
  - assert (sinc (- x) = sinc x) as ->; [|apply sinc_mul]. unfold sinc. destruct (Req_EM_T (- x) 0), (Req_EM_T x 0); try lra. rewrite sin_neg. field. auto.
  - apply sinc_mul.
Qed.
Lemma cos_abs x : cos (Rabs x) = cos x. Proof. unfold Rabs. destruct (Rcase_abs x); [apply cos_neg|auto]. Qed.
Lemma qexp_axis u c : vnorm2 u = 1 -> qexp (vscale c u) = qcs u (cos c) (sin c).
Proof.
  intro U. unfold qexp, qcs. rewrite vnorm2_scale, U, Rmult_1_r. replace (c * c) with (Rsqr c) by reflexivity. rewrite sqrt_Rsqr_abs, cos_abs. cbn [vscale vx vy vz].
  rewrite <- !Rmult_assoc, sinc_even. reflexivity.
Qed.
Lemma magnus_axis u w wD s0 s1 h r a : on_axis u w wD s0 s1 -> 0 < r -> 0 < a -> magnusExpansion w wD h r a = (vscale (s0 * h + s1 * (h * h) / 2) u, false).
Proof.
  intros (U & -> & ->) HR HA. unfold magnusExpansion. cbv zeta.
  assert (E1 : vscale (h / 2) (vadd (vscale s0 u) (vadd (vscale s0 u) (vscale h (vscale s1 u)))) = vscale (s0 * h + s1 * (h * h) / 2) u).
  { unfold vscale, vadd; cbn. f_equal; field. }
  assert (E2 : vscale (h * h / 12) (vcross (vscale s0 u) (vadd (vscale s0 u) (vscale h (vscale s1 u)))) = v0).
  { unfold vscale, vadd, vcross, v0; cbn. f_equal; field. }
  destruct (Rlt_dec _ a); [now rewrite E1|]. rewrite E1, E2. replace (vnorm2 v0) with 0 by (unfold vnorm2, vdot, v0; cbn; ring).
  assert (EP : 0 < Rmin (if Rlt_dec 0 (vnorm2 (vscale (s0 * h + s1 * (h * h) / 2) u)) then r * r * vnorm2 (vscale (s0 * h + s1 * (h * h) / 2) u) else 1) (a * a)).
  { apply Rmin_pos; [|apply Rmult_lt_0_compat; auto]. destruct (Rlt_dec 0 _); [|lra]. apply Rmult_lt_0_compat; auto. apply Rmult_lt_0_compat; auto. }
  destruct (Rlt_dec (_ * 0 / 400) _) as [L1|L1]; [|exfalso; apply L1; unfold Rdiv; rewrite Rmult_0_r, Rmult_0_l; exact EP].
  destruct (Rlt_dec (_ * 0 / 3600) _) as [L2|L2]; [|exfalso; apply L2; unfold Rdiv; rewrite Rmult_0_r, Rmult_0_l; exact EP].
  cbn [andb]. f_equal. unfold vadd, v0; cbn. now rewrite !Rplus_0_r.
Qed.
Definition phi (s0 s1 t : R) : R := (s0 * t + s1 * (t * t) / 2) / 2.
Lemma SO3_axis u w wD s0 s1 h r a b qi : on_axis u w wD s0 s1 -> 0 < r -> 0 < a ->
  SO3Integration qi w wD h r a b = (qmul qi (qcs u (cos (phi s0 s1 h)) (sin (phi s0 s1 h))), false).
Proof.
  intros A HR HA. rewrite SO3_eq, (magnus_axis u w wD s0 s1 h r a A HR HA). cbn [fst snd]. rewrite andb_false_r. f_equal. f_equal. destruct A as (U & _). rewrite <- (qexp_axis u _ U). f_equal.
  unfold vscale, phi; cbn. f_equal; field.
Qed.
(** *** Its derivative. *)
Lemma D_phi s0 s1 t : D (phi s0 s1) t ((s0 + t * s1) / 2).
Proof.
  apply (D_ext _ (fun t => / 2 * (s0 * t + s1 * / 2 * (t * t)))); [intro s; unfold phi; field|]. eapply D_eq; [apply D_scal, D_plus; [apply D_scal, D_id|apply D_scal, D_mult; apply D_id]|]. cbv beta. field.
Qed.
Lemma D_trig A B s0 s1 t : D (fun s => A * cos (phi s0 s1 s) + B * sin (phi s0 s1 s)) t ((B * cos (phi s0 s1 t) - A * sin (phi s0 s1 t)) * ((s0 + t * s1) / 2)).
Proof. pose proof (D_phi s0 s1 t) as P. eapply D_eq; [apply D_plus; apply D_scal; [apply D_cos, P|apply D_sin, P]|]. ring. Qed.
Definition wt (w wD : V3) (t : R) : V3 := vadd w (vscale t wD).
Definition Qt qi u s0 s1 t := qmul qi (qcs u (cos (phi s0 s1 t)) (sin (phi s0 s1 t))).
Definition quat_rate (a : Quat) (w : V3) : Quat :=
  mkQ (- (qx a * vx w + qy a * vy w + qz a * vz w) / 2) ((qw a * vx w + qy a * vz w - qz a * vy w) / 2) ((qw a * vy w + qz a * vx w - qx a * vz w) / 2) ((qw a * vz w + qx a * vy w - qy a * vx w) / 2).
Lemma uu u : vnorm2 u = 1 -> vx u * vx u + vy u * vy u + vz u * vz u = 1. Proof. auto. Qed.
Lemma D_Qt qi u w wD s0 s1 t : on_axis u w wD s0 s1 ->
  let r := quat_rate (Qt qi u s0 s1 t) (wt w wD t) in
  D (fun s => qw (Qt qi u s0 s1 s)) t (qw r) /\ D (fun s => qx (Qt qi u s0 s1 s)) t (qx r) /\ D (fun s => qy (Qt qi u s0 s1 s)) t (qy r) /\ D (fun s => qz (Qt qi u s0 s1 s)) t (qz r).
Proof.
  intros (U & -> & ->). cbv zeta. pose proof (uu u U) as UU. destruct u as [a b c], qi as [p0 p1 p2 p3]. cbn [vx vy vz] in UU.
  assert (UA : a * a = 1 - b * b - c * c) by lra.
  do 3 (try split); unfold Qt, qmul, qcs, quat_rate, wt, vadd, vscale; cbn [qw qx qy qz vx vy vz].
  - eapply D_eq; [apply (D_ext _ (fun s => p0 * cos (phi s0 s1 s) + (- (p1 * a) - p2 * b - p3 * c) * sin (phi s0 s1 s))); [intro s; ring|apply D_trig]|].
    set (C := cos (phi s0 s1 t)). set (S := sin (phi s0 s1 t)). replace p0 with (p0 * (a * a + b * b + c * c)) at 1 by (rewrite UU; ring). field.
  - eapply D_eq; [apply (D_ext _ (fun s => p1 * cos (phi s0 s1 s) + (p0 * a + p2 * c - p3 * b) * sin (phi s0 s1 s))); [intro s; ring|apply D_trig]|].
    set (C := cos (phi s0 s1 t)). set (S := sin (phi s0 s1 t)). replace p1 with (p1 * (a * a + b * b + c * c)) at 1 by (rewrite UU; ring). field.
  - eapply D_eq; [apply (D_ext _ (fun s => p2 * cos (phi s0 s1 s) + (p0 * b + p3 * a - p1 * c) * sin (phi s0 s1 s))); [intro s; ring|apply D_trig]|].
    set (C := cos (phi s0 s1 t)). set (S := sin (phi s0 s1 t)). replace p2 with (p2 * (a * a + b * b + c * c)) at 1 by (rewrite UU; ring). field.
  - eapply D_eq; [apply (D_ext _ (fun s => p3 * cos (phi s0 s1 s) + (p0 * c + p1 * b - p2 * a) * sin (phi s0 s1 s))); [intro s; ring|apply D_trig]|].
    set (C := cos (phi s0 s1 t)). set (S := sin (phi s0 s1 t)). replace p3 with (p3 * (a * a + b * b + c * c)) at 1 by (rewrite UU; ring). field.
Qed.
(** *** One sub-step suffices. *)
Lemma substeps_flat h prec : 0 < prec -> substeps h 0 prec = Ok 1%Z.
Proof.
  intro P. unfold substeps. destruct (Req_EM_T prec 0); [lra|]. replace (0 * h / (180 * prec)) with 0 by (field; lra). destruct (Rlt_dec 0 0); [lra|].
  rewrite !sqrt_0, Rmult_0_r, ceil_0. reflexivity.
Qed.
Lemma vnorm2_v0 : vnorm2 v0 = 0. Proof. unfold vnorm2, vdot, v0; cbn; ring. Qed.
Lemma fourthFree_still v dv : fourthFree v v0 dv v0 = 0.
Proof. unfold fourthFree. cbv zeta. rewrite vnorm2_v0. destruct v, dv. unfold vnorm2, vdot, vsub, vadd, vscale, vcross, v0; cbn. ring. Qed.
Lemma fourthFree_spin w dw : fourthFree v0 w v0 dw = 0.
Proof. unfold fourthFree. cbv zeta. destruct w, dw. unfold vnorm2, vdot, vsub, vadd, vscale, vcross, v0; cbn. ring. Qed.
Lemma fourthPlanar_still v dv : fourthPlanar v 0 dv 0 = 0.
Proof. unfold fourthPlanar. cbv zeta. unfold v2sub, v2scale; cbn. ring. Qed.
Lemma fourthPlanar_spin w dw : fourthPlanar (0, 0) w (0, 0) dw = 0.
Proof. unfold fourthPlanar. cbv zeta. unfold v2sub, v2scale; cbn. ring. Qed.
Lemma vscale_v0 k : vscale k v0 = v0. Proof. unfold vscale, v0; cbn. f_equal; ring. Qed.
Lemma vadd_v0 : vadd v0 v0 = v0. Proof. unfold vadd, v0; cbn. f_equal; ring. Qed.
Lemma qrot_v0 a : qrot a v0 = v0. Proof. destruct a. unfold qrot, vadd, vscale, vcross, v0; cbn. f_equal; ring. Qed.
Lemma qrot_E a v : qnorm2 a = 1 -> qrot a v = mapp (mtr (QuatToE (qw a) (qx a) (qy a) (qz a))) v.
Proof.
  destruct a as [p0 p1 p2 p3], v as [x y z]. unfold qnorm2; cbn [qw qx qy qz]. intro U. assert (E : 1 / 2 = (p0 * p0 + p1 * p1 + p2 * p2 + p3 * p3) / 2) by lra.
  unfold qrot, mapp, mtr, QuatToE, mscale, vadd, vscale, vcross; cbn. rewrite E. assert (E0 : p0 * p0 = 1 - p1 * p1 - p2 * p2 - p3 * p3) by lra. f_equal.
  - transitivity (x + (2 * p0 * (p2 * z - p3 * y) + 2 * (p2 * (p1 * y - p2 * x) - p3 * (p3 * x - p1 * z)))); [ring|]. replace x with ((p0 * p0 + p1 * p1 + p2 * p2 + p3 * p3) * x) at 1 by (rewrite U; ring). field.
  - transitivity (y + (2 * p0 * (p3 * x - p1 * z) + 2 * (p3 * (p2 * z - p3 * y) - p1 * (p1 * y - p2 * x)))); [ring|]. replace y with ((p0 * p0 + p1 * p1 + p2 * p2 + p3 * p3) * y) at 1 by (rewrite U; ring). field.
  - transitivity (z + (2 * p0 * (p1 * y - p2 * x) + 2 * (p1 * (p3 * x - p1 * z) - p2 * (p2 * z - p3 * y)))); [ring|]. replace z with ((p0 * p0 + p1 * p1 + p2 * p2 + p3 * p3) * z) at 1 by (rewrite U; ring). field.
Qed.
Lemma eps0_pos : 0 < relEps0 /\ 0 < absEps0.
Proof. unfold relEps0, absEps0. split; apply Rinv_0_lt_compat, pow_lt; lra. Qed.
Lemma axis_0 : on_axis (mkV3 1 0 0) v0 v0 0 0.
Proof. split; [unfold vnorm2, vdot; cbn; ring|]. now rewrite vscale_0. Qed.
Lemma phi_0 h : phi 0 0 h = 0. Proof. unfold phi. field. Qed.
Lemma SO3_still qi h r a b : 0 < r -> 0 < a -> SO3Integration qi v0 v0 h r a b = (qi, false).
Proof. intros. rewrite (SO3_axis _ _ _ _ _ h r a b qi axis_0) by auto. rewrite phi_0, cos_0, sin_0. unfold qcs. cbn [vx vy vz]. rewrite !Rmult_0_l. now rewrite qmul_1. Qed.
Lemma qrot_lin a u v k : qrot a (vadd u (vscale k v)) = vadd (qrot a u) (vscale k (qrot a v)).
Proof. destruct a, u, v. unfold qrot, vadd, vscale, vcross; cbn. f_equal; ring. Qed.
Lemma free_still f qi xi v vD h prec : 0 < prec ->
  freeJointIntegration (S f) qi xi v0 v v0 vD h prec = Ok (qi, vadd xi (vadd (vscale h (qrot qi v)) (vscale (h * h / 2) (qrot qi vD)))).
Proof.
  intro P. destruct eps0_pos as (E1 & E2). cbn [freeJointIntegration]. rewrite SO3_still by auto. cbn [fst snd]. unfold freeJointIntegration_. cbv zeta.
  rewrite (vscale_v0 h), vadd_v0, !fourthFree_still. rewrite Rmax_left by lra. rewrite sqrt_0, substeps_flat by auto. cbn [bind Z.sub Z.add Z.opp Z.pos_sub Z.to_nat Nat.iter nat_rect fsq fsx fsv fsw].
  replace (h / IZR 1) with h by field. rewrite SO3_still by auto. cbn [fst]. f_equal. f_equal. rewrite !qrot_lin. destruct (qrot qi v), (qrot qi vD), xi. unfold vadd, vscale; cbn. f_equal; field.
Qed.
Lemma free_spin f qi xi u w wD s0 s1 h prec : on_axis u w wD s0 s1 -> 0 < prec -> freeJointIntegration (S f) qi xi w v0 wD v0 h prec = Ok (Qt qi u s0 s1 h, xi).
Proof.
  intros A P. cbn [freeJointIntegration]. rewrite (SO3_axis u w wD s0 s1 h prec prec false qi A P P). cbn [fst snd]. unfold freeJointIntegration_. cbv zeta.
  rewrite (vscale_v0 h), vadd_v0, !fourthFree_spin. rewrite Rmax_left by lra. rewrite sqrt_0, substeps_flat by auto. cbn [bind Z.sub Z.add Z.opp Z.pos_sub Z.to_nat Nat.iter nat_rect fsq fsx fsv fsw].
  rewrite !vscale_v0, !vadd_v0, !qrot_v0, !vscale_v0, !vadd_v0, !vscale_v0. unfold Qt. f_equal. f_equal. destruct xi. unfold vadd, vscale, v0; cbn. f_equal; field.
Qed.
Lemma planar_still q0 x v vD h prec : 0 < prec -> planarJointIntegration q0 x 0 v 0 vD h prec = Ok (q0, v2add x (v2add (v2scale h v) (v2scale (h * h / 2) vD))).
Proof.
  intro P. unfold planarJointIntegration. cbv zeta. replace (0 + h * 0) with 0 by ring. rewrite !fourthPlanar_still. rewrite Rmax_left by lra. rewrite sqrt_0, substeps_flat by auto.
  cbn [bind Z.sub Z.add Z.opp Z.pos_sub Z.to_nat Nat.iter nat_rect psq psx psv psw]. replace (h / IZR 1) with h by field.
  replace (q0 + (0 * h + 0 * (h * (h / 2)))) with q0 by field. replace (q0 + 0 * (h / 2) + 0 * (h / 2 * (h / 2) / 2)) with q0 by field. f_equal. f_equal.
  destruct x as (x1 & x2), v as (v1 & v2), vD as (d1 & d2). unfold rot2t, v2scale, v2add, rot2; cbn [fst snd]. pose proof (sin2_cos2 q0) as E. unfold Rsqr in E. f_equal.
  - transitivity ((sin q0 * sin q0 + cos q0 * cos q0) * (x1 + h * v1 + h * h / 2 * d1)); [field|rewrite E; ring].
  - transitivity ((sin q0 * sin q0 + cos q0 * cos q0) * (x2 + h * v2 + h * h / 2 * d2)); [field|rewrite E; ring].
Qed.
Lemma planar_spin q0 x w wD h prec : 0 < prec -> planarJointIntegration q0 x w (0, 0) wD (0, 0) h prec = Ok (q0 + 2 * phi w wD h, rot2t (q0 + 2 * phi w wD h) (rot2 q0 x)).
Proof.
  intro P. unfold planarJointIntegration. cbv zeta. replace (v2add (0, 0) (v2scale h (0, 0))) with ((0, 0) : V2) by (unfold v2add, v2scale; cbn; f_equal; ring). rewrite !fourthPlanar_spin. rewrite Rmax_left by lra. rewrite sqrt_0, substeps_flat by auto.
  cbn [bind Z.sub Z.add Z.opp Z.pos_sub Z.to_nat Nat.iter nat_rect psq psx psv psw]. replace (h / IZR 1) with h by field.
  replace (q0 + (w * h + wD * (h * (h / 2)))) with (q0 + 2 * phi w wD h) by (unfold phi; field). f_equal. f_equal. f_equal.
  destruct x as (x1 & x2). unfold v2scale, v2add, rot2; cbn [fst snd]. f_equal; field.
Qed.
(** *** All joint types. *)
Definition exact_law (t : jtype) (q a d : list R) (prec : R) : Prop :=
  exists Q, (forall f h, jointIntegration (S f) t a d h q prec = Ok (Q h)) /\
    forall h ah, speed_up h a d ah -> forall k, (k < tparams t)%nat -> D (fun s => co (Q s) k) h (co (qrate t (Q h) ah) k).
Lemma D_quad x v d t : D (fun h => x + (v * h + d * (h * h) / 2)) t (v + d * t).
Proof.
  apply (D_ext _ (fun h => x + (v * h + d * / 2 * (h * h)))); [intro s; field|]. eapply D_eq; [apply D_plus; [apply D_const|apply D_plus; apply D_scal; [apply D_id|apply D_mult; apply D_id]]|]. cbv beta. field.
Qed.
Lemma Rdiv1_list a : [qw a / 1; qx a / 1; qy a / 1; qz a / 1] = quat_list a. Proof. unfold quat_list. now rewrite !Rdiv_1. Qed.
Lemma Qt_unit qi u s0 s1 h : qnorm2 qi = 1 -> vnorm2 u = 1 -> qnorm2 (Qt qi u s0 s1 h) = 1.
Proof. intros U V. unfold Qt. rewrite qnorm2_mul, U, <- (qexp_axis u _ V), qexp_unit. ring. Qed.
Ltac kcs k H := first [exfalso; cbn [tparams] in H; lia | destruct k as [|k]; [|kcs k H]].
Ltac kcases k := match goal with H : (k < _)%nat |- _ => kcs k H end.
Lemma exact_rev t q a d prec : t = Rev \/ t = Prism -> sizes t q a d -> exact_law t q a d prec.
Proof.
  intros T (Lq & La & Ld). assert (tparams t = 1 /\ tdof t = 1)%nat as (E1 & E2) by (destruct T; subst t; auto). rewrite E1 in Lq. rewrite E2 in La, Ld. spell.
  match goal with |- exact_law _ [?q0] [?a0] [?d0] _ => exists (fun h => [q0 + (a0 * h + d0 * (h * h) / 2)]) end. split; [intros; now apply ji_rev|].
  intros h ah (_ & SP) k Hk. rewrite E1 in Hk. destruct k; [|lia]. pose proof (SP 0%nat ltac:(cbn; lia)) as S0. unfold co in S0; cbn [nth] in S0. destruct T; subst t; unfold co; cbn [nth qrate]; (eapply D_eq; [apply D_quad|]); unfold co; congruence.
Qed.
Lemma exact_cyl q a d prec : sizes Cylindrical q a d -> exact_law Cylindrical q a d prec.
Proof.
  intros (Lq & La & Ld). cbn [tparams tdof] in *. spell.
  match goal with |- exact_law _ [?q0; ?q1] [?a0; ?a1] [?d0; ?d1] _ => exists (fun h => [q0 + (a0 * h + d0 * (h * h) / 2); q1 + (a1 * h + d1 * (h * h) / 2)]) end. split; [intros; now apply ji_cyl|].
  intros h ah (_ & SP) k Hk. pose proof (SP 0%nat ltac:(cbn; lia)) as S0. pose proof (SP 1%nat ltac:(cbn; lia)) as S1. unfold co in S0, S1. cbn [nth] in S0, S1. kcases k; unfold co; cbn [nth qrate]; (eapply D_eq; [apply D_quad|]); unfold co; congruence.
Qed.
Lemma exact_fixed q a d prec : sizes Fixed q a d -> exact_law Fixed q a d prec.
Proof. intros _. exists (fun _ => q). split; [reflexivity|]. intros h ah _ k Hk. cbn in Hk. lia. Qed.
Lemma speed_ang h a d ah : (3 <= length a)%nat -> speed_up h a d ah -> ang ah = wt (ang a) (ang d) h.
Proof. intros L (_ & SP). unfold ang, wt, vadd, vscale; cbn. f_equal; rewrite SP by lia; ring. Qed.
Lemma speed_lin h a d ah : (6 <= length a)%nat -> speed_up h a d ah -> lin ah = wt (lin a) (lin d) h.
Proof. intros L (_ & SP). unfold lin, wt, vadd, vscale; cbn. f_equal; rewrite SP by lia; ring. Qed.
Lemma exact_spherical q a d prec : sizes Spherical q a d -> unit_q Spherical q -> 0 < prec -> steady Spherical a d -> exact_law Spherical q a d prec.
Proof.
  intros (Lq & La & Ld) U P ST. cbn [tparams tdof unit_q steady] in *. destruct (common_axis _ _ ST) as (u & s0 & s1 & A).
  destruct (len4 q Lq) as (p0 & p1 & p2 & p3 & ->). clear Lq. apply quat_unit_4 in U. set (qi := mkQ p0 p1 p2 p3) in *.
  exists (fun h => quat_list (Qt qi u s0 s1 h)). split.
  - intros f h. spell. rewrite ji_spherical. fold qi. unfold sphericalJointIntegration; fold sphericalJointIntegration. unfold ang, co in A; cbn [nth] in A. rewrite (SO3_axis _ _ _ _ _ h prec prec true qi A P P). cbn [fst snd bind].
    f_equal. f_equal. apply normalize1. apply (Qt_unit qi u s0 s1 h U (proj1 A)).
  - intros h ah SP k Hk. pose proof (speed_ang h a d ah ltac:(lia) SP) as EA. destruct (D_Qt qi u _ _ s0 s1 h A) as (D0 & D1 & D2 & D3). rewrite <- EA in D0, D1, D2, D3. kcases k; assumption.
Qed.
Lemma exact_planar q a d prec : sizes Planar q a d -> 0 < prec -> steady Planar a d -> exact_law Planar q a d prec.
Proof.
  intros (Lq & La & Ld) P ST. cbn [tparams tdof steady] in *. spell.
  match goal with |- exact_law _ [?q0; ?q1; ?q2] [?a0; ?a1; ?a2] [?d0; ?d1; ?d2] _ => rename q0 into th, q1 into x1, q2 into x2, a0 into w, a1 into v1, a2 into v2, d0 into wD, d1 into e1, d2 into e2 end.
  unfold co in ST; cbn [nth] in ST. destruct ST as [(-> & ->)|(-> & -> & -> & ->)].
  - exists (fun h => [th; x1 + (v1 * h + e1 * (h * h) / 2); x2 + (v2 * h + e2 * (h * h) / 2)]). split.
    + intros f h. rewrite ji_planar, planar_still by auto. cbn [bind fst snd v2add v2scale]. do 2 f_equal. f_equal; [field|]. f_equal. field.
    + intros h ah (_ & SP) k Hk. pose proof (SP 0%nat ltac:(cbn; lia)) as S0. pose proof (SP 1%nat ltac:(cbn; lia)) as S1. pose proof (SP 2%nat ltac:(cbn; lia)) as S2. unfold co in S0, S1, S2. cbn [nth] in S0, S1, S2.
      kcases k; unfold co; cbn [nth qrate]; unfold co; cbn [nth].
      * eapply D_eq; [apply D_const|]. rewrite S0. ring.
      * eapply D_eq; [apply D_quad|]. rewrite S0, S1. ring.
      * eapply D_eq; [apply D_quad|]. rewrite S0, S2. ring.
  - exists (fun h => let b := th + 2 * phi w wD h in let X := rot2t b (rot2 th (x1, x2)) in [b; fst X; snd X]). split.
    + intros f h. rewrite ji_planar, planar_spin by auto. reflexivity.
    + intros h ah (_ & SP) k Hk. pose proof (SP 0%nat ltac:(cbn; lia)) as S0. pose proof (SP 1%nat ltac:(cbn; lia)) as S1. pose proof (SP 2%nat ltac:(cbn; lia)) as S2. unfold co in S0, S1, S2. cbn [nth] in S0, S1, S2.
      assert (DB : D (fun s => th + 2 * phi w wD s) h (w + wD * h)). { eapply D_eq; [apply D_plus; [apply D_const|apply D_scal, D_phi]|]. field. }
      kcases k; unfold co; cbn [nth qrate]; unfold co; cbn [nth]; cbv zeta; cbn [rot2t rot2 fst snd].
      * eapply D_eq; [exact DB|]. now rewrite S0.
      * eapply D_eq; [apply D_plus; (apply D_mult; [|apply D_const]); [apply D_cos|apply D_sin]; exact DB|]. cbv beta. rewrite S0, S1. ring.
      * eapply D_eq; [apply D_plus; (apply D_mult; [|apply D_const]); [apply D_opp, D_sin|apply D_cos]; exact DB|]. cbv beta. rewrite S0, S2. ring.
Qed.
Lemma exact_free q a d prec : sizes Free q a d -> unit_q Free q -> 0 < prec -> steady Free a d -> exact_law Free q a d prec.
Proof.
  intros (Lq & La & Ld) U P (CR & ST). cbn [tparams tdof unit_q] in *. destruct (len7 q Lq) as (p0 & p1 & p2 & p3 & x & y & z & ->). clear Lq. apply quat_unit_4 in U. set (qi := mkQ p0 p1 p2 p3) in *.
  destruct ST as [(WZ & DZ)|(VZ & EZ)].
  - set (v := lin a). set (e := lin d). exists (fun h => quat_list qi ++ [x + (vx (qrot qi v) * h + vx (qrot qi e) * (h * h) / 2); y + (vy (qrot qi v) * h + vy (qrot qi e) * (h * h) / 2); z + (vz (qrot qi v) * h + vz (qrot qi e) * (h * h) / 2)]). split.
    + intros f h. unfold ang, lin, co in *. subst v e. spell. cbn [nth] in *. rewrite ji_free. rewrite WZ, DZ. fold qi. rewrite free_still by auto. cbn [bind fst snd]. rewrite (norm1 _ U). destruct (Req_EM_T 1 0); [lra|].
      rewrite !Rdiv_1. unfold quat_list. cbn [app vadd vscale vx vy vz]. apply f_equal. repeat (apply (f_equal2 (@cons R)); try reflexivity; try field).
    + intros h ah SP k Hk. pose proof (speed_ang h a d ah ltac:(lia) SP) as EA. pose proof (speed_lin h a d ah ltac:(lia) SP) as EL. rewrite WZ, DZ in EA. unfold wt in EA. rewrite vscale_v0, vadd_v0 in EA. unfold ang, v0 in EA. injection EA as A0 A1 A2.
      unfold qrate. fold (lin ah). rewrite EL. unfold wt. fold v e. cbv zeta.
      change (co (quat_list qi ++ _) 0) with p0. change (co (quat_list qi ++ _) 1) with p1. change (co (quat_list qi ++ _) 2) with p2. change (co (quat_list qi ++ _) 3) with p3.
      change (QuatToE p0 p1 p2 p3) with (QuatToE (qw qi) (qx qi) (qy qi) (qz qi)). rewrite <- (qrot_E qi _ U), qrot_lin. rewrite A0, A1, A2.
      kcases k; unfold co; cbn [nth app quat_list vadd vscale vx vy vz qw qx qy qz qi]; (eapply D_eq; [first [apply D_const|apply D_quad]|]); field.
  - destruct (common_axis _ _ CR) as (u & s0 & s1 & A). exists (fun h => quat_list (Qt qi u s0 s1 h) ++ [x; y; z]). split.
    + intros f h. unfold ang, lin, co in *. spell. cbn [nth] in *. rewrite ji_free. rewrite VZ, EZ. fold qi. rewrite (free_spin _ _ _ _ _ _ _ _ _ _ A P). cbn [bind fst snd]. rewrite (norm1 _ (Qt_unit qi u s0 s1 h U (proj1 A))). destruct (Req_EM_T 1 0); [lra|].
      rewrite !Rdiv_1. reflexivity.
    + intros h ah SP k Hk. pose proof (speed_ang h a d ah ltac:(lia) SP) as EA. pose proof (speed_lin h a d ah ltac:(lia) SP) as EL. rewrite VZ, EZ in EL. unfold wt in EL. rewrite vscale_v0, vadd_v0 in EL.
      unfold qrate. fold (lin ah). rewrite EL. cbv zeta. match goal with |- context [mapp ?M v0] => replace (mapp M v0) with v0 by (unfold mapp, v0; cbn; f_equal; ring) end.
      destruct (D_Qt qi u _ _ s0 s1 h A) as (D0 & D1 & D2 & D3). rewrite <- EA in D0, D1, D2, D3. kcases k; first [assumption|exact (D_const x h)|exact (D_const y h)|exact (D_const z h)].
Qed.
Lemma ji_exact t q a d prec : sizes t q a d -> unit_q t q -> 0 < prec -> steady t a d -> exact_law t q a d prec.
Proof. intros. destruct t; auto using exact_rev, exact_cyl, exact_fixed, exact_spherical, exact_planar, exact_free. Qed.
