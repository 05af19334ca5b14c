(** The precision of the integration of planar and free joints that turn about one axis. *)
From Coq Require Import Reals ZArith Bool List Lia Lra.
From Verif Require Import Res ResP Vec VecP Sva JointM MultiBodyM IntegM Spec SpecDeriv SpecInteg SpecPrec JointP DerivP KinP IntegP IntegJointP IntegAllP IntegExactP IntegEndP SimpsonP CorDerivP.
Import ListNotations.
Open Scope R_scope.

(** *** Vectors. *)
Lemma vdot_cs a b : vdot a b * vdot a b <= vnorm2 a * vnorm2 b.
Proof.
  destruct a as [a1 a2 a3], b as [b1 b2 b3]. unfold vnorm2, vdot; cbn [vx vy vz].
  assert (0 <= (a1 * b2 - a2 * b1) * (a1 * b2 - a2 * b1) + (a1 * b3 - a3 * b1) * (a1 * b3 - a3 * b1) + (a2 * b3 - a3 * b2) * (a2 * b3 - a3 * b2)).
  { pose proof (Rle_0_sqr (a1 * b2 - a2 * b1)). pose proof (Rle_0_sqr (a1 * b3 - a3 * b1)). pose proof (Rle_0_sqr (a2 * b3 - a3 * b2)). unfold Rsqr in *. lra. }
  nra.
Qed.
Fixpoint vpieces (f : R -> V3) (h : R) (n : nat) : V3 :=
  match n with O => v0 | S n => vadd (vpieces f h n) (vscale (h / 6) (vadd (vadd (f (INR n * h)) (vscale 4 (f (INR n * h + h / 2)))) (f (INR (S n) * h)))) end.
Lemma vdot_pieces e f h n : vdot e (vpieces f h n) = pieces (fun t => vdot e (f t)) 0 h n.
Proof.
  induction n as [|n IH]; [unfold vdot, v0; cbn; ring|]. cbn [vpieces pieces]. rewrite <- IH, !Rplus_0_l.
  generalize (vpieces f h n), (f (INR n * h)), (f (INR n * h + h / 2)), (f (INR (S n) * h)). intros. v3. field.
Qed.
Lemma D_vdot_c e f t f' : derivV f t f' -> D (fun s => vdot e (f s)) t (vdot e f').
Proof. intro H. eapply D_eq; [apply D_vdot; [apply derivV_const|exact H]|]. unfold vdot, v0; cbn. ring. Qed.
Lemma abs_le_sq x y : 0 <= y -> x * x <= y * y -> Rabs x <= y.
Proof. intros P H. rewrite <- (Rabs_pos_eq y P). apply Rsqr_le_abs_0. exact H. Qed.
Lemma vsimpson X f f1 f2 f3 f4 h n M : 0 <= h -> 0 <= M ->
  (forall t, derivV X t (f t) /\ derivV f t (f1 t) /\ derivV f1 t (f2 t) /\ derivV f2 t (f3 t) /\ derivV f3 t (f4 t)) ->
  (forall t, 0 <= t <= INR n * h -> vnorm2 (f4 t) <= M * M) ->
  len (vsub (vsub (X (INR n * h)) (X 0)) (vpieces f h n)) <= INR n * (M / 2880 * h ^ 5).
Proof.
  intros Hh HM HD HB. set (E := vsub _ _). set (N := len E). assert (NP : 0 <= N) by apply sqrt_pos.
  assert (NN : N * N = vnorm2 E) by (apply sqrt_sqrt; pose proof (vnorm2_pos E); unfold vnorm2, vdot in *; lra).
  assert (K : vdot E E <= INR n * (N * M / 2880 * h ^ 5)).
  { pose proof (simpson_pieces (fun t => vdot E (X t)) (fun t => vdot E (f t)) (fun t => vdot E (f1 t)) (fun t => vdot E (f2 t)) (fun t => vdot E (f3 t)) (fun t => vdot E (f4 t)) 0 h n (N * M) Hh) as S.
    rewrite !Rplus_0_l in S. rewrite <- vdot_pieces in S.
    replace (vdot E (X (INR n * h)) - vdot E (X 0) - vdot E (vpieces f h n)) with (vdot E E) in S.
    - eapply Rle_trans; [apply Rle_abs|]. apply S. intros t Ht. destruct (HD t) as (D0 & D1 & D2 & D3 & D4).
      do 5 (split; [now apply D_vdot_c|]). apply abs_le_sq; [apply Rmult_le_pos; auto|].
      pose proof (vdot_cs E (f4 t)) as CS. specialize (HB t Ht). eapply Rle_trans; [exact CS|]. rewrite <- NN.
      replace (N * M * (N * M)) with (N * N * (M * M)) by ring. apply Rmult_le_compat_l; [|exact HB]. rewrite NN. apply vnorm2_pos.
    - unfold E at 2. generalize (X (INR n * h)), (X 0), (vpieces f h n), E. intros. v3. ring. }
  change (vdot E E) with (vnorm2 E) in K. rewrite <- NN in K.
  replace (INR n * (N * M / 2880 * h ^ 5)) with (N * (INR n * (M / 2880 * h ^ 5))) in K by field.
  destruct NP as [P|<-].
  - apply (Rmult_le_reg_l N); auto.
  - apply Rmult_le_pos; [apply pos_INR|]. apply Rmult_le_pos; [lra|]. now apply pow_le.
Qed.

(** *** The number of sub-steps. *)
Lemma ceil_ge x : x <= IZR (ceil x).
Proof. unfold ceil. destruct (archimed (- x)) as (A & B). rewrite minus_IZR. lra. Qed.
Lemma substeps_enough h err prec n : 0 <= h -> 0 <= err -> 0 < prec -> substeps h err prec = Ok n ->
  (1 <= n)%Z /\ err * h ^ 5 <= 2880 * prec * IZR n ^ 4.
Proof.
  intros Hh He Hp H. pose proof (substeps_pos h err prec n Hp He H) as N1. split; auto.
  unfold substeps in H. destruct (Req_EM_T prec 0); [lra|]. set (y := err * h / (180 * prec)) in *.
  assert (YP : 0 <= y). { unfold y, Rdiv. apply Rmult_le_pos; [now apply Rmult_le_pos|]. left. apply Rinv_0_lt_compat. lra. }
  destruct (Rlt_dec y 0); [lra|]. injection H as H. set (x := h / 2 * sqrt (sqrt y)) in *.
  assert (XP : 0 <= x). { unfold x. apply Rmult_le_pos; [lra|apply sqrt_pos]. }
  assert (XN : x <= IZR n). { pose proof (ceil_ge x) as G. destruct (Z.eqb_spec (ceil x) 0) as [Z|Z]; [rewrite Z in G|]; subst n; lra. }
  assert (X4 : x ^ 4 = err * h ^ 5 / (2880 * prec)).
  { assert (S2 : sqrt y * sqrt y = y) by (now apply sqrt_sqrt). assert (S1 : sqrt (sqrt y) * sqrt (sqrt y) = sqrt y) by (apply sqrt_sqrt, sqrt_pos).
    unfold x. transitivity ((h / 2) ^ 4 * ((sqrt (sqrt y) * sqrt (sqrt y)) * (sqrt (sqrt y) * sqrt (sqrt y)))); [ring|]. rewrite S1, S2. unfold y. field. lra. }
  assert (P4 : x ^ 4 <= IZR n ^ 4) by (apply pow_incr; lra). rewrite X4 in P4.
  apply (Rmult_le_compat_l (2880 * prec)) in P4; [|lra]. replace (2880 * prec * (err * h ^ 5 / (2880 * prec))) with (err * h ^ 5) in P4 by (field; lra). exact P4.
Qed.
(** *** The derivatives of a turned vector. *)
Lemma wt_deriv w d t : derivV (wt w d) t d.
Proof.
  eapply derivV_eq; [apply (derivV_add (fun _ => w)); [apply derivV_const|apply derivV_scale; [apply D_id|apply derivV_const]]|]. v3ring.
Qed.
Lemma derivV_crossc a f t f' : derivV f t f' -> derivV (fun s => vcross a (f s)) t (vcross a f').
Proof. intro H. eapply derivV_eq; [apply derivV_cross; [apply derivV_const|exact H]|]. v3ring. Qed.
Lemma derivV_scalec k f t f' : derivV f t f' -> derivV (fun s => vscale k (f s)) t (vscale k f').
Proof. intro H. eapply derivV_eq; [apply derivV_scale; [apply D_const|exact H]|]. v3ring. Qed.
Definition x1 (w d v e : V3) := vadd (vcross w v) e.
Definition x2 (w d v e : V3) := vadd (vcross w (x1 w d v e)) (vadd (vcross d v) (vcross w e)).
Definition x2' (w d v e : V3) := vadd (vadd (vcross d (vcross w v)) (vcross w (vcross d v))) (vadd (vcross w (vcross w e)) (vscale 3 (vcross d e))).
Definition x3 (w d v e : V3) := vadd (vcross w (x2 w d v e)) (x2' w d v e).
Definition x3' (w d v e : V3) :=
  vadd (vadd (vadd (vcross d (vcross w (vcross w v))) (vcross w (vcross d (vcross w v)))) (vadd (vcross w (vcross w (vcross d v))) (vcross w (vcross w (vcross w e)))))
       (vadd (vadd (vscale 4 (vcross d (vcross w e))) (vscale 5 (vcross w (vcross d e)))) (vscale 3 (vcross d (vcross d v)))).
Definition x4 (w d v e : V3) := vadd (vcross w (x3 w d v e)) (x3' w d v e).
Lemma x1_deriv w d v e t : derivV (fun s => x1 (wt w d s) d (wt v e s) e) t (vadd (vcross d (wt v e t)) (vcross (wt w d t) e)).
Proof.
  unfold x1. eapply derivV_eq; [apply derivV_add; [apply derivV_cross; apply wt_deriv|apply derivV_const]|].
  cbv beta. generalize (wt w d t), (wt v e t). v3ring.
Qed.
Lemma x2_deriv w d v e t : derivV (fun s => x2 (wt w d s) d (wt v e s) e) t (x2' (wt w d t) d (wt v e t) e).
Proof.
  unfold x2. eapply derivV_eq; [apply derivV_add; [apply derivV_cross; [apply wt_deriv|apply (x1_deriv w d v e)]|apply derivV_add; [apply derivV_crossc, wt_deriv|apply derivV_cross; [apply wt_deriv|apply derivV_const]]]|].
  unfold x2', x1. cbv beta. generalize (wt w d t), (wt v e t). v3ring.
Qed.
Lemma x2'_deriv w d v e t : derivV (fun s => x2' (wt w d s) d (wt v e s) e) t
  (vadd (vadd (vcross d (vadd (vcross d (wt v e t)) (vcross (wt w d t) e))) (vadd (vcross d (vcross d (wt v e t))) (vcross (wt w d t) (vcross d e))))
        (vadd (vcross d (vcross (wt w d t) e)) (vcross (wt w d t) (vcross d e)))).
Proof.
  unfold x2'. eapply derivV_eq; [apply derivV_add; [apply derivV_add; [apply derivV_crossc, derivV_cross; apply wt_deriv|apply derivV_cross; [apply wt_deriv|apply derivV_crossc, wt_deriv]]|
     apply derivV_add; [apply derivV_cross; [apply wt_deriv|apply derivV_cross; [apply wt_deriv|apply derivV_const]]|apply derivV_const]]|].
  cbv beta. generalize (wt w d t), (wt v e t). v3ring.
Qed.
Lemma x3_deriv w d v e t : derivV (fun s => x3 (wt w d s) d (wt v e s) e) t (x3' (wt w d t) d (wt v e t) e).
Proof.
  unfold x3. eapply derivV_eq; [apply derivV_add; [apply derivV_cross; [apply wt_deriv|apply x2_deriv]|apply x2'_deriv]|].
  unfold x3', x2, x2', x1. cbv beta. generalize (wt w d t), (wt v e t). v3ring.
Qed.
Lemma x4_fourth d e a b : vnorm2 (x4 a d b e) = fourthFree b a e d.
Proof.
  unfold fourthFree. cbv zeta. apply (f_equal vnorm2). destruct a as [a1 a2 a3], b as [b1 b2 b3], d as [d1 d2 d3], e as [e1 e2 e3].
  unfold x4, x3, x3', x2, x2', x1, vnorm2, vadd, vsub, vscale, vcross, vdot; cbn [vx vy vz]. apply V3_ext; cbn [vx vy vz]; ring.
Qed.
Section Chain.
Variable Rot : R -> V3 -> V3.
Variables w d v e : V3.
Hypothesis RotD : forall x t x', derivV x t x' -> derivV (fun s => Rot s (x s)) t (Rot t (vadd (vcross (wt w d t) (x t)) x')).
Hypothesis RotN : forall t x, vnorm2 (Rot t x) = vnorm2 x.
Local Notation W := (wt w d).
Local Notation V := (wt v e).
Definition fr (t : R) : V3 := Rot t (V t).
Lemma fr_chain : exists f1 f2 f3 f4, (forall t, derivV fr t (f1 t) /\ derivV f1 t (f2 t) /\ derivV f2 t (f3 t) /\ derivV f3 t (f4 t)) /\ forall t, vnorm2 (f4 t) = fourthFree (V t) (W t) e d.
Proof.
  exists (fun t => Rot t (x1 (W t) d (V t) e)), (fun t => Rot t (x2 (W t) d (V t) e)), (fun t => Rot t (x3 (W t) d (V t) e)), (fun t => Rot t (x4 (W t) d (V t) e)).
  split; [intro t|intro t; now rewrite RotN, x4_fourth].
  split; [exact (RotD _ _ _ (wt_deriv v e t))|]. split; [exact (RotD _ _ _ (x1_deriv w d v e t))|]. split; [exact (RotD _ _ _ (x2_deriv w d v e t))|exact (RotD _ _ _ (x3_deriv w d v e t))].
Qed.
Lemma precise X h prec n : (forall t, derivV X t (fr t)) -> 0 <= h -> 0 < prec ->
  substeps h (sqrt (Rmax (fourthFree v w e d) (fourthFree (V h) (W h) e d))) prec = Ok n ->
  (forall t, 0 <= t <= h -> fourthFree (V t) (W t) e d <= Rmax (fourthFree v w e d) (fourthFree (V h) (W h) e d)) ->
  len (vsub (vsub (X h) (X 0)) (vpieces fr (h / IZR n) (Z.to_nat n))) <= prec.
Proof.
  intros HX Hh Hp HS HB. destruct fr_chain as (f1 & f2 & f3 & f4 & C & N4). set (m2 := Rmax _ _) in *.
  destruct (substeps_enough _ _ _ _ Hh (sqrt_pos m2) Hp HS) as (N1 & EN).
  assert (NP : 1 <= IZR n) by (now apply IZR_le). assert (EI : INR (Z.to_nat n) = IZR n) by (rewrite INR_IZR_INZ, Z2Nat.id; auto; lia).
  assert (M0 : 0 <= m2). { unfold m2. eapply Rle_trans; [|apply Rmax_l]. apply vnorm2_pos. }
  pose proof (vsimpson X fr f1 f2 f3 f4 (h / IZR n) (Z.to_nat n) (sqrt m2)) as S. rewrite EI in S.
  replace (IZR n * (h / IZR n)) with h in S by (field; lra).
  eapply Rle_trans; [apply S|].
  - unfold Rdiv. apply Rmult_le_pos; auto. left. apply Rinv_0_lt_compat. lra.
  - apply sqrt_pos.
  - intro t. split; [apply HX|apply C].
  - intros t Ht. rewrite N4, sqrt_sqrt by auto. now apply HB.
  - replace (IZR n * (sqrt m2 / 2880 * (h / IZR n) ^ 5)) with (sqrt m2 * h ^ 5 / (2880 * IZR n ^ 4)) by (field; lra).
    assert (P4 : 0 < 2880 * IZR n ^ 4) by (apply Rmult_lt_0_compat; [lra|apply pow_lt; lra]).
    apply (Rmult_le_reg_r (2880 * IZR n ^ 4)); auto. unfold Rdiv. rewrite Rmult_assoc, Rinv_l by lra. lra.
Qed.
End Chain.
(** Without angular acceleration, the ends decide. *)
Lemma convex_norm A B h t : 0 <= t <= h -> vnorm2 (vadd A (vscale t B)) <= Rmax (vnorm2 A) (vnorm2 (vadd A (vscale h B))).
Proof.
  intros Ht. destruct A as [a1 a2 a3], B as [b1 b2 b3]. unfold vnorm2, vdot, vadd, vscale; cbn [vx vy vz].
  set (c2 := b1 * b1 + b2 * b2 + b3 * b3). set (c1 := 2 * (a1 * b1 + a2 * b2 + a3 * b3)). set (c0 := a1 * a1 + a2 * a2 + a3 * a3).
  replace ((a1 + t * b1) * (a1 + t * b1) + (a2 + t * b2) * (a2 + t * b2) + (a3 + t * b3) * (a3 + t * b3)) with (c2 * (t * t) + c1 * t + c0) by (unfold c0, c1, c2; ring).
  replace ((a1 + h * b1) * (a1 + h * b1) + (a2 + h * b2) * (a2 + h * b2) + (a3 + h * b3) * (a3 + h * b3)) with (c2 * (h * h) + c1 * h + c0) by (unfold c0, c1, c2; ring).
  assert (C2 : 0 <= c2) by (unfold c2; nra). clearbody c0 c1 c2.
  destruct (Rle_lt_dec (c2 * t + c1) 0) as [L|L].
  - eapply Rle_trans; [|apply Rmax_l]. nra.
  - eapply Rle_trans; [|apply Rmax_r]. assert (0 <= c2 * (h + t) + c1) by nra. nra.
Qed.
Lemma cross_lin w a b s : vcross w (vadd a (vscale s b)) = vadd (vcross w a) (vscale s (vcross w b)). Proof. v3ring. Qed.
Lemma cross_v0 a : vcross v0 a = v0. Proof. v3ring. Qed.
Lemma x4_still w v e : x4 w v0 v e = vadd (vcross w (vcross w (vcross w (vcross w v)))) (vscale 4 (vcross w (vcross w (vcross w e)))).
Proof.
  assert (A1 : forall a, vadd a v0 = a) by v3ring. assert (A2 : forall a, vadd v0 a = a) by v3ring. assert (A3 : forall k, vscale k v0 = v0) by v3ring.
  assert (C0 : vcross w v0 = v0) by v3ring. assert (CA : forall a b, vcross w (vadd a b) = vadd (vcross w a) (vcross w b)) by v3ring.
  unfold x4, x3, x3', x2, x2', x1. repeat rewrite ?cross_v0, ?C0, ?A1, ?A2, ?A3, ?CA.
  generalize (vcross w (vcross w (vcross w (vcross w v)))), (vcross w (vcross w (vcross w e))). v3ring.
Qed.
Lemma x4_affine w v e s : x4 w v0 (wt v e s) e = vadd (x4 w v0 v e) (vscale s (x4 w v0 e v0)).
Proof.
  rewrite !x4_still. unfold wt. rewrite !cross_lin. replace (vcross w v0) with v0 by v3ring. replace (vcross w v0) with v0 by v3ring. replace (vcross w v0) with v0 by v3ring.
  generalize (vcross w (vcross w (vcross w (vcross w v)))), (vcross w (vcross w (vcross w e))), (vcross w (vcross w (vcross w (vcross w e)))). v3ring.
Qed.
Lemma wt_v0 w s : wt w v0 s = w. Proof. unfold wt. v3ring. Qed.
Lemma ends_decide w v e h t : 0 <= t <= h ->
  fourthFree (wt v e t) (wt w v0 t) e v0 <= Rmax (fourthFree v w e v0) (fourthFree (wt v e h) (wt w v0 h) e v0).
Proof.
  intros Ht. assert (EW : forall s, wt w v0 s = w) by (intro s; apply wt_v0). rewrite !EW.
  rewrite <- !x4_fourth, !x4_affine. now apply convex_norm.
Qed.

