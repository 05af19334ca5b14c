(** Integration: unit quaternions, termination, exact cases. *)
From Coq Require Import Reals ZArith Bool List Lia Lra Psatz.
From Verif Require Import Res ResP Vec Sva JointM MultiBodyM IntegM Spec.
Import ListNotations.
Open Scope R_scope.

Lemma qnorm2_mul a b : qnorm2 (qmul a b) = qnorm2 a * qnorm2 b.
Proof. unfold qnorm2, qmul; cbn. ring. Qed.
Lemma vnorm2_pos a : 0 <= vnorm2 a.
Proof. unfold vnorm2, vdot. pose proof (Rle_0_sqr (vx a)). pose proof (Rle_0_sqr (vy a)). pose proof (Rle_0_sqr (vz a)). unfold Rsqr in *. lra. Qed.
Lemma vnorm2_zero a : vnorm2 a = 0 -> a = v0.
Proof.
  unfold vnorm2, vdot. intro H. pose proof (Rle_0_sqr (vx a)). pose proof (Rle_0_sqr (vy a)). pose proof (Rle_0_sqr (vz a)). unfold Rsqr in *.
  destruct a as [x y z]; cbn in *. unfold v0. f_equal; apply Rsqr_0_uniq; unfold Rsqr; lra.
Qed.
Lemma vnorm2_scale k a : vnorm2 (vscale k a) = k * k * vnorm2 a.
Proof. unfold vnorm2, vdot, vscale; cbn. ring. Qed.
Lemma sinc_mul x : sinc x * x = sin x.
Proof. unfold sinc. destruct (Req_EM_T x 0) as [->|N]; [rewrite sin_0; ring|field; auto]. Qed.
Definition qexp (O : V3) : Quat :=
  let n := sqrt (vnorm2 O) in let s := sinc n in mkQ (cos n) (s * vx O) (s * vy O) (s * vz O).
Lemma qexp_unit O : qnorm2 (qexp O) = 1.
Proof.
  unfold qexp, qnorm2; cbn. set (n := sqrt (vnorm2 O)). assert (E : n * n = vnorm2 O) by (apply sqrt_sqrt, vnorm2_pos).
  replace (cos n * cos n + sinc n * vx O * (sinc n * vx O) + sinc n * vy O * (sinc n * vy O) + sinc n * vz O * (sinc n * vz O))
    with (cos n * cos n + sinc n * sinc n * vnorm2 O) by (unfold vnorm2, vdot; ring).
  rewrite <- E. replace (sinc n * sinc n * (n * n)) with ((sinc n * n) * (sinc n * n)) by ring. rewrite sinc_mul.
  pose proof (sin2_cos2 n) as H. unfold Rsqr in H. lra.
Qed.
Lemma SO3_eq qi wi wD step r a b : SO3Integration qi wi wD step r a b =
  if b && snd (magnusExpansion wi wD step r a) then (qi, true) else (qmul qi (qexp (vscale (1 / 2) (fst (magnusExpansion wi wD step r a)))), snd (magnusExpansion wi wD step r a)).
Proof. reflexivity. Qed.
Lemma SO3_unit qi wi wD step r a b : qnorm2 qi = 1 -> qnorm2 (fst (SO3Integration qi wi wD step r a b)) = 1.
Proof. intro U. rewrite SO3_eq. destruct (b && _); cbn [fst]; auto. rewrite qnorm2_mul, U, qexp_unit. ring. Qed.
Lemma spherical_unit f : forall qi wi wD step prec q', qnorm2 qi = 1 -> sphericalJointIntegration f qi wi wD step prec = Ok q' -> qnorm2 q' = 1.
Proof.
  induction f as [|f IH]; intros qi wi wD step prec q' U H; cbn [sphericalJointIntegration] in H; [discriminate|].
  destruct (snd (SO3Integration qi wi wD step prec prec true)).
  - destruct (sphericalJointIntegration f qi wi wD (step / 2) prec) as [q1| | |] eqn:E; cbn [bind] in H; try discriminate. eapply IH; [|exact H]. eapply IH; eauto.
  - injection H as <-. now apply SO3_unit.
Qed.
Lemma free_unit f : forall qi xi wi vi wD vD step prec H', qnorm2 qi = 1 -> freeJointIntegration f qi xi wi vi wD vD step prec = Ok H' -> qnorm2 (fst H') = 1.
Proof.
  induction f as [|f IH]; intros qi xi wi vi wD vD step prec H' U H; cbn [freeJointIntegration] in H; [discriminate|].
  destruct (snd (SO3Integration qi wi wD step prec prec false)).
  - destruct (freeJointIntegration f qi xi wi vi wD vD (step / 2) prec) as [q1| | |] eqn:E; cbn [bind] in H; try discriminate. eapply IH; [|exact H]. eapply IH; eauto.
  - unfold freeJointIntegration_ in H. destruct (substeps _ _ _); cbn [bind] in H; try discriminate. injection H as <-. exact (SO3_unit qi wi wD step prec prec false U).
Qed.
(** *** The number of sub-steps. *)
Lemma ceil_0 : ceil 0 = 0%Z.
Proof. unfold ceil. rewrite Ropp_0. replace (up 0) with 1%Z; [reflexivity|]. apply tech_up; cbn; lra. Qed.
Lemma ceil_pos x : 0 <= x -> (0 <= ceil x)%Z.
Proof.
  intro H. unfold ceil. destruct (archimed (- x)) as (A & B). assert (IZR (up (- x)) <= 1) by lra. apply le_IZR in H0. lia.
Qed.
Lemma substeps_ok step err prec : 0 < prec -> 0 <= step -> 0 <= err -> exists n, substeps step err prec = Ok n /\ (1 <= n)%Z.
Proof.
  intros P S E. unfold substeps. destruct (Req_EM_T prec 0) as [Z0|Z0]; [lra|]. destruct (Rlt_dec _ 0) as [L|L].
  - exfalso. assert (0 <= err * step / (180 * prec)). { apply Rmult_le_pos; [apply Rmult_le_pos; auto|]. left. apply Rinv_0_lt_compat. lra. } lra.
  - set (n := ceil _). eexists. split; [reflexivity|]. assert (0 <= n)%Z. { apply ceil_pos. apply Rmult_le_pos; [lra|apply sqrt_pos]. } destruct (Z.eqb_spec n 0); lia.
Qed.
(** *** Termination: short steps do not warn. *)
Definition small_const (B D : R) : R := (D * B + 4 * (1 + D * (B * (B * B))) + 16 * (B * B)) * (B * B) * (1 + B).
Lemma sqrt_le_half z : 0 <= z -> sqrt z <= (1 + z) / 2.
Proof. intro H. pose proof (sqrt_sqrt z H). pose proof (Rle_0_sqr (sqrt z - 1)). unfold Rsqr in *. lra. Qed.
Lemma cross_le a b : vnorm2 (vcross a b) <= vnorm2 a * vnorm2 b.
Proof.
  assert (E : vnorm2 a * vnorm2 b = vnorm2 (vcross a b) + vdot a b * vdot a b) by (unfold vnorm2, vdot, vcross; cbn; ring).
  pose proof (Rle_0_sqr (vdot a b)). unfold Rsqr in *. lra.
Qed.
Lemma add_le a b : vnorm2 (vadd a b) <= 2 * vnorm2 a + 2 * vnorm2 b.
Proof.
  assert (E : 2 * vnorm2 a + 2 * vnorm2 b - vnorm2 (vadd a b) = vnorm2 (vsub a b)) by (unfold vnorm2, vdot, vadd, vsub; cbn; ring).
  pose proof (vnorm2_pos (vsub a b)). lra.
Qed.
Lemma mulle a b c d : 0 <= a -> 0 <= c -> a <= b -> c <= d -> a * c <= b * d.
Proof. intros. apply Rmult_le_compat; auto. Qed.
Lemma magnus_quiet w wD h prec B : 0 < prec -> vnorm2 w <= B -> vnorm2 (vadd w (vscale h wD)) <= B -> h * h <= 1 ->
  h * h * small_const B (vnorm2 wD) < prec * prec -> snd (magnusExpansion w wD h prec prec) = false.
Proof.
  intros P W W1 H1 H2. unfold magnusExpansion. destruct (Rlt_dec (vnorm2 wD) prec); [reflexivity|]. cbv zeta.
  set (w1 := vadd w (vscale h wD)) in *. set (sqn1 := vnorm2 (vscale (h / 2) (vadd w w1))). set (sqn2 := vnorm2 (vscale (h * h / 12) (vcross w w1))).
  set (d4 := vnorm2 wD * (h * h) * (h * h)). set (dd := vnorm2 wD) in *. match goal with |- context [Rmin ?r ?e] => set (rel2 := r); set (eps2 := Rmin rel2 e) end.
  destruct (_ && _); [reflexivity|]. destruct (Rlt_dec _ eps2) as [L|L]; [reflexivity|]. exfalso. apply L.
  pose proof (vnorm2_pos w) as PW. pose proof (vnorm2_pos wD) as PD. fold dd in PD. assert (PB : 0 <= B) by lra. assert (PX : 0 <= h * h) by (pose proof (Rle_0_sqr h) as Q; unfold Rsqr in Q; lra).
  assert (PP : 0 < prec * prec) by (apply Rmult_lt_0_compat; auto).
  assert (Q1 : 0 <= sqn1) by apply vnorm2_pos. assert (Q2 : 0 <= sqn2) by apply vnorm2_pos.
  assert (S1 : sqn1 <= B).
  { unfold sqn1. rewrite vnorm2_scale. pose proof (add_le w w1) as A. pose proof (vnorm2_pos (vadd w w1)) as A0. replace (h / 2 * (h / 2)) with (h * h * / 4) by field.
    assert (h * h * / 4 * vnorm2 (vadd w w1) <= 1 * / 4 * (4 * B)); [|lra]. apply mulle; lra. }
  assert (PBB : 0 <= B * B) by (apply Rmult_le_pos; auto).
  assert (S2 : sqn2 <= B * B * (h * h)).
  { unfold sqn2. rewrite vnorm2_scale. pose proof (cross_le w w1) as A. assert (A1 : vnorm2 (vcross w w1) <= B * B). { eapply Rle_trans; [exact A|]. apply mulle; auto; apply vnorm2_pos. }
    pose proof (vnorm2_pos (vcross w w1)) as A0. replace (h * h / 12 * (h * h / 12)) with (h * h * (h * h) * / 144) by field.
    assert (h * h * (h * h) * / 144 <= h * h * 1 * / 144). { apply Rmult_le_compat_r; [lra|]. apply Rmult_le_compat_l; auto. }
    assert (0 <= h * h * (h * h) * / 144). { apply Rmult_le_pos; [apply Rmult_le_pos; auto|lra]. }
    assert (h * h * (h * h) * / 144 * vnorm2 (vcross w w1) <= h * h * 1 * / 144 * (B * B)) by (apply mulle; auto).
    assert (0 <= h * h * (B * B)) by (apply Rmult_le_pos; auto). lra. }
  assert (S2' : sqn2 <= B * B). { assert (B * B * (h * h) <= B * B * 1) by (apply Rmult_le_compat_l; auto). lra. }
  assert (S4 : d4 <= dd). { unfold d4. assert (dd * (h * h) * (h * h) <= dd * 1 * 1); [|lra]. apply mulle; auto; [apply Rmult_le_pos; auto|apply Rmult_le_compat_l; auto]. }
  assert (Q4 : 0 <= d4) by (unfold d4; apply Rmult_le_pos; [apply Rmult_le_pos|]; auto).
  set (A := d4 * sqn1 + 8 * sqrt (d4 * sqn1 * sqn2) + 16 * sqn2).
  set (K := dd * B + 4 * (1 + dd * (B * (B * B))) + 16 * (B * B)).
  assert (Z1 : 0 <= d4 * sqn1 * sqn2) by (apply Rmult_le_pos; [apply Rmult_le_pos|]; auto).
  assert (Z2 : d4 * sqn1 <= dd * B) by (apply mulle; auto).
  assert (Z3 : d4 * sqn1 * sqn2 <= dd * B * (B * B)). { apply mulle; auto. apply Rmult_le_pos; auto. }
  assert (AK : A <= K). { unfold A, K. pose proof (sqrt_le_half _ Z1). replace (dd * (B * (B * B))) with (dd * B * (B * B)) by ring. lra. }
  assert (PA : 0 <= A). { unfold A. pose proof (sqrt_pos (d4 * sqn1 * sqn2)). assert (0 <= d4 * sqn1) by (apply Rmult_le_pos; auto). lra. }
  assert (AB : A * sqn2 <= K * (B * B) * (h * h)). { replace (K * (B * B) * (h * h)) with (K * (B * B * (h * h))) by ring. apply mulle; auto. }
  unfold small_const in H2. fold K in H2.
  assert (KB : 0 <= K * (B * B) * (h * h)). { assert (0 <= A * sqn2) by (apply Rmult_le_pos; auto). lra. }
  assert (KBB : 0 <= K * (B * B) * (h * h) * B) by (apply Rmult_le_pos; auto).
  assert (H3 : K * (B * B) * (h * h) + K * (B * B) * (h * h) * B < prec * prec) by (replace (K * (B * B) * (h * h) + K * (B * B) * (h * h) * B) with (h * h * (K * (B * B) * (1 + B))) by ring; exact H2).
  assert (E5 : A * sqn1 * sqn2 / (840 * 840) = A * sqn2 * sqn1 * / (840 * 840)) by (field).
  assert (C : 0 < / (840 * 840) < 1) by lra. set (c := / (840 * 840)) in *. rewrite E5. clear E5.
  assert (PAS : 0 <= A * sqn2) by (apply Rmult_le_pos; auto). assert (PAS1 : 0 <= A * sqn2 * sqn1) by (apply Rmult_le_pos; auto).
  unfold eps2. apply Rmin_glb_lt.
  - unfold rel2. destruct (Rlt_dec 0 sqn1) as [L1|L1].
    + replace (A * sqn2 * sqn1 * c) with (A * sqn2 * c * sqn1) by ring. apply Rmult_lt_compat_r; auto.
      assert (A * sqn2 * c <= A * sqn2 * 1) by (apply Rmult_le_compat_l; lra). lra.
    + replace sqn1 with 0 by lra. lra.
  - assert (A * sqn2 * sqn1 * c <= A * sqn2 * sqn1 * 1) by (apply Rmult_le_compat_l; lra).
    assert (A * sqn2 * sqn1 <= K * (B * B) * (h * h) * B) by (apply mulle; auto). lra.
Qed.
Lemma mid_le w wD h B : vnorm2 w <= B -> vnorm2 (vadd w (vscale h wD)) <= B ->
  vnorm2 (vadd w (vscale (h / 2) wD)) <= B /\ vnorm2 (vadd (vadd w (vscale (h / 2) wD)) (vscale (h / 2) wD)) <= B.
Proof.
  intros W W1. split.
  - replace (vadd w (vscale (h / 2) wD)) with (vscale (1 / 2) (vadd w (vadd w (vscale h wD)))).
    + rewrite vnorm2_scale. pose proof (add_le w (vadd w (vscale h wD))). lra.
    + unfold vscale, vadd; cbn. f_equal; field.
  - replace (vadd (vadd w (vscale (h / 2) wD)) (vscale (h / 2) wD)) with (vadd w (vscale h wD)); auto. unfold vscale, vadd; cbn. f_equal; field.
Qed.
Lemma magnus_quiet_k w wD h prec B : 0 < prec -> vnorm2 w <= B -> vnorm2 (vadd w (vscale h wD)) <= B -> h * h <= 4 ^ 0 -> h * h * small_const B (vnorm2 wD) < 4 ^ 0 * (prec * prec) -> snd (magnusExpansion w wD h prec prec) = false.
Proof. intros. apply (magnus_quiet w wD h prec B); cbn in *; auto; lra. Qed.
Lemma half_sq h k c p : h * h * c < 4 ^ S k * p -> h / 2 * (h / 2) * c < 4 ^ k * p.
Proof. cbn [pow]. intro H. replace (h / 2 * (h / 2) * c) with (h * h * c / 4) by field. lra. Qed.
Lemma half_sq' h k : h * h <= 4 ^ S k -> h / 2 * (h / 2) <= 4 ^ k.
Proof. cbn [pow]. intro H. replace (h / 2 * (h / 2)) with (h * h / 4) by field. lra. Qed.
Lemma SO3_warn qi w wD h prec b : snd (SO3Integration qi w wD h prec prec b) = snd (magnusExpansion w wD h prec prec).
Proof. rewrite SO3_eq. destruct b; cbn [andb]; auto. destruct (snd (magnusExpansion w wD h prec prec)); reflexivity. Qed.
Lemma spherical_stops prec B wD : 0 < prec -> forall k f h w qi, (k < f)%nat -> vnorm2 w <= B -> vnorm2 (vadd w (vscale h wD)) <= B ->
  h * h <= 4 ^ k -> h * h * small_const B (vnorm2 wD) < 4 ^ k * (prec * prec) -> exists q', sphericalJointIntegration f qi w wD h prec = Ok q'.
Proof.
  intro P. induction k as [|k IH]; intros f h w qi F W W1 H1 H2; (destruct f as [|f]; [lia|]); cbn [sphericalJointIntegration]; rewrite SO3_warn.
  - rewrite (magnus_quiet_k w wD h prec B) by auto. eauto.
  - destruct (snd (magnusExpansion w wD h prec prec)); [|eauto]. destruct (mid_le w wD h B W W1) as (M1 & M2). apply half_sq in H2. apply half_sq' in H1.
    destruct (IH f (h / 2) w qi) as (q1 & E1); auto; [lia|]. rewrite E1. cbn [bind]. apply IH; auto; lia.
Qed.
Lemma free_stops prec B wD vD : 0 < prec -> forall k f h w v qi xi, (k < f)%nat -> 0 <= h -> vnorm2 w <= B -> vnorm2 (vadd w (vscale h wD)) <= B ->
  h * h <= 4 ^ k -> h * h * small_const B (vnorm2 wD) < 4 ^ k * (prec * prec) -> exists q', freeJointIntegration f qi xi w v wD vD h prec = Ok q'.
Proof.
  intro P. assert (ST : forall h w v qi xi qf, 0 <= h -> exists q', freeJointIntegration_ qi xi qf w v wD vD h prec = Ok q').
  { intros h w v qi xi qf Hh. unfold freeJointIntegration_. cbv zeta. match goal with |- context [substeps ?s ?e ?p] => destruct (substeps_ok s e p P Hh (sqrt_pos _)) as (n & -> & _) end. cbn [bind]. eauto. }
  induction k as [|k IH]; intros f h w v qi xi F Hh W W1 H1 H2; (destruct f as [|f]; [lia|]); cbn [freeJointIntegration]; rewrite SO3_warn.
  - rewrite (magnus_quiet_k w wD h prec B) by auto. apply ST; auto.
  - destruct (snd (magnusExpansion w wD h prec prec)); [|apply ST; auto]. destruct (mid_le w wD h B W W1) as (M1 & M2). apply half_sq in H2. apply half_sq' in H1.
    destruct (IH f (h / 2) w v qi xi) as (q1 & E1); auto; [lia|lra|]. rewrite E1. cbn [bind]. apply IH; auto; [lia|lra].
Qed.
Lemma big_pow x : exists k, x < 4 ^ k.
Proof.
  destruct (Pow_x_infinity 4) with (b := Rmax x 0 + 1) as (N & H); [rewrite Rabs_right; lra|]. exists N. specialize (H N (le_n _)).
  rewrite Rabs_right in H by (left; apply pow_lt; lra). pose proof (Rmax_l x 0). lra.
Qed.
Lemma depth prec B D h : 0 < prec -> exists k, h * h <= 4 ^ k /\ h * h * small_const B D < 4 ^ k * (prec * prec).
Proof.
  intro P. assert (PP : 0 < prec * prec) by (apply Rmult_lt_0_compat; auto). destruct (big_pow (Rmax (h * h) (h * h * small_const B D / (prec * prec)))) as (k & H). exists k. split.
  - pose proof (Rmax_l (h * h) (h * h * small_const B D / (prec * prec))). lra.
  - pose proof (Rmax_r (h * h) (h * h * small_const B D / (prec * prec))). assert (Q : h * h * small_const B D / (prec * prec) < 4 ^ k) by lra.
    apply (Rmult_lt_compat_r (prec * prec)) in Q; auto. replace (h * h * small_const B D / (prec * prec) * (prec * prec)) with (h * h * small_const B D) in Q by (field; lra). exact Q.
Qed.
Lemma bounds w wD h : exists B, vnorm2 w <= B /\ vnorm2 (vadd w (vscale h wD)) <= B.
Proof. exists (vnorm2 w + vnorm2 (vadd w (vscale h wD))). pose proof (vnorm2_pos w). pose proof (vnorm2_pos (vadd w (vscale h wD))). lra. Qed.
Lemma spherical_total w wD h prec : 0 < prec -> exists N, forall f qi, (N <= f)%nat -> exists q', sphericalJointIntegration f qi w wD h prec = Ok q'.
Proof.
  intro P. destruct (bounds w wD h) as (B & W & W1), (depth prec (vnorm2 w + vnorm2 (vadd w (vscale h wD))) (vnorm2 wD) h P) as (k & _).
  destruct (depth prec B (vnorm2 wD) h P) as (k' & H1 & H2). exists (S k'). intros f qi F. eapply (spherical_stops prec B wD P k'); eauto.
Qed.
Lemma free_total w v wD vD h prec : 0 < prec -> 0 <= h -> exists N, forall f qi xi, (N <= f)%nat -> exists q', freeJointIntegration f qi xi w v wD vD h prec = Ok q'.
Proof.
  intros P Hh. destruct (bounds w wD h) as (B & W & W1). destruct (depth prec B (vnorm2 wD) h P) as (k' & H1 & H2). exists (S k'). intros f qi xi F. eapply (free_stops prec B wD vD P k'); eauto.
Qed.
