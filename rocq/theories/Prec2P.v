(** The free joints that turn about one axis. *)
From Coq Require Import Reals ZArith Bool List Lia Lra.
From Verif Require Import Res ResP Vec VecP Sva JointM MultiBodyM IntegM Spec SpecDeriv SpecInteg SpecPrec JointP DerivP KinP IntegP IntegJointP IntegAllP IntegExactP IntegEndP SimpsonP CorDerivP PrecP.
Import ListNotations.
Open Scope R_scope.

(** *** Free joints. *)
Lemma D_qrot_Qt qi u w d s0 s1 : qnorm2 qi = 1 -> on_axis u w d s0 s1 -> forall x t x', derivV x t x' ->
  derivV (fun s => qrot (Qt qi u s0 s1 s) (x s)) t (qrot (Qt qi u s0 s1 t) (vadd (vcross (wt w d t) (x t)) x')).
Proof.
  intros U A x t x' HX. pose proof (fun s => Qt_unit qi u s0 s1 s U (proj1 A)) as UQ.
  destruct (D_Qt qi u w d s0 s1 t A) as (D0 & D1 & D2 & D3). unfold quat_rate in *; cbn [qw qx qy qz] in *.
  pose proof (deriv_QuatToE _ _ _ _ t _ _ _ (UQ t) D0 D1 D2 D3) as DE.
  eapply derivV_ext; [intro s; apply (qrot_E _ _ (UQ s))|]. rewrite (qrot_E _ _ (UQ t)).
  eapply derivV_eq; [apply derivV_app; [apply derivM_tr, DE|exact HX]|].
  replace (mkV3 (vx (wt w d t)) (vy (wt w d t)) (vz (wt w d t))) with (wt w d t) by (destruct (wt w d t); reflexivity).
  generalize (QuatToE (qw (Qt qi u s0 s1 t)) (qx (Qt qi u s0 s1 t)) (qy (Qt qi u s0 s1 t)) (qz (Qt qi u s0 s1 t))), (wt w d t), (x t), x'. clear.
  intros E a b c. destruct E, a, b, c. unfold mapp, mtr, mmul, mscale, mcross, vadd, vcross; cbn. f_equal; ring.
Qed.
Lemma qrot_norm a x : qnorm2 a = 1 -> vnorm2 (qrot a x) = vnorm2 x.
Proof.
  intro U. rewrite (qrot_E _ _ U). apply SO3_dot, SO3_tr, SO3_QuatToE. exact U.
Qed.
Lemma qmul_assoc a b c : qmul (qmul a b) c = qmul a (qmul b c).
Proof. destruct a, b, c. unfold qmul; cbn. f_equal; ring. Qed.
Lemma qcs_add u a b : vnorm2 u = 1 -> qmul (qcs u (cos a) (sin a)) (qcs u (cos b) (sin b)) = qcs u (cos (a + b)) (sin (a + b)).
Proof.
  intro U. apply uu in U. rewrite cos_plus, sin_plus. destruct u as [a1 a2 a3]; cbn in U. unfold qmul, qcs; cbn. f_equal; try ring.
  replace (cos a * cos b - sin a * sin b) with (cos a * cos b - sin a * sin b * (a1 * a1 + a2 * a2 + a3 * a3)) by (rewrite U; ring). ring.
Qed.
Lemma on_axis_later u w d s0 s1 t : on_axis u w d s0 s1 -> on_axis u (wt w d t) d (s0 + t * s1) s1.
Proof. intros (U & -> & ->). split; auto. split; auto. unfold wt. v3ring. Qed.
Lemma SO3_later qi u w d s0 s1 t h : on_axis u w d s0 s1 ->
  fst (SO3Integration (Qt qi u s0 s1 t) (wt w d t) d h relEps0 absEps0 false) = Qt qi u s0 s1 (t + h).
Proof.
  intro A. destruct eps0_pos as (P1 & P2). rewrite (SO3_axis _ _ _ _ _ h _ _ false _ (on_axis_later _ _ _ _ _ t A) P1 P2). cbn [fst]. unfold Qt. rewrite qmul_assoc, (qcs_add _ _ _ (proj1 A)).
  replace (phi s0 s1 t + phi (s0 + t * s1) s1 h) with (phi s0 s1 (t + h)) by (unfold phi; field). reflexivity.
Qed.
Lemma wt_later v e t h : vadd (wt v e t) (vscale h e) = wt v e (t + h).
Proof. unfold wt. v3ring. Qed.
Lemma wt_0 a b : wt a b 0 = a. Proof. unfold wt. v3ring. Qed.
Lemma start_sum x y h : vadd (vscale 6 x) (vscale h y) = vadd (vadd (vscale 6 x) (vscale 6 v0)) (vscale h y). Proof. v3ring. Qed.
Lemma next_sum x p a b c h : vadd (vadd (vadd (vscale 6 x) (vscale 6 p)) (vscale h a)) (vscale h (vadd (vscale 4 b) (vscale 2 c))) =
  vadd (vadd (vscale 6 x) (vscale 6 (vadd p (vscale (h / 6) (vadd (vadd a (vscale 4 b)) c))))) (vscale h c).
Proof. destruct x, p, a, b, c. unfold vadd, vscale; cbn. f_equal; field. Qed.
Lemma last_sum x p a b c h : vscale (1 / 6) (vadd (vadd (vadd (vscale 6 x) (vscale 6 p)) (vscale h a)) (vscale h (vadd (vscale 4 b) c))) =
  vadd x (vadd p (vscale (h / 6) (vadd (vadd a (vscale 4 b)) c))).
Proof. destruct x, p, a, b, c. unfold vadd, vscale; cbn. f_equal; field. Qed.
Section FreeCode.
Variables (qi : Quat) (xi u w v d e : V3) (s0 s1 h : R).
Hypothesis A : on_axis u w d s0 s1.
Local Notation Q := (Qt qi u s0 s1).
Local Notation f := (fr (fun t => qrot (Q t)) v e).
Lemma free_iter k : Nat.iter k (free_step d e h) (mkFS qi (vadd (vscale 6 xi) (vscale h (qrot qi v))) v w) =
  mkFS (Q (INR k * h)) (vadd (vadd (vscale 6 xi) (vscale 6 (vpieces f h k))) (vscale h (f (INR k * h)))) (wt v e (INR k * h)) (wt w d (INR k * h)).
Proof.
  induction k as [|k IH].
  - cbn [Nat.iter nat_rect]. simpl INR. rewrite Rmult_0_l. unfold fr. assert (Q0 : Q 0 = qi).
    { unfold Qt, phi. replace ((s0 * 0 + s1 * (0 * 0) / 2) / 2) with 0 by field. rewrite cos_0, sin_0. destruct qi; unfold qmul, qcs; cbn. f_equal; ring. }
    rewrite Q0. rewrite !wt_0. f_equal. cbn [vpieces]. apply start_sum.
  - change (Nat.iter (S k) ?g ?s) with (g (Nat.iter k g s)). rewrite IH. unfold free_step. cbn [fsq fsx fsv fsw].
    rewrite !(SO3_later _ _ _ _ _ _ _ _ A), !wt_later. replace (INR k * h + h) with (INR (S k) * h) by (rewrite S_INR; ring). f_equal.
    cbn [vpieces]. change (qrot (Q (INR k * h + h / 2)) (wt v e (INR k * h + h / 2))) with (f (INR k * h + h / 2)). change (qrot (Q (INR (S k) * h)) (wt v e (INR (S k) * h))) with (f (INR (S k) * h)).
    apply next_sum.
Qed.
End FreeCode.
Lemma free_result f qi xi u w v d e s0 s1 step prec n r : on_axis u w d s0 s1 -> 0 < prec -> 
  substeps step (sqrt (Rmax (fourthFree v w e d) (fourthFree (wt v e step) (wt w d step) e d))) prec = Ok n ->
  freeJointIntegration (S f) qi xi w v d e step prec = Ok r ->
  fst r = Qt qi u s0 s1 step /\ snd r = vadd xi (vpieces (fr (fun t => qrot (Qt qi u s0 s1 t)) v e) (step / IZR n) (Z.to_nat n)).
Proof.
  intros A P ES E. unfold freeJointIntegration in E; fold freeJointIntegration in E. rewrite (SO3_axis _ _ _ _ _ _ _ _ _ _ A P P) in E. cbn [snd fst] in E.
  unfold freeJointIntegration_ in E. cbv zeta in E. fold (wt v e step) (wt w d step) in E. rewrite ES in E. cbn [bind] in E.
  pose proof (substeps_pos _ _ _ _ P (sqrt_pos _) ES) as N1. rewrite (free_iter qi xi u w v d e s0 s1 (step / IZR n) A) in E. cbn [fsq fsx fsv fsw] in E.
  rewrite !(SO3_later _ _ _ _ _ _ _ _ A), !wt_later in E. set (h := step / IZR n) in *.
  assert (NP : 1 <= IZR n) by (now apply IZR_le). destruct (Z.to_nat n) as [|k] eqn:EN; [lia|]. replace (Z.to_nat (n - 1)) with k in E by lia.
  assert (EK : INR k * h + h = step). { replace (INR k * h + h) with (INR (S k) * h) by (rewrite S_INR; ring). rewrite <- EN, INR_IZR_INZ, Z2Nat.id by lia. unfold h. field. lra. }
  rewrite EK in E. injection E as <-. split; [reflexivity|]. cbn [snd vpieces].
  replace (INR (S k) * h) with step by (rewrite S_INR; lra). apply last_sum.
Qed.
