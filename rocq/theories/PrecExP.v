(** Concrete motions for C89. *)
From Coq Require Import Reals ZArith Bool List Lia Lra.
From Verif Require Import Res ResP Vec VecP Sva JointM MultiBodyM KinM IntegM Spec SpecDeriv SpecInteg SpecPrec JointP DerivP KinP Ex MbP IntegP IntegJointP IntegAllP IntegExactP IntegEndP PrecP Prec2P Prec3P Prec4P.
Import ListNotations.
Open Scope R_scope.

(** The base of the example robot starts in the origin, and drives along an arc. *)
Definition arc_m (a d : list R) : MBC :=
  with_alphaD [d; [3]; [-1]; [2; 4; 6]] (with_alpha [a; [2]; [1]; [1; 2; 3]] (with_q [[1; 0; 0; 0; 0; 0; 0]; [1]; [2]; [0; 3/5; 0; 4/5]] ex_m)).
Lemma arc_ok a d : length a = 6%nat -> length d = 6%nat -> mbc_ok ex_mb (arc_m a d).
Proof.
  intros La Ld. destruct (len6 a La) as (a0 & a1 & a2 & a3 & a4 & a5 & ->), (len6 d Ld) as (d0 & d1 & d2 & d3 & d4 & d5 & ->).
  destruct ex_mbc_ok. constructor; cbn [arc_m q alpha alphaD force jointConfig jointVelocity jointTorque motionSubspace bodyPosW parentToSon bodyVelW bodyVelB bodyAccB with_q with_alpha with_alphaD]; auto; reflexivity.
Qed.
Lemma arc_config a d : config_ok ex_mb (arc_m a d).
Proof.
  intros i j qi EJ EQ. destruct i as [|[|[|[|i]]]]; cbn in EJ, EQ; try (destruct i; discriminate); injection EJ as <-; injection EQ as <-; (split; [reflexivity|]); cbn; auto; unfold quat_unit; cbn; lra.
Qed.
Lemma arc_runs a d h prec : length a = 6%nat -> length d = 6%nat -> 0 < prec -> 0 <= h -> exists N m', integration N ex_mb (arc_m a d) h prec = Ok m'.
Proof.
  intros La Ld P H. pose proof (arc_ok a d La Ld) as K. destruct (integration_total ex_mb (arc_m a d) h prec ex_wf (ok_q _ _ K) (ok_alpha _ _ K) (ok_alphaD _ _ K) (arc_config a d) P) as (N & T); [left; exact H|].
  destruct (T N (le_n _)) as (m' & E). eauto.
Qed.
Definition arc (th : R) : list R := [cos (th / 2); 0; 0; sin (th / 2); sin th; 1 - cos th; 0].
Definition base_joint : Joint := nth 0 (mb_joints ex_mb) jd.
Lemma arc_follows (th : R -> R) t w a : D th t w -> a = [0; 0; w; w; 0; 0] -> follows base_joint (fun s => arc (th s)) t a.
Proof.
  intros T ->. assert (T2 : D (fun s => th s / 2) t (w / 2)). { apply (D_ext _ (fun s => / 2 * th s)); [intro; field|]. eapply D_eq; [apply D_scal; exact T|field]. }
  intros k Hk. change (jparams base_joint) with 7%nat in Hk. change (jtyp base_joint) with Free.
  assert (C2 : cos (th t) = cos (th t / 2) * cos (th t / 2) - sin (th t / 2) * sin (th t / 2)). { rewrite <- cos_2a. f_equal. field. }
  assert (S2 : sin (th t) = 2 * sin (th t / 2) * cos (th t / 2)). { rewrite <- sin_2a. f_equal. field. }
  pose proof (sin2_cos2 (th t / 2)) as SC. unfold Rsqr in SC.
  assert (SS : sin (th t / 2) * sin (th t / 2) = 1 - cos (th t / 2) * cos (th t / 2)) by lra.
  do 7 (destruct k as [|k]; [unfold co at 1; cbn [arc nth];
    first [eapply D_eq; [apply D_const|]|eapply D_eq; [apply D_cos; exact T2|]|eapply D_eq; [apply D_sin; exact T2|]|eapply D_eq; [apply D_sin; exact T|]|eapply D_eq; [apply D_minus; [apply D_const|apply D_cos; exact T]|]];
    unfold qrate, co; cbn [arc nth app]; unfold mapp, mtr, QuatToE, mscale; cbn [vx vy vz m00 m01 m02 m10 m11 m12 m20 m21 m22]; cbv beta; first [rewrite C2, SS; field|rewrite S2; field|field]|]).
  lia.
Qed.

Definition ac_spin : list R := [0; 0; 0; 0; 0; 0].
Definition ac_acc : list R := [0; 0; 1; 1; 0; 0].
(** Faster and faster. *)
Lemma arc_true : true_motion base_joint [1; 0; 0; 0; 0; 0; 0] ac_spin ac_acc (fun t => arc (t * t / 2)).
Proof.
  split; [|split].
  - unfold arc. replace (0 * 0 / 2) with 0 by field. replace (0 / 2) with 0 by field. rewrite cos_0, sin_0. rewrite Rminus_diag_eq by reflexivity. reflexivity.
  - reflexivity.
  - intros t a' (L & SP). cbn in L. destruct (len6 a' L) as (b0 & b1 & b2 & b3 & b4 & b5 & ->).
    pose proof (SP 0%nat ltac:(cbn; lia)) as S0. pose proof (SP 1%nat ltac:(cbn; lia)) as S1. pose proof (SP 2%nat ltac:(cbn; lia)) as S2. pose proof (SP 3%nat ltac:(cbn; lia)) as S3. pose proof (SP 4%nat ltac:(cbn; lia)) as S4. pose proof (SP 5%nat ltac:(cbn; lia)) as S5.
    unfold co, ac_spin, ac_acc in *. cbn [nth] in *. apply (arc_follows (fun s => s * s / 2) t t).
    + apply (D_ext _ (fun s => / 2 * (s * s))); [intro; field|]. eapply D_eq; [apply D_scal, D_mult; apply D_id|]. cbv beta. field.
    + subst. repeat (f_equal; [ring|]). f_equal. ring.
Qed.
Lemma fourth_arc t : fourthFree (wt (lin ac_spin) (lin ac_acc) t) (wt (ang ac_spin) (ang ac_acc) t) (lin ac_acc) (ang ac_acc) = t * t * (t * t * (t * t) * (t * t * (t * t)) + 70 * (t * t * (t * t)) + 225).
Proof.
  replace (wt (lin ac_spin) (lin ac_acc) t) with (l2 (t, 0)) by (unfold wt, l2, lin, ac_spin, ac_acc, co, vadd, vscale; cbn [nth vx vy vz fst snd]; f_equal; ring).
  replace (wt (ang ac_spin) (ang ac_acc) t) with (ez t) by (unfold wt, ez, ang, ac_spin, ac_acc, co, vadd, vscale; cbn [nth vx vy vz]; f_equal; ring).
  change (lin ac_acc) with (l2 (1, 0)). change (ang ac_acc) with (ez 1). rewrite <- fourth_planar. unfold fourthPlanar, v2sub, v2scale; cbv zeta; cbn [fst snd]. ring.
Qed.
Lemma arc_bent h : bent_at_ends Free (fun t => arc (t * t / 2)) h.
Proof.
  set (qi := mkQ 1 0 0 0). assert (OA : vcross (ang ac_spin) (ang ac_acc) = v0) by (apply V3_ext; cbn; ring).
  destruct (common_axis _ _ OA) as (u & s0 & s1 & A). assert (U : qnorm2 qi = 1) by (unfold qnorm2, qi; cbn; ring).
  destruct arc_true as (C0 & _ & FO). set (c := fun t => arc (t * t / 2)) in *.
  assert (HC : forall s k, (k < 7)%nat -> D (fun x => co (c x) k) s (co (qrate Free (c s) (speeds s ac_spin ac_acc)) k)).
  { intros s k Hk. exact (FO s _ (speeds_ok s _ _) k Hk). }
  assert (QM : forall s, quat_of (c s) = Qt qi u s0 s1 s).
  { apply (quat_motion Free c ac_spin ac_acc qi u s0 s1); auto; [cbn; lia|intros; apply HC; lia|change (quat_of (arc (0 * 0 / 2)) = qi); rewrite C0; reflexivity]. }
  destruct (fr_chain (fun t => qrot (Qt qi u s0 s1 t)) _ _ (lin ac_spin) (lin ac_acc) (D_qrot_Qt qi u _ _ s0 s1 U A) (fun t x => qrot_norm _ _ (Qt_unit _ _ _ _ _ U (proj1 A)))) as (f1 & f2 & f3 & f4 & CH & N4).
  exists f4. split.
  - exists (fr (fun t => qrot (Qt qi u s0 s1 t)) (lin ac_spin) (lin ac_acc)), f1, f2, f3. intro t. split; [|exact (CH t)].
    unfold fr. rewrite (qrot_E _ _ (Qt_unit _ _ _ _ t U (proj1 A))), <- (QM t), <- (wt_lin ac_spin ac_acc t) by (cbn; lia).
    pose proof (HC t 4%nat ltac:(lia)). pose proof (HC t 5%nat ltac:(lia)). pose proof (HC t 6%nat ltac:(lia)).
    unfold derivV, place, quat_of; cbn [vx vy vz qw qx qy qz]. unfold lin. unfold co at 2 in H; unfold co at 2 in H0; unfold co at 2 in H1. cbn [qrate nth app] in *. auto.
  - intros s (L0 & L1). right. unfold len. fold (vdot (f4 s) (f4 s)) (vdot (f4 h) (f4 h)). apply sqrt_le_1_alt. fold (vnorm2 (f4 s)) (vnorm2 (f4 h)). rewrite !N4, !fourth_arc.
    assert (E2 : 0 <= s * s <= h * h) by nra. generalize dependent (s * s). generalize dependent (h * h). intros x y (Y0 & Y1).
    assert (E4 : 0 <= y * y <= x * x) by nra. generalize dependent (y * y). generalize dependent (x * x). intros X Y (Y2 & Y3). apply Rmult_le_compat; nra.
Qed.
(** With constant speeds. *)
Lemma circle_true : true_motion base_joint [1; 0; 0; 0; 0; 0; 0] [0; 0; 1; 1; 0; 0] [0; 0; 0; 0; 0; 0] arc.
Proof.
  split; [|split].
  - unfold arc. replace (0 / 2) with 0 by field. rewrite cos_0, sin_0. rewrite Rminus_diag_eq by reflexivity. reflexivity.
  - reflexivity.
  - intros t a' (L & SP). cbn in L. destruct (len6 a' L) as (b0 & b1 & b2 & b3 & b4 & b5 & ->).
    pose proof (SP 0%nat ltac:(cbn; lia)) as S0. pose proof (SP 1%nat ltac:(cbn; lia)) as S1. pose proof (SP 2%nat ltac:(cbn; lia)) as S2. pose proof (SP 3%nat ltac:(cbn; lia)) as S3. pose proof (SP 4%nat ltac:(cbn; lia)) as S4. pose proof (SP 5%nat ltac:(cbn; lia)) as S5.
    unfold co in *. cbn [nth] in *. apply (arc_follows (fun s => s) t 1); [apply D_id|]. subst. repeat (f_equal; [ring|]). f_equal. ring.
Qed.
Lemma arc_axis : one_axis Free ac_spin ac_acc.
Proof. cbn [one_axis]. apply V3_ext; cbn; ring. Qed.
