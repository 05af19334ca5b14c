(** C89: all joint types together. *)
From Coq Require Import Reals List ZArith Lra Lia.
From Verif Require Import Res ResP Vec VecP Sva JointM MultiBodyM IntegM Spec SpecDeriv SpecInteg SpecPrec JointP DerivP KinP IntegP IntegJointP IntegAllP IntegExactP IntegEndP PrecP Prec2P Prec3P.
Import ListNotations.
Open Scope R_scope.

Lemma co_ext (x y : list R) : length x = length y -> (forall k, (k < length x)%nat -> co x k = co y k) -> x = y.
Proof. intros L H. apply (nth_ext _ _ 0 0 L). exact H. Qed.
Lemma plain_within f t c a d q h prec q' : ~ curved t -> sizes t q a d -> jointIntegration f t a d h q prec = Ok q' -> c 0 = q -> length (c h) = tparams t ->
  (forall s k, (k < tparams t)%nat -> D (fun x => co (c x) k) s (co (qrate t (c s) (speeds s a d)) k)) -> q' = c h.
Proof.
  intros NC SZ E C0 LC HC. destruct (ji_drift _ _ _ _ _ _ _ _ SZ NC E) as (L & DR). destruct SZ as (Lq & La & Ld).
  apply co_ext; [congruence|]. intros k Hk. rewrite L in Hk. rewrite (DR k Hk). symmetry.
  transitivity (tht (co q k) (co a k) (co d k) h); [|unfold tht; ring].
  apply (same_deriv (fun s => co (c s) k) (tht (co q k) (co a k) (co d k)) (fun s => co a k + co d k * s)).
  - intro s. rewrite Lq in Hk. pose proof (HC s k Hk) as H. assert (HA : (k < length a)%nat) by (rewrite La; unfold curved in NC; destruct t; cbn [tparams tdof] in *; try (exfalso; now auto); lia).
    destruct (speeds_ok s a d) as (_ & S). specialize (S k HA). replace (co a k + co d k * s) with (co (speeds s a d) k) by (rewrite S; ring).
    eapply D_eq; [exact H|]. unfold curved in NC. destruct t; cbn [tparams qrate] in *; try (exfalso; now auto); try lia; destruct k as [|[|k]]; try reflexivity; lia.
  - intro s. apply D_tht.
  - rewrite C0. unfold tht. field.
Qed.
Lemma sph_within f c a d q h prec q' : sizes Spherical q a d -> quat_unit q -> 0 < prec -> one_axis Spherical a d -> jointIntegration f Spherical a d h q prec = Ok q' -> c 0 = q -> length (c h) = 4%nat ->
  (forall s k, (k < 4)%nat -> D (fun x => co (c x) k) s (co (qrate Spherical (c s) (speeds s a d)) k)) -> q' = c h.
Proof.
  intros (Lq & La & Ld) U P OA E C0 LC HC. cbn [tparams tdof one_axis] in *. destruct (common_axis _ _ OA) as (u & s0 & s1 & A).
  set (qi := quat_of q). assert (U' : qnorm2 qi = 1). { destruct (len4 q Lq) as (p0 & p1 & p2 & p3 & ->). exact U. }
  assert (QM : forall s, quat_of (c s) = Qt qi u s0 s1 s).
  { apply (quat_motion Spherical c a d qi u s0 s1); auto; [lia|now rewrite C0]. }
  destruct (len4 q Lq) as (p0 & p1 & p2 & p3 & Eq), (len3 a La) as (a0 & a1 & a2 & Ea), (len3 d Ld) as (d0 & d1 & d2 & Ed).
  rewrite Eq, Ea, Ed, ji_spherical in E. change (mkV3 a0 a1 a2) with (ang [a0; a1; a2]) in E. change (mkV3 d0 d1 d2) with (ang [d0; d1; d2]) in E.
  rewrite <- Ea, <- Ed in E. replace (mkQ p0 p1 p2 p3) with qi in E by (unfold qi; rewrite Eq; reflexivity).
  destruct f as [|f]; [discriminate|]. unfold sphericalJointIntegration in E; fold sphericalJointIntegration in E. rewrite (SO3_axis _ _ _ _ _ _ _ _ _ _ A P P) in E. cbn [snd fst bind] in E.
  fold (Qt qi u s0 s1 h) in E. rewrite (normalize1 _ (Qt_unit qi u s0 s1 h U' (proj1 A))), <- (QM h) in E. injection E as <-.
  destruct (len4 _ LC) as (z0 & z1 & z2 & z3 & ->). reflexivity.
Qed.
Lemma joint_within f t c a d q h prec q' : sizes t q a d -> unit_q t q -> 0 < prec -> 0 <= h -> one_axis t a d -> jointIntegration f t a d h q prec = Ok q' -> c 0 = q -> length (c h) = tparams t ->
  (forall s k, (k < tparams t)%nat -> D (fun x => co (c x) k) s (co (qrate t (c s) (speeds s a d)) k)) -> bent_at_ends t c h \/ steady_turn t d -> within prec t q' (c h).
Proof.
  intros SZ U P Hh OA E C0 LC HC B. destruct t.
  1,2,5,7: (eapply (plain_within f _ c a d q h prec q'); eauto; unfold curved; intros [X|[X|X]]; discriminate).
  - eapply (sph_within f c a d q h prec q'); eauto.
  - destruct SZ as (Lq & La & Ld). eapply (planar_within f c a d q h prec q'); eauto.
  - destruct SZ as (Lq & La & Ld). eapply (free_within f c a d q h prec q'); eauto.
Qed.
Lemma integrate_within fuel mb m h prec m' i j c : wf_mb mb -> mbc_ok mb m -> config_ok mb m -> 0 <= h -> 0 < prec ->
  integration fuel mb m h prec = Ok m' -> nth_error (mb_joints mb) i = Some j -> one_axis (jtyp j) (nth i (alpha m) []) (nth i (alphaD m) []) ->
  true_motion j (nth i (q m) []) (nth i (alpha m) []) (nth i (alphaD m) []) c -> bent_at_ends (jtyp j) c h \/ steady_turn (jtyp j) (nth i (alphaD m) []) ->
  within prec (jtyp j) (nth i (q m') []) (c h).
Proof.
  intros W K CK Hh P E EJ OA (C0 & LC & FO) B. destruct (nth_err _ _ jd _ EJ) as (Li & Ej).
  pose proof (integration_char mb m h prec (ok_q _ _ K) (ok_alpha _ _ K) (ok_alphaD _ _ K) fuel m' E) as (_ & _ & _ & DU & _).
  destruct (DU i Li) as (EI & _). pose proof (jt_sizes mb m W (ok_q _ _ K) (ok_alpha _ _ K) (ok_alphaD _ _ K) i Li) as SZ. rewrite Ej in *.
  assert (NU : unit_q (jtyp j) (nth i (q m) [])). { rewrite <- Ej. apply nth_unit; auto. exact (ok_q _ _ K). }
  assert (JO : jparams j = tparams (jtyp j)). { apply joint_ok_params. pose proof (jt_ok mb W i Li) as J. now rewrite Ej in J. }
  eapply (joint_within fuel (jtyp j) c); eauto.
  - now rewrite LC.
  - intros s k Hk. rewrite <- JO in Hk. exact (FO s _ (speeds_ok s _ _) k Hk).
Qed.
Lemma turn_axis t a d : steady_turn t d -> one_axis t a d.
Proof. destruct t; cbn; auto; intros ->; destruct (ang a) as [x y z]; unfold vcross, v0; cbn [vx vy vz]; f_equal; ring. Qed.
