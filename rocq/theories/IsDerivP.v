(** Proofs about the derivatives of the torques of inverse statics: matrices and algebra. *)
From Coq Require Import Reals String ZArith Bool Arith Lia Lra List.
From Verif Require Import Res ResP Vec VecP Sva SvaP Mat JointM JointP MultiBodyM KinM DynM JacM CoMM MomM ISM Spec SpecDyn SpecJac SpecDeriv TreeP DynP CoMP MomP DerivP DerivTreeP MomTopP.
Import ListNotations.
Open Scope R_scope.

(** A six-row matrix times a vector. *)
Definition mv6 (M : Mat) (x : list R) : SV := vsum (mcols M) (fun c => svscale (nth c x 0) (svcol M c)).
Definition slinear (F : SV -> SV) : Prop := (forall a b, F (svadd a b) = svadd (F a) (F b)) /\ (forall k a, F (svscale k a) = svscale k (F a)).
Lemma slinear_0 F : slinear F -> F sv0 = sv0.
Proof. intros (_ & H). rewrite <- (svscale_0 sv0), H. now rewrite !svscale_0. Qed.
Lemma slinear_vsum F n f : slinear F -> F (vsum n f) = vsum n (fun i => F (f i)).
Proof. intro L. induction n as [|n IH]; cbn [vsum]; [now apply slinear_0|]. rewrite (proj1 L). now rewrite IH. Qed.
Lemma svcoef_col M r c : (r < 6)%nat -> svcoef r (svcol M c) = ment M r c.
Proof. intro H. do 6 (destruct r as [|r]; [reflexivity|]). lia. Qed.
Lemma mv6_coef M x r : (r < 6)%nat -> svcoef r (mv6 M x) = mat_vec M x r.
Proof.
  intro H. unfold mv6, mat_vec. rewrite svcoef_vsum. apply rsum_ext. intros c Hc. rewrite (proj2 (sv_coef r)), svcoef_col by auto. apply Rmult_comm.
Qed.
Lemma svcol_coef (B : nat -> SV) a b c : svcol (mkMat a b (fun r c => svcoef r (B c))) c = B c.
Proof. apply SV_coef. intros r Hr. now rewrite svcoef_col. Qed.
Lemma mv6_map F M x a : slinear F -> mv6 (mkMat a (mcols M) (map_cols F M)) x = F (mv6 M x).
Proof.
  intro L. unfold mv6, map_cols. cbn [mcols]. rewrite slinear_vsum by auto. apply vsum_ext. intros c Hc. rewrite svcol_coef. now rewrite (proj2 L).
Qed.
Lemma svcol_add A B a b c : svcol (mkMat a b (fun r c => ment A r c + ment B r c)) c = svadd (svcol A c) (svcol B c).
Proof. reflexivity. Qed.
Lemma svscale_add k u v : svscale k (svadd u v) = svadd (svscale k u) (svscale k v).
Proof. destruct u as [[? ? ?] [? ? ?]], v as [[? ? ?] [? ? ?]]. svring. Qed.
Lemma mv6_add A B x : mcols A = mcols B -> mv6 (mkMat (mrows A) (mcols A) (fun r c => ment A r c + ment B r c)) x = svadd (mv6 A x) (mv6 B x).
Proof.
  intro E. unfold mv6. cbn [mcols]. rewrite <- E, <- vsum_add. apply vsum_ext. intros c Hc. rewrite svcol_add. apply svscale_add.
Qed.
Lemma vsum_window n a l f : (a + l <= n)%nat -> vsum n (fun c => if ((a <=? c) && (c <? a + l))%nat then f c else sv0) = vsum l (fun d => f (a + d)%nat).
Proof.
  intro H. apply svdot_ext. intro u. rewrite !vsum_dot. rewrite <- (JacBlkP.rsum_window n a l (fun c => svdot (f c) u)) by auto.
  apply rsum_ext. intros c Hc. destruct (_ && _); auto. apply svdot_0_l.
Qed.
Lemma smul_vsum S : forall x, length x = length S -> smul S x = vsum (length S) (fun d => svscale (nth d x 0) (nth d S sv0)).
Proof.
  intros x L. apply SV_coef. intros r Hr. rewrite svcoef_vsum, (linear_smul (svcoef r) S (sv_coef r)) by lia.
  apply rsum_ext. intros d Hd. rewrite (proj2 (sv_coef r)). apply Rmult_comm || reflexivity.
Qed.
(** A block of columns is added. *)
Lemma mv6_block M pos F (S : list SV) x (y : list R) : slinear F -> mrows M = 6%nat -> (pos + length S <= mcols M)%nat -> length y = length S ->
  (forall d, (d < length S)%nat -> nth (pos + d) x 0 = nth d y 0) ->
  exists M', add_block M 0 pos 6 (length S) (fun r c => - svcoef r (F (nth c S sv0))) = Ok M' /\ mrows M' = 6%nat /\ mcols M' = mcols M /\
    mv6 M' x = svsub (mv6 M x) (F (smul S y)).
Proof.
  intros L MR H LY HX. unfold add_block. rewrite MR. rewrite (proj2 (andb_true_iff _ _)) by (split; apply Nat.leb_le; lia).
  eexists. split; [reflexivity|]. split; [reflexivity|]. split; [reflexivity|]. unfold mv6 at 1. cbn [mcols].
  rewrite (vsum_ext _ _ (fun c => svadd (svscale (nth c x 0) (svcol M c)) (if ((pos <=? c) && (c <? pos + length S))%nat then svscale (- nth c x 0) (F (nth (c - pos) S sv0)) else sv0))).
  2:{ intros c Hc. apply SV_coef. intros r Hr. rewrite (proj1 (sv_coef r)), !(proj2 (sv_coef r)), !svcoef_col by auto. cbn [ment]. unfold in_block. cbn [Nat.leb Nat.add]. rewrite (proj2 (Nat.ltb_lt r 6) Hr). cbn [andb].
      rewrite Nat.sub_0_r. destruct ((pos <=? c)%nat && (c <? pos + length S)%nat).
      - rewrite (proj2 (sv_coef r)). ring.
      - rewrite (linear_0 _ (sv_coef r)). ring. }
  rewrite vsum_add, vsum_window by auto. fold (mv6 M x). rewrite smul_vsum, (slinear_vsum F) by auto.
  rewrite (vsum_ext (length S) (fun d => svscale (- nth (pos + d) x 0) (F (nth (pos + d - pos) S sv0))) (fun d => svscale (-1) (F (svscale (nth d y 0) (nth d S sv0))))).
  2:{ intros d Hd. rewrite HX by auto. replace (pos + d - pos)%nat with d by lia. rewrite (proj2 L). generalize (F (nth d S sv0)) as v. intros [[? ? ?] [? ? ?]]. svring. }
  rewrite <- vsum_scale. generalize (mv6 M x), (vsum (length S) (fun i => F (svscale (nth i y 0) (nth i S sv0)))). intros [[? ? ?] [? ? ?]] [[? ? ?] [? ? ?]]. svring.
Qed.

(** ** Algebra *)
Lemma m6app_linear A B C D : slinear (m6app A B C D).
Proof.
  split; intros; unfold m6app; apply SV_ext; cbn [sang slin svadd svscale]; rewrite ?mapp_add, ?mapp_scale; generalize (mapp A (sang a)), (mapp B (slin a)), (mapp C (sang a)), (mapp D (slin a)); try generalize (mapp A (sang b)), (mapp B (slin b)), (mapp C (sang b)), (mapp D (slin b)); clear; intros; v3ring.
Qed.
Lemma transMat_eq X v : transMat X v = pttrans X v.
Proof.
  unfold transMat, m6app, pttrans. apply SV_ext; cbn [sang slin].
  - f_equal. rewrite mapp_mmul. generalize (mapp (mtr (rotE X)) (slin v)). generalize (trR X). clear. intros. v3ring.
  - generalize (mapp (mtr (rotE X)) (slin v)), (sang v). clear. intros. v3ring.
Qed.
Lemma pttrans_linear X : slinear (pttrans X).
Proof.
  split; intros; rewrite <- !transMat_eq; apply m6app_linear.
Qed.
Lemma ptdual_linear X : slinear (ptdual X).
Proof.
  assert (E : forall v, ptdual X v = m6app (rotE X) (mscale (-1) (mmul (rotE X) (mcross (trR X)))) mzero (rotE X) v).
  { intro v. unfold ptdual, m6app. apply SV_ext; cbn [sang slin]; generalize (rotE X), (trR X), (sang v), (slin v); clear; intros; v3ring. }
  split; intros; rewrite !E; apply m6app_linear.
Qed.
Lemma is_MN_linear Xw I a0 fe : slinear (is_MN Xw I a0 fe).
Proof.
  unfold is_MN. cbv zeta.
  match goal with |- slinear (fun v => svsub (rbim I (m6app ?a ?b ?c ?d v)) (m6app ?e ?f ?g ?h v)) => generalize (m6app_linear a b c d), (m6app_linear e f g h); generalize (m6app a b c d), (m6app e f g h) end.
  intros P Q (P1 & P2) (Q1 & Q2). split; intros.
  - rewrite P1, Q1. generalize (P a), (P b), (Q a), (Q b). intros p p' q0 q'. assert (E : rbim I (svadd p p') = svadd (rbim I p) (rbim I p')) by apply rbim_add. rewrite E.
    generalize (rbim I p), (rbim I p'). intros [[? ? ?] [? ? ?]] [[? ? ?] [? ? ?]]. destruct q0 as [[? ? ?] [? ? ?]], q' as [[? ? ?] [? ? ?]]. svring.
  - rewrite P2, Q2. rewrite rbim_scale. generalize (rbim I (P a)), (Q a). intros [[? ? ?] [? ? ?]] [[? ? ?] [? ? ?]]. svring.
Qed.
Lemma is_MJ_linear Xj f : slinear (is_MJ Xj f).
Proof. unfold is_MJ. cbv zeta. apply m6app_linear. Qed.

Lemma deriv_ptdual X u t V u' : moves X t V -> SO3 (rotE (X t)) -> derivS u t u' ->
  derivS (fun s => ptdual (X s) (u s)) t (svsub (ptdual (X t) u') (scrossDual V (ptdual (X t) (u t)))).
Proof.
  intros (MX & VX) SX (A & B). split; cbn [ptdual sang slin svsub scrossDual].
  - eapply derivV_eq; [apply derivV_app; [eassumption|apply derivV_sub; [eassumption|apply derivV_cross; eassumption]]|].
    cbv beta. rewrite mapp_mmul.
    set (p := mapp (rotE (X t)) (slin (u t))). set (w := mapp (rotE (X t)) (vsub (sang (u t)) (vcross (trR (X t)) (slin (u t))))).
    rewrite !mapp_sub, mapp_add.
    rewrite <- (SO3_cross (rotE (X t)) (mapp (mtr (rotE (X t))) (slin V)) (slin (u t)) SX).
    rewrite SO3_cancel_r by auto. fold p.
    generalize (mapp (rotE (X t)) (sang u')), (mapp (rotE (X t)) (vcross (trR (X t)) (slin u'))). intros a b.
    clearbody p w. destruct V. svring.
  - eapply derivV_eq; [apply derivV_app; eassumption|]. rewrite mapp_mmul.
    generalize (mapp (rotE (X t)) (slin (u t))), (mapp (rotE (X t)) (slin u')). intros a b.
    destruct (sang V). svring.
Qed.
Lemma mcross_app a b : mapp (mcross a) b = vcross a b. Proof. v3ring. Qed.
Lemma MN_alg X I g F V : SO3 (rotE X) ->
  is_MN X I (mkSV v0 g) F (point_velocity X v0 V) =
  svsub (rbim I (svsub (ptm X sv0) (scross V (ptm X (mkSV v0 g))))) (svopp (scrossDual V (ptdual X F))).
Proof.
  intro SX. unfold is_MN. cbv zeta. f_equal; [f_equal|].
  - apply SV_ext; unfold m6app, point_velocity; cbn [sang slin ptm svsub scross sv0].
    + rewrite mapp_mmul, mcross_app. generalize (mapp (mtr (rotE X)) (sang V)), (mapp (mtr (rotE X)) (vadd (slin V) (vcross (sang V) v0))). generalize (rotE X). generalize (sang V). clear. intros. v3ring.
    + rewrite !mapp_mmul, !mcross_app.
      assert (E : mapp (madd (mscale (-1) (mcross (vcross (trR X) v0))) (mcross g)) (mapp (mtr (rotE X)) (sang V)) = vcross g (mapp (mtr (rotE X)) (sang V))).
      { generalize (mapp (mtr (rotE X)) (sang V)), (trR X). clear. intros. v3ring. } rewrite E.
      rewrite <- SO3_cross, SO3_cancel_r by auto.
      assert (E2 : vsub g (vcross (trR X) v0) = g) by (generalize (trR X); clear; intros; v3ring). rewrite E2.
      generalize (mapp (mtr (rotE X)) (vadd (slin V) (vcross (sang V) v0))) as z. intro z.
      assert (E3 : vcross v0 z = v0) by (clear; v3ring). rewrite E3.
      generalize (mapp (rotE X) g) as y. generalize (rotE X), (trR X), V. clear. intros E t [w v] y. cbn [sang slin]. v3ring.
  - apply SV_ext; unfold m6app, point_velocity; cbn [sang slin ptdual scrossDual svopp].
    + rewrite !mapp_mmul, !mcross_app.
      assert (E : mapp (msub (mcross (sang F)) (mcross (vcross (trR X) (slin F)))) (mapp (mtr (rotE X)) (sang V)) = vcross (vsub (sang F) (vcross (trR X) (slin F))) (mapp (mtr (rotE X)) (sang V))).
      { generalize (mapp (mtr (rotE X)) (sang V)), (vcross (trR X) (slin F)), (sang F). clear. intros. v3ring. } rewrite E.
      rewrite <- !SO3_cross, !SO3_cancel_r by auto. generalize (mapp (rotE X) (vsub (sang F) (vcross (trR X) (slin F)))), (mapp (rotE X) (slin F)), (sang V), (slin V). clear. intros. v3ring.
    + rewrite !mapp_mmul, !mcross_app. rewrite <- SO3_cross, SO3_cancel_r by auto.
      generalize (mapp (rotE X) (slin F)), (sang V), (mapp (mtr (rotE X)) (vadd (slin V) (vcross (sang V) v0))). clear. intros. v3ring.
Qed.
(** The derivative of the force on one body. *)
Lemma local_deriv X I g F t V F' : moves X t V -> SO3 (rotE (X t)) -> derivS F t F' ->
  derivS (fun s => svsub (rbim I (ptm (X s) (mkSV v0 g))) (ptdual (X s) (F s))) t
    (svsub (is_MN (X t) I (mkSV v0 g) (F t) (point_velocity (X t) v0 V)) (ptdual (X t) F')).
Proof.
  intros MX SX DF. eapply derivS_eq.
  - apply derivS_sub; [apply deriv_rbim; apply (deriv_ptm X (fun _ => mkSV v0 g) t V sv0 MX SX (derivS_const _ t))|apply deriv_ptdual; eassumption].
  - rewrite MN_alg by auto. generalize (rbim I (svsub (ptm (X t) sv0) (scross V (ptm (X t) (mkSV v0 g))))), (scrossDual V (ptdual (X t) (F t))), (ptdual (X t) F'). clear. intros [[? ? ?] [? ? ?]] [[? ? ?] [? ? ?]] [[? ? ?] [? ? ?]]. svring.
Qed.
(** The joint term, for joints that turn about an axis they leave in place. *)
Lemma MJ_alg Xj f V : SO3 (rotE Xj) -> slin V = v0 -> mapp (mtr (rotE Xj)) (sang V) = sang V ->
  pttrans Xj (scrossDual V f) = svopp (is_MJ Xj f V).
Proof.
  intros SX L0 AX. unfold is_MJ, pttrans, m6app. cbv zeta. apply SV_ext; cbn [sang slin scrossDual svopp]; rewrite L0.
  - assert (E : vadd (vcross (sang V) (sang f)) (vcross v0 (slin f)) = vcross (sang V) (sang f)) by (generalize (vcross (sang V) (sang f)), (slin f); clear; intros; v3ring). rewrite E.
    rewrite <- !SO3_cross by now apply SO3_tr. rewrite AX.
    generalize (mapp (mtr (rotE Xj)) (sang f)), (mapp (mtr (rotE Xj)) (slin f)), (sang V), (trR Xj). clear. intros a b c d. unfold mouter. v3ring.
  - rewrite <- !SO3_cross by now apply SO3_tr. rewrite AX. generalize (mapp (mtr (rotE Xj)) (slin f)), (sang V). clear. intros. v3ring.
Qed.
