(** Spatial algebra lemmas. *)
From Coq Require Import Reals List Lra Psatz.
From Verif Require Import Vec VecP Sva.
Import ListNotations.
Open Scope R_scope.

Ltac sv :=
  repeat match goal with
  | v : SV |- _ => destruct v
  | X : PT |- _ => destruct X
  | I : RBI |- _ => destruct I
  | s : Sym3 |- _ => destruct s
  end;
  unfold sv0, svadd, svsub, svopp, svscale, svdot, scross, scrossDual,
    ptid, ptrot, pttr, ptmul, ptinv, ptm_ang, ptm_lin, ptm, ptinvm, ptdual, pttrans,
    pttransI, ptdualI, rbi0, rbiadd, rbim, sym_mat, sym_lower, sym_add, sym0 in *;
  cbn [sang slin rotE trR imass imom iine sxx sxy sxz syy syz szz] in *.
Ltac svf :=
  repeat match goal with
  | |- mkSV _ _ = mkSV _ _ => f_equal
  | |- mkPT _ _ = mkPT _ _ => f_equal
  | |- mkRBI _ _ _ = mkRBI _ _ _ => f_equal
  | |- mkSym _ _ _ _ _ _ = mkSym _ _ _ _ _ _ => f_equal
  | |- mkV3 _ _ _ = mkV3 _ _ _ => f_equal
  | |- mkM3 _ _ _ _ _ _ _ _ _ = mkM3 _ _ _ _ _ _ _ _ _ => f_equal
  end.
Ltac svring := intros; sv; v3; svf; ring.

Lemma SV_ext a b : sang a = sang b -> slin a = slin b -> a = b.
Proof. destruct a, b; simpl; congruence. Qed.
Lemma PT_ext a b : rotE a = rotE b -> trR a = trR b -> a = b.
Proof. destruct a, b; simpl; congruence. Qed.

Lemma svadd_comm a b : svadd a b = svadd b a. Proof. svring. Qed.
Lemma svadd_assoc a b c : svadd a (svadd b c) = svadd (svadd a b) c. Proof. svring. Qed.
Lemma svadd_0_l a : svadd sv0 a = a. Proof. svring. Qed.
Lemma svadd_0_r a : svadd a sv0 = a. Proof. svring. Qed.
Lemma svsub_def a b : svsub a b = svadd a (svscale (-1) b). Proof. svring. Qed.
Lemma svopp_def a : svopp a = svscale (-1) a. Proof. svring. Qed.
Lemma svscale_0 a : svscale 0 a = sv0. Proof. svring. Qed.
Lemma svscale_1 a : svscale 1 a = a. Proof. svring. Qed.
Lemma svscale_sv0 k : svscale k sv0 = sv0. Proof. svring. Qed.
Lemma svscale_add k a b : svscale k (svadd a b) = svadd (svscale k a) (svscale k b). Proof. svring. Qed.
Lemma svscale_svscale k l a : svscale k (svscale l a) = svscale (k * l) a. Proof. svring. Qed.
Lemma svscale_radd k l a : svscale (k + l) a = svadd (svscale k a) (svscale l a). Proof. svring. Qed.

Lemma svdot_comm a b : svdot a b = svdot b a. Proof. svring. Qed.
Lemma svdot_add_l a b c : svdot (svadd a b) c = svdot a c + svdot b c. Proof. svring. Qed.
Lemma svdot_add_r a b c : svdot a (svadd b c) = svdot a b + svdot a c. Proof. svring. Qed.
Lemma svdot_sub_l a b c : svdot (svsub a b) c = svdot a c - svdot b c. Proof. svring. Qed.
Lemma svdot_sub_r a b c : svdot a (svsub b c) = svdot a b - svdot a c. Proof. svring. Qed.
Lemma svdot_scale_l k a b : svdot (svscale k a) b = k * svdot a b. Proof. svring. Qed.
Lemma svdot_scale_r k a b : svdot a (svscale k b) = k * svdot a b. Proof. svring. Qed.
Lemma svdot_0_l a : svdot sv0 a = 0. Proof. svring. Qed.
Lemma svdot_0_r a : svdot a sv0 = 0. Proof. svring. Qed.

Lemma ptm_add X a b : ptm X (svadd a b) = svadd (ptm X a) (ptm X b). Proof. svring. Qed.
Lemma ptm_scale X k a : ptm X (svscale k a) = svscale k (ptm X a). Proof. svring. Qed.
Lemma ptm_sv0 X : ptm X sv0 = sv0. Proof. svring. Qed.
Lemma ptm_id a : ptm ptid a = a. Proof. svring. Qed.
Lemma pttrans_add X a b : pttrans X (svadd a b) = svadd (pttrans X a) (pttrans X b). Proof. svring. Qed.
Lemma pttrans_scale X k a : pttrans X (svscale k a) = svscale k (pttrans X a). Proof. svring. Qed.
Lemma pttrans_sv0 X : pttrans X sv0 = sv0. Proof. svring. Qed.
Lemma ptdual_add X a b : ptdual X (svadd a b) = svadd (ptdual X a) (ptdual X b). Proof. svring. Qed.
Lemma ptdual_scale X k a : ptdual X (svscale k a) = svscale k (ptdual X a). Proof. svring. Qed.
Lemma ptinvm_add X a b : ptinvm X (svadd a b) = svadd (ptinvm X a) (ptinvm X b). Proof. svring. Qed.
Lemma ptinvm_scale X k a : ptinvm X (svscale k a) = svscale k (ptinvm X a). Proof. svring. Qed.
Lemma ptinvm_sv0 X : ptinvm X sv0 = sv0. Proof. svring. Qed.

(** transMul is the adjoint of the motion transform (any E). *)
Lemma pttrans_adj X f m : svdot (pttrans X f) m = svdot f (ptm X m).
Proof. svring. Qed.

(** Group structure. *)
Definition rigid (X : PT) : Prop := SO3 (rotE X).

Lemma rigid_id : rigid ptid. Proof. apply SO3_id. Qed.
Lemma rigid_mul X Y : rigid X -> rigid Y -> rigid (ptmul X Y).
Proof. apply SO3_mul. Qed.
Lemma rigid_inv X : rigid X -> rigid (ptinv X).
Proof. apply SO3_tr. Qed.

Lemma ptmul_id_l X : ptmul ptid X = X. Proof. svring. Qed.
Lemma ptmul_id_r X : ptmul X ptid = X. Proof. svring. Qed.
Lemma ptmul_assoc X Y Z : ptmul X (ptmul Y Z) = ptmul (ptmul X Y) Z.
Proof.
  apply PT_ext; simpl. apply mmul_assoc.
  rewrite mtr_mmul, mapp_add, mapp_mmul. now rewrite vadd_assoc.
Qed.

Lemma vsub_self a : vsub a a = v0. Proof. v3ring. Qed.
Lemma vadd_opp a : vadd a (vopp a) = v0. Proof. v3ring. Qed.
Lemma vopp_add a : vadd (vopp a) a = v0. Proof. v3ring. Qed.
Lemma mapp_opp A a : mapp A (vopp a) = vopp (mapp A a). Proof. v3ring. Qed.
Lemma vopp_opp a : vopp (vopp a) = a. Proof. v3ring. Qed.

Lemma ptinv_l X : rigid X -> ptmul (ptinv X) X = ptid.
Proof.
  intros H. apply PT_ext; simpl. now apply SO3_l.
  rewrite mapp_opp. rewrite SO3_cancel_l by auto. apply vadd_opp.
Qed.
Lemma ptinv_r X : rigid X -> ptmul X (ptinv X) = ptid.
Proof.
  intros H. apply PT_ext; simpl. now apply SO3_r.
  rewrite mtr_mtr. apply vopp_add.
Qed.
Lemma ptinv_inv X : rigid X -> ptinv (ptinv X) = X.
Proof.
  intros H. apply PT_ext; simpl. apply mtr_mtr.
  rewrite mapp_opp, SO3_cancel_l by auto. apply vopp_opp.
Qed.
Lemma ptinv_mul X Y : rigid X -> rigid Y -> ptinv (ptmul X Y) = ptmul (ptinv Y) (ptinv X).
Proof.
  intros HX HY.
  transitivity (ptmul (ptmul (ptmul (ptinv Y) (ptinv X)) (ptmul X Y)) (ptinv (ptmul X Y))).
  - rewrite <- (ptmul_assoc (ptinv Y)). rewrite (ptmul_assoc (ptinv X)).
    rewrite ptinv_l by auto. rewrite ptmul_id_l. rewrite ptinv_l by auto. now rewrite ptmul_id_l.
  - rewrite <- ptmul_assoc. rewrite ptinv_r by (now apply rigid_mul). now rewrite ptmul_id_r.
Qed.

(** Action on motion vectors. *)
Lemma mapp_cross_tr E r w : SO3 E ->
  vcross (mapp (mtr E) r) w = mapp (mtr E) (vcross r (mapp E w)).
Proof.
  intros. rewrite <- (SO3_cancel_l E w) at 1 by auto.
  apply SO3_cross. now apply SO3_tr.
Qed.

Lemma ptm_mul X Y m : rigid Y -> ptm (ptmul X Y) m = ptm X (ptm Y m).
Proof.
  intros HY. apply SV_ext; simpl; rewrite mapp_mmul; auto.
  f_equal. set (E := rotE Y) in *.
  replace (vcross (vadd (trR Y) (mapp (mtr E) (trR X))) (sang m))
    with (vadd (vcross (trR Y) (sang m)) (vcross (mapp (mtr E) (trR X)) (sang m))) by v3ring.
  rewrite mapp_cross_tr by auto.
  replace (vsub (slin m) (vadd (vcross (trR Y) (sang m)) (mapp (mtr E) (vcross (trR X) (mapp E (sang m))))))
   with (vsub (vsub (slin m) (vcross (trR Y) (sang m))) (mapp (mtr E) (vcross (trR X) (mapp E (sang m))))) by v3ring.
  rewrite mapp_sub. now rewrite SO3_cancel_r.
Qed.

Lemma ptinvm_inv X m : rigid X -> ptinvm X m = ptm (ptinv X) m.
Proof.
  intros H. apply SV_ext; simpl; auto.
  set (E := rotE X) in *.
  rewrite mapp_sub.
  replace (mapp (mtr E) (vcross (vopp (mapp E (trR X))) (sang m)))
    with (vopp (mapp (mtr E) (vcross (mapp E (trR X)) (sang m)))) by v3ring.
  rewrite <- SO3_cross by (now apply SO3_tr).
  rewrite SO3_cancel_l by auto. v3ring.
Qed.

Lemma ptinvm_ptm X m : rigid X -> ptinvm X (ptm X m) = m.
Proof. intros. rewrite ptinvm_inv by auto. rewrite <- ptm_mul by auto. rewrite ptinv_l by auto. apply ptm_id. Qed.
Lemma ptm_ptinvm X m : rigid X -> ptm X (ptinvm X m) = m.
Proof. intros. rewrite ptinvm_inv by auto. rewrite <- ptm_mul by (now apply rigid_inv). rewrite ptinv_r by auto. apply ptm_id. Qed.

(** Duality of force and motion transforms. *)
Lemma ptdual_dot X f m : rigid X -> svdot (ptdual X f) (ptm X m) = svdot f m.
Proof.
  intros H. unfold svdot, ptdual, ptm; simpl. rewrite !SO3_dot by auto.
  svring.
Qed.
Lemma ptdual_adj X f m : svdot (ptdual X f) m = svdot f (ptinvm X m).
Proof. svring. Qed.

Lemma svdot_ext a b : (forall m, svdot a m = svdot b m) -> a = b.
Proof.
  intros H. destruct a as [[a1 a2 a3] [a4 a5 a6]], b as [[b1 b2 b3] [b4 b5 b6]].
  pose proof (H (mkSV unitX v0)) as H1. pose proof (H (mkSV unitY v0)) as H2. pose proof (H (mkSV unitZ v0)) as H3.
  pose proof (H (mkSV v0 unitX)) as H4. pose proof (H (mkSV v0 unitY)) as H5. pose proof (H (mkSV v0 unitZ)) as H6.
  unfold svdot in *; cbn [sang slin] in *; v3. svf; lra.
Qed.

Lemma ptdual_mul X Y f : rigid X -> rigid Y -> ptdual (ptmul X Y) f = ptdual X (ptdual Y f).
Proof.
  intros. apply svdot_ext. intros m.
  rewrite !ptdual_adj. rewrite !ptinvm_inv by (auto using rigid_mul).
  rewrite ptinv_mul by auto. rewrite ptm_mul by (now apply rigid_inv). auto.
Qed.
Lemma pttrans_dual_inv X f : rigid X -> pttrans X f = ptdual (ptinv X) f.
Proof.
  intros. apply svdot_ext. intros m. rewrite pttrans_adj, ptdual_adj.
  rewrite ptinvm_inv by (now apply rigid_inv). now rewrite ptinv_inv.
Qed.
Lemma pttrans_mul X Y f : rigid Y -> pttrans (ptmul X Y) f = pttrans Y (pttrans X f).
Proof. intros. apply svdot_ext. intros m. rewrite !pttrans_adj. now rewrite ptm_mul. Qed.
Lemma pttrans_dual X f : rigid X -> pttrans X (ptdual X f) = f.
Proof. intros. apply svdot_ext; intros. rewrite pttrans_adj. now apply ptdual_dot. Qed.
Lemma ptdual_trans X f : rigid X -> ptdual X (pttrans X f) = f.
Proof.
  intros. apply svdot_ext; intros. rewrite ptdual_adj, pttrans_adj. now rewrite ptm_ptinvm.
Qed.

(** Inertias. *)
Lemma rbim_add I a b : rbim I (svadd a b) = svadd (rbim I a) (rbim I b). Proof. svring. Qed.
Lemma rbim_scale I k a : rbim I (svscale k a) = svscale k (rbim I a). Proof. svring. Qed.
Lemma rbim_sv0 I : rbim I sv0 = sv0. Proof. svring. Qed.
Lemma rbim_rbiadd I J a : rbim (rbiadd I J) a = svadd (rbim I a) (rbim J a). Proof. svring. Qed.
Lemma rbim_rbi0 a : rbim rbi0 a = sv0. Proof. svring. Qed.
Lemma rbim_sym I a b : svdot (rbim I a) b = svdot (rbim I b) a. Proof. svring. Qed.
Lemma rbiadd_0_l I : rbiadd rbi0 I = I. Proof. svring. Qed.
Lemma rbiadd_comm I J : rbiadd I J = rbiadd J I. Proof. svring. Qed.
Lemma rbiadd_assoc I J K : rbiadd I (rbiadd J K) = rbiadd (rbiadd I J) K. Proof. svring. Qed.
Lemma rbiadd_0_r I : rbiadd I rbi0 = I. Proof. svring. Qed.

Lemma sym_mat_lower A : mtr A = A -> sym_mat (sym_lower A) = A.
Proof.
  intros H. destruct A. unfold mtr in H. simpl in H. inversion H; subst.
  unfold sym_mat, sym_lower; simpl. f_equal; auto.
Qed.

Lemma mtr_sym_mat s : mtr (sym_mat s) = sym_mat s. Proof. svring. Qed.
Lemma mtr_msub A B : mtr (msub A B) = msub (mtr A) (mtr B). Proof. v3ring. Qed.
Lemma mtr_madd A B : mtr (madd A B) = madd (mtr A) (mtr B). Proof. v3ring. Qed.
Lemma mapp_msub A B v : mapp (msub A B) v = vsub (mapp A v) (mapp B v). Proof. v3ring. Qed.
Lemma mapp_madd A B v : mapp (madd A B) v = vadd (mapp A v) (mapp B v). Proof. v3ring. Qed.

(** The transported inertia is the congruence X^T I X. *)
Lemma pttransI_spec X I m : rigid X -> rbim (pttransI X I) m = pttrans X (rbim I (ptm X m)).
Proof.
  intros H. destruct X as [E r], I as [mm h J], m as [w v]. unfold rigid in H; simpl in H.
  unfold pttransI, rbim, pttrans, ptm. cbn [imass imom iine rotE trR sang slin].
  set (Eh := mapp (mtr E) h).
  rewrite sym_mat_lower.
  2:{ rewrite !mtr_msub, !mtr_mmul, mtr_sym_mat, mtr_mtr, mmul_assoc.
      clearbody Eh. generalize (mmul (mmul (mtr E) (sym_mat J)) E) as K. intros. v3ring. }
  assert (C : forall x, vcross Eh x = mapp (mtr E) (vcross h (mapp E x))).
  { intros. unfold Eh. now apply mapp_cross_tr. }
  f_equal.
  - rewrite !mapp_msub, !mapp_mmul, !mapp_mcross.
    rewrite mapp_add.
    rewrite <- (C (vsub v (vcross r w))).
    replace (mapp (mtr E) (vsub (vscale mm (mapp E (vsub v (vcross r w)))) (vcross h (mapp E w))))
      with (vsub (vscale mm (mapp (mtr E) (mapp E (vsub v (vcross r w))))) (mapp (mtr E) (vcross h (mapp E w)))) by (rewrite (mapp_sub (mtr E)), (mapp_scale (mtr E)); reflexivity).
    rewrite <- (C w). rewrite SO3_cancel_l by auto.
    generalize (mapp (mtr E) (mapp (sym_mat J) (mapp E w))) as K. clearbody Eh. intros. v3ring.
  - rewrite (mapp_sub (mtr E)), (mapp_scale (mtr E)), <- (C w). rewrite SO3_cancel_l by auto.
    clearbody Eh. v3ring.
Qed.

Lemma RBI_ext I J : (forall m, rbim I m = rbim J m) -> I = J.
Proof.
  intros H. destruct I as [m1 [a1 a2 a3] [b1 b2 b3 b4 b5 b6]], J as [m2 [c1 c2 c3] [d1 d2 d3 d4 d5 d6]].
  pose proof (H (mkSV unitX v0)) as H1. pose proof (H (mkSV unitY v0)) as H2. pose proof (H (mkSV unitZ v0)) as H3.
  pose proof (H (mkSV v0 unitX)) as H4.
  unfold rbim, sym_mat in *; cbn [sang slin imass imom iine sxx sxy sxz syy syz szz] in *; v3.
  injection H1; injection H2; injection H3; injection H4; intros.
  svf; lra.
Qed.

(** dualMul of an inertia is transMul by the inverse transform. *)
Lemma ptdualI_spec X I m : rigid X -> rbim (ptdualI X I) m = ptdual X (rbim I (ptinvm X m)).
Proof.
  intros H. destruct X as [E r], I as [mm h J], m as [w v]. unfold rigid in H; simpl in H.
  unfold ptdualI, rbim, ptdual, ptinvm. cbn [imass imom iine rotE trR sang slin].
  set (h' := vsub h (vscale mm r)).
  set (K := madd (madd (sym_mat J) (mmul (mcross r) (mcross h))) (mmul (mcross h') (mcross r))).
  rewrite sym_mat_lower.
  2:{ rewrite !mtr_mmul, mtr_mtr, mmul_assoc. f_equal. f_equal.
      unfold K. rewrite !mtr_madd, mtr_sym_mat. unfold h'. clear. generalize (sym_mat J). intros. v3ring. }
  assert (C : forall a x, vcross (mapp E a) x = mapp E (vcross a (mapp (mtr E) x))).
  { intros. rewrite <- SO3_cross by auto. now rewrite SO3_cancel_r. }
  rewrite !C. rewrite !mapp_mmul. 
  set (w' := mapp (mtr E) w). set (v' := mapp (mtr E) v).
  assert (Ev : v = mapp E v') by (unfold v'; now rewrite SO3_cancel_r).
  rewrite Ev. clearbody v'. clear C Ev v.
  rewrite <- mapp_add, <- mapp_scale, <- mapp_sub.
  clearbody w'. f_equal; f_equal; unfold K, h'.
  - rewrite !mapp_madd, !mapp_mmul, !mapp_mcross. generalize (mapp (sym_mat J) w') as Q. intros. v3ring.
  - v3ring.
Qed.

Lemma ptdualI_transI X I : rigid X -> ptdualI X I = pttransI (ptinv X) I.
Proof.
  intros H. apply RBI_ext. intros m.
  rewrite ptdualI_spec by auto. rewrite pttransI_spec by (now apply rigid_inv).
  rewrite <- ptinvm_inv by auto. rewrite pttrans_dual_inv by (now apply rigid_inv). now rewrite ptinv_inv.
Qed.

Lemma pttransI_add X I J : rigid X -> pttransI X (rbiadd I J) = rbiadd (pttransI X I) (pttransI X J).
Proof.
  intros. apply RBI_ext; intros. rewrite rbim_rbiadd, !pttransI_spec by auto.
  now rewrite rbim_rbiadd, pttrans_add.
Qed.
Lemma pttransI_mul X Y I : rigid X -> rigid Y -> pttransI (ptmul X Y) I = pttransI Y (pttransI X I).
Proof.
  intros. apply RBI_ext; intros. rewrite !pttransI_spec by (auto using rigid_mul).
  rewrite ptm_mul, pttrans_mul by auto. auto.
Qed.

(** 6 x n matrix times vector. *)
Lemma smul_dot S x f : length S = length x ->
  svdot f (smul S x) = fold_right Rplus 0 (map (fun p => snd p * svdot f (fst p)) (combine S x)).
Proof.
  revert x; induction S; destruct x; simpl; intros; try discriminate.
  - apply svdot_0_r.
  - rewrite svdot_add_r, svdot_scale_r. f_equal. apply IHS. congruence.
Qed.

Lemma rbim_ext_mass I m : slin (rbim I (mkSV v0 m)) = vscale (imass I) m.
Proof. svring. Qed.

(** Cross products are compatible with transforms. *)
Lemma scross_ptm X a b : rigid X -> ptm X (scross a b) = scross (ptm X a) (ptm X b).
Proof.
  intros H. destruct X as [E r], a as [w v], b as [w2 v2]. unfold rigid in H; simpl in H.
  unfold ptm, scross; cbn [sang slin rotE trR].
  f_equal.
  - now rewrite SO3_cross.
  - rewrite !SO3_cross by auto. rewrite <- mapp_add. f_equal. v3ring.
Qed.

Lemma scrossDual_adj a f m : svdot (scrossDual a f) m = - svdot f (scross a m).
Proof. svring. Qed.
Lemma scross_self a : scross a a = sv0. Proof. svring. Qed.
Lemma scross_anti a b : scross a b = svscale (-1) (scross b a). Proof. svring. Qed.
Lemma scross_add_l a b c : scross (svadd a b) c = svadd (scross a c) (scross b c). Proof. svring. Qed.
Lemma scross_add_r a b c : scross a (svadd b c) = svadd (scross a b) (scross a c). Proof. svring. Qed.
Lemma scross_scale_l k a b : scross (svscale k a) b = svscale k (scross a b). Proof. svring. Qed.
Lemma scross_scale_r k a b : scross a (svscale k b) = svscale k (scross a b). Proof. svring. Qed.
Lemma scrossDual_add_r a b c : scrossDual a (svadd b c) = svadd (scrossDual a b) (scrossDual a c). Proof. svring. Qed.
Lemma scrossDual_scale_r k a b : scrossDual a (svscale k b) = svscale k (scrossDual a b). Proof. svring. Qed.

(** Rotations. *)
Lemma SO3_RotX t : SO3 (RotX t).
Proof. pose proof (sin2_cos2 t) as H; unfold Rsqr in H.
  split; unfold RotX, mtr, mmul, mid, mdet; simpl; [f_equal|]; nra. Qed.
Lemma SO3_RotY t : SO3 (RotY t).
Proof. pose proof (sin2_cos2 t) as H; unfold Rsqr in H.
  split; unfold RotY, mtr, mmul, mid, mdet; simpl; [f_equal|]; nra. Qed.
Lemma SO3_RotZ t : SO3 (RotZ t).
Proof. pose proof (sin2_cos2 t) as H; unfold Rsqr in H.
  split; unfold RotZ, mtr, mmul, mid, mdet; simpl; [f_equal|]; nra. Qed.
