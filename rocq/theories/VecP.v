(** Algebra of R^3. *)
From Coq Require Import Reals Lra.
From Verif Require Import Vec.
Open Scope R_scope.

Ltac v3 :=
  repeat match goal with
  | v : V3 |- _ => destruct v
  | m : M3 |- _ => destruct m
  end;
  unfold v0, vadd, vsub, vopp, vscale, vdot, vcross, unitX, unitY, unitZ,
    mid, mzero, madd, msub, mscale, mtr, mmul, mapp, mdet, mcross in *;
  cbn [vx vy vz m00 m01 m02 m10 m11 m12 m20 m21 m22] in *.
Ltac v3ring := intros; v3; try (f_equal; ring); try ring.

Lemma V3_ext a b : vx a = vx b -> vy a = vy b -> vz a = vz b -> a = b.
Proof. destruct a, b; simpl; congruence. Qed.
Lemma M3_ext A B :
  m00 A = m00 B -> m01 A = m01 B -> m02 A = m02 B ->
  m10 A = m10 B -> m11 A = m11 B -> m12 A = m12 B ->
  m20 A = m20 B -> m21 A = m21 B -> m22 A = m22 B -> A = B.
Proof. destruct A, B; simpl; congruence. Qed.

Lemma vadd_comm a b : vadd a b = vadd b a. Proof. v3ring. Qed.
Lemma vadd_assoc a b c : vadd a (vadd b c) = vadd (vadd a b) c. Proof. v3ring. Qed.
Lemma vadd_0_l a : vadd v0 a = a. Proof. v3ring. Qed.
Lemma vadd_0_r a : vadd a v0 = a. Proof. v3ring. Qed.
Lemma vscale_0 a : vscale 0 a = v0. Proof. v3ring. Qed.
Lemma vscale_1 a : vscale 1 a = a. Proof. v3ring. Qed.
Lemma vscale_v0 k : vscale k v0 = v0. Proof. v3ring. Qed.

Lemma mapp_id v : mapp mid v = v. Proof. v3ring. Qed.
Lemma mapp_v0 A : mapp A v0 = v0. Proof. v3ring. Qed.
Lemma mapp_add A a b : mapp A (vadd a b) = vadd (mapp A a) (mapp A b). Proof. v3ring. Qed.
Lemma mapp_sub A a b : mapp A (vsub a b) = vsub (mapp A a) (mapp A b). Proof. v3ring. Qed.
Lemma mapp_scale A k a : mapp A (vscale k a) = vscale k (mapp A a). Proof. v3ring. Qed.
Lemma mapp_mmul A B v : mapp (mmul A B) v = mapp A (mapp B v). Proof. v3ring. Qed.
Lemma mmul_assoc A B C : mmul A (mmul B C) = mmul (mmul A B) C. Proof. v3ring. Qed.
Lemma mmul_id_l A : mmul mid A = A. Proof. v3ring. Qed.
Lemma mmul_id_r A : mmul A mid = A. Proof. v3ring. Qed.
Lemma mtr_mmul A B : mtr (mmul A B) = mmul (mtr B) (mtr A). Proof. v3ring. Qed.
Lemma mtr_mtr A : mtr (mtr A) = A. Proof. v3ring. Qed.
Lemma mtr_id : mtr mid = mid. Proof. v3ring. Qed.
Lemma mdet_mmul A B : mdet (mmul A B) = mdet A * mdet B. Proof. v3ring. Qed.
Lemma mdet_mtr A : mdet (mtr A) = mdet A. Proof. v3ring. Qed.
Lemma vdot_mapp A a b : vdot a (mapp A b) = vdot (mapp (mtr A) a) b. Proof. v3ring. Qed.
Lemma vdot_comm a b : vdot a b = vdot b a. Proof. v3ring. Qed.
Lemma vdot_add_l a b c : vdot (vadd a b) c = vdot a c + vdot b c. Proof. v3ring. Qed.
Lemma vdot_add_r a b c : vdot a (vadd b c) = vdot a b + vdot a c. Proof. v3ring. Qed.
Lemma vdot_sub_r a b c : vdot a (vsub b c) = vdot a b - vdot a c. Proof. v3ring. Qed.
Lemma vdot_scale_l k a b : vdot (vscale k a) b = k * vdot a b. Proof. v3ring. Qed.
Lemma vdot_scale_r k a b : vdot a (vscale k b) = k * vdot a b. Proof. v3ring. Qed.
Lemma mapp_mcross a b : mapp (mcross a) b = vcross a b. Proof. v3ring. Qed.
Lemma vcross_anti a b : vcross a b = vopp (vcross b a). Proof. v3ring. Qed.
Lemma vcross_self a : vcross a a = v0. Proof. v3ring. Qed.
Lemma vdot_cross_cyc a b c : vdot a (vcross b c) = vdot b (vcross c a). Proof. v3ring. Qed.

(** Cofactor matrix. *)
Definition mcof (A : M3) : M3 := mkM3
  (m11 A * m22 A - m12 A * m21 A) (m12 A * m20 A - m10 A * m22 A) (m10 A * m21 A - m11 A * m20 A)
  (m02 A * m21 A - m01 A * m22 A) (m00 A * m22 A - m02 A * m20 A) (m01 A * m20 A - m00 A * m21 A)
  (m01 A * m12 A - m02 A * m11 A) (m02 A * m10 A - m00 A * m12 A) (m00 A * m11 A - m01 A * m10 A).

Lemma mcof_inv_r A : mmul A (mtr (mcof A)) = mscale (mdet A) mid.
Proof. unfold mcof. v3ring. Qed.
Lemma mcof_cross A a b : vcross (mapp A a) (mapp A b) = mapp (mcof A) (vcross a b).
Proof. unfold mcof. v3ring. Qed.
Lemma mscale_1 A : mscale 1 A = A. Proof. v3ring. Qed.

Lemma SO3_cof E : SO3 E -> mcof E = E.
Proof.
  intros [O D].
  assert (H : mtr (mcof E) = mtr E).
  { rewrite <- (mmul_id_l (mtr (mcof E))). rewrite <- O, <- mmul_assoc, mcof_inv_r, D, mscale_1.
    apply mmul_id_r. }
  rewrite <- (mtr_mtr (mcof E)), H. apply mtr_mtr.
Qed.

Lemma SO3_r E : SO3 E -> mmul E (mtr E) = mid.
Proof.
  intros H. rewrite <- (SO3_cof E H) at 2. rewrite mcof_inv_r.
  destruct H as [_ D]. rewrite D. apply mscale_1.
Qed.

Lemma SO3_l E : SO3 E -> mmul (mtr E) E = mid.
Proof. now intros [H _]. Qed.

Lemma SO3_id : SO3 mid. Proof. split; v3ring. Qed.
Lemma SO3_mul A B : SO3 A -> SO3 B -> SO3 (mmul A B).
Proof.
  intros HA HB. split.
  - rewrite mtr_mmul. rewrite <- mmul_assoc. rewrite (mmul_assoc (mtr A)).
    rewrite (SO3_l A HA), mmul_id_l. now apply SO3_l.
  - rewrite mdet_mmul. destruct HA as [_ ->], HB as [_ ->]. ring.
Qed.
Lemma SO3_tr A : SO3 A -> SO3 (mtr A).
Proof.
  intros H. split.
  - rewrite mtr_mtr. now apply SO3_r.
  - rewrite mdet_mtr. now destruct H.
Qed.

Lemma SO3_cross E a b : SO3 E -> vcross (mapp E a) (mapp E b) = mapp E (vcross a b).
Proof. intros. rewrite mcof_cross. now rewrite SO3_cof. Qed.

Lemma SO3_cancel_l E v : SO3 E -> mapp (mtr E) (mapp E v) = v.
Proof. intros. rewrite <- mapp_mmul, SO3_l by auto. apply mapp_id. Qed.
Lemma SO3_cancel_r E v : SO3 E -> mapp E (mapp (mtr E) v) = v.
Proof. intros. rewrite <- mapp_mmul, SO3_r by auto. apply mapp_id. Qed.

Lemma SO3_dot E a b : SO3 E -> vdot (mapp E a) (mapp E b) = vdot a b.
Proof. intros. rewrite vdot_mapp, SO3_cancel_l; auto. Qed.

Lemma vdot_nonneg a : 0 <= vdot a a.
Proof. v3. nra. Qed.
Lemma vdot_pos_eq0 a : vdot a a = 0 -> a = v0.
Proof. v3. intros. f_equal; nra. Qed.
