(** The Jacobian's derivative and the derivative of points, along trajectories. *)
From Coq Require Import Reals String ZArith Bool Arith List Lia Lra.
From Verif Require Import Res ResP SMap Vec VecP Sva SvaP Mat JointM MultiBodyM KinM DynM JacM Spec SpecDyn SpecJac
  JointP KinP KinPathP MbP TreeP DynP DynCP ConvP KinFinP SpecDeriv DerivP DerivTreeP JacP JacFinP JacFin2P.
Import ListNotations.
Open Scope R_scope.

Lemma mtr_mscale k A : mtr (mscale k A) = mscale k (mtr A). Proof. v3ring. Qed.
Lemma mtr_mcross w : mtr (mcross w) = mscale (-1) (mcross w). Proof. v3ring. Qed.
Lemma mscale_m1_m1 A : mscale (-1) (mscale (-1) A) = A. Proof. v3ring. Qed.
Lemma mcross_opp w : mscale (-1) (mcross (vopp w)) = mcross w. Proof. v3ring. Qed.

Lemma deriv_tr_rot E t w : SO3 (E t) -> derivM E t (mmul (mscale (-1) (mcross w)) (E t)) ->
  derivM (fun s => mtr (E s)) t (mmul (mscale (-1) (mcross (vopp (mapp (mtr (E t)) w)))) (mtr (E t))).
Proof.
  intros SE D. eapply derivM_eq; [apply derivM_tr; exact D|].
  rewrite mtr_mmul, mtr_mscale, mtr_mcross, mscale_m1_m1, mcross_opp. symmetry. apply skew_conj. now apply SO3_tr.
Qed.
Lemma moves_rot_tr X t V : SO3 (rotE (X t)) -> moves X t V ->
  moves (fun s => ptrot (mtr (rotE (X s)))) t (mkSV (vopp (mapp (mtr (rotE (X t))) (sang V))) v0).
Proof.
  intros SX (A & B). split; cbn [ptrot rotE trR sang slin].
  - now apply deriv_tr_rot.
  - rewrite mapp_v0. apply derivV_const.
Qed.
Lemma inv_tr_alg w e v : vopp (vadd (mapp (mscale (-1) (mcross w)) e) v) = vopp (vsub v (vcross w e)).
Proof. v3ring. Qed.
Lemma derivV_opp f t d : derivV f t d -> derivV (fun s => vopp (f s)) t (vopp d).
Proof. intros (a & b & c). repeat split; cbn [vopp vx vy vz]; now apply D_opp. Qed.
Lemma moves_inv X t V : SO3 (rotE (X t)) -> moves X t V ->
  moves (fun s => ptinv (X s)) t (svscale (-1) (ptm (ptinv (X t)) V)).
Proof.
  intros SX (A & B). split; cbn [ptinv ptm rotE trR svscale sang slin].
  - replace (vscale (-1) (mapp (mtr (rotE (X t))) (sang V))) with (vopp (mapp (mtr (rotE (X t))) (sang V)))
      by (generalize (mapp (mtr (rotE (X t))) (sang V)); clear; v3ring).
    now apply deriv_tr_rot.
  - eapply derivV_eq; [apply derivV_opp, derivV_app; eassumption|]. cbv beta.
    rewrite mtr_mtr, mapp_scale, SO3_cancel_r by auto. rewrite mapp_mmul, SO3_cancel_r by auto.
    generalize (mapp (rotE (X t)) (trR (X t))). intro e. destruct V as [w v]. cbn [sang slin]. clear. v3ring.
Qed.

Lemma deriv_ptm_const X c t V : moves X t V -> SO3 (rotE (X t)) ->
  derivS (fun s => ptm (X s) c) t (svscale (-1) (scross V (ptm (X t) c))).
Proof.
  intros M S. eapply derivS_eq; [apply (deriv_ptm X (fun _ => c) t V sv0); auto; apply derivS_const|].
  rewrite ptm_sv0, svsub_def, svadd_0_l. reflexivity.
Qed.

Lemma concat_pairs {A B C} (f : A -> B -> C) (S : A -> list B) l :
  concat (map (fun k => map (f k) (S k)) l) = map (fun kc => f (fst kc) (snd kc)) (concat (map (fun k => map (pair k) (S k)) l)).
Proof.
  rewrite map_concat_map. f_equal. apply map_ext. intro k. now rewrite map_map.
Qed.
Lemma deriv_concat (f : R -> nat -> SV -> SV) (g : nat -> SV -> SV) (S : nat -> list SV) l t :
  (forall k c, In k l -> derivS (fun s => f s k c) t (g k c)) ->
  forall n, derivS (fun s => nth n (concat (map (fun k => map (f s k) (S k)) l)) sv0) t
                   (nth n (concat (map (fun k => map (g k) (S k)) l)) sv0).
Proof.
  intros H n. rewrite concat_pairs.
  eapply derivS_ext; [intro s; rewrite concat_pairs; reflexivity|].
  set (L := concat (map (fun k => map (pair k) (S k)) l)).
  destruct (Nat.lt_ge_cases n (length L)) as [Hn|Hn].
  - rewrite (nth_map_lt _ _ _ (0%nat, sv0)) by auto.
    eapply derivS_ext; [intro s; rewrite (nth_map_lt _ _ _ (0%nat, sv0)) by auto; reflexivity|].
    apply H. pose proof (nth_In L (0%nat, sv0) Hn) as I. unfold L in I at 2. apply in_concat in I.
    destruct I as (x & Hx & I). apply in_map_iff in Hx. destruct Hx as (k & <- & Hk). apply in_map_iff in I.
    destruct I as (c & E & _). rewrite <- E. exact Hk.
  - rewrite nth_overflow by (rewrite map_length; auto).
    eapply derivS_ext; [intro s; rewrite nth_overflow by (rewrite map_length; auto); reflexivity|]. apply derivS_const.
Qed.

Section Traj.
Variables (mb : MultiBody) (M K : R -> MBC) (t : R).
Hypothesis W : wf_mb mb.
Hypothesis RM : rigid_mb mb.
Hypothesis OK : forall s, mbc_ok mb (M s).
Hypothesis CO : forall s, config_ok mb (M s).
Hypothesis AK : forall s, after_kinematics mb (M s) (K s).
Hypothesis JM : forall i X, (i < nrBodies mb)%nat ->
  (forall s, pose (nth i (mb_joints mb) jd) (nth i (q (M s)) []) = Ok (X s)) ->
  moves X t (smul (jS (nth i (mb_joints mb) jd)) (nth i (alpha (M t)) [])).
Let RU : forall s, run mb (M s) (K s) := fun s => kin_run mb (M s) (K s) W RM (OK s) (CO s) (AK s).

Variables (i : nat) (p : V3) (J : Jac).
Hypothesis H : jacobian_of mb i p J.
Let RP := jo_path _ _ _ _ H.
Let Hi : (i < nrBodies mb)%nat := proj1 (root_path_lt _ _ _ W RP).

Notation X s := (posW (K s) i).

(** The world position of the point. *)
Lemma point_deriv :
  derivV (fun s => point_position (X s) p) t (slin (point_velocity (X t) p (vb (K t) i))).
Proof.
  pose proof (body_moves mb M K t W RM OK CO AK JM i Hi) as MV.
  pose proof (r_rw _ _ _ (RU t) i Hi) as RX.
  destruct (moves_world (fun s => X s) t (vb (K t) i) RX MV) as (A & B).
  unfold point_position. eapply derivV_eq; [apply derivV_add; [exact A|apply derivV_app; [exact B|apply derivV_const]]|].
  cbv beta. unfold point_velocity. cbn [slin]. rewrite mapp_v0, vadd_0_r, mapp_mmul, mapp_mcross.
  rewrite SO3_cross by (apply SO3_tr; auto). now rewrite mapp_add.
Qed.

(** Transform from joint frame k to the point, in body axes. *)
Lemma col_moves k : (k < nrBodies mb)%nat ->
  moves (fun s => ptmul (ptmul (pttr p) (X s)) (ptinv (posW (K s) k))) t
    (svscale (-1) (svsub (ptm (ptmul (ptmul (pttr p) (X t)) (ptinv (posW (K t) k))) (vb (K t) k)) (ptm (pttr p) (vb (K t) i)))).
Proof.
  intro Hk. pose proof (body_moves mb M K t W RM OK CO AK JM) as MV.
  pose proof (r_rw _ _ _ (RU t)) as RX.
  pose proof (moves_mul (fun _ => pttr p) (fun s => X s) t sv0 (vb (K t) i) SO3_id (moves_const _ _) (MV i Hi)) as M1.
  pose proof (moves_inv (fun s => posW (K s) k) t (vb (K t) k) (RX k Hk) (MV k Hk)) as M2.
  assert (R1 : rigid (ptmul (pttr p) (X t))) by (apply rigid_mul; auto using rigid_pttr; apply (RX i Hi)).
  pose proof (moves_mul _ _ t _ _ R1 M1 M2) as M3. cbv beta in M3.
  rewrite svadd_0_l, ptm_scale in M3. rewrite <- ptm_mul in M3 by (apply rigid_inv, (RX k Hk)).
  rewrite svsub_def, svscale_add, svscale_svscale. replace (-1 * -1) with 1 by ring. rewrite svscale_1, svadd_comm. exact M3.
Qed.

Lemma jac_cols_world s : jacobian mb (K s) J =
  Ok (with_jac (concat (map (fun k => map (fun c => ptm (ptmul (ptrot (mtr (rotE (X s)))) (ptmul (ptmul (pttr p) (X s)) (ptinv (posW (K s) k)))) c)
        (jS (nth k (mb_joints mb) jd))) (jc_path J))) J).
Proof.
  rewrite (jacobian_run mb (M s) (K s) W (RU s) i p J H). do 3 f_equal. apply map_ext_in. intros k Hk. unfold fcols. apply map_ext. intro c.
  rewrite ptmul_assoc. do 2 f_equal. pose proof (r_rw _ _ _ (RU s) i Hi) as RX.
  unfold ptmul, pttr, ptrot. cbn [rotE trR]. rewrite mmul_id_l, SO3_l by auto. rewrite mapp_v0, vadd_0_r. reflexivity.
Qed.

Lemma jacobian_deriv JJ Jd : (forall s, jacobian mb (K s) J = Ok (JJ s)) -> jacobianDot mb (K t) J = Ok Jd ->
  forall n, derivS (fun s => nth n (jc_jac (JJ s)) sv0) t (nth n (jc_dot Jd) sv0).
Proof.
  intros HJ HD n. rewrite (jacobianDot_run mb (M t) (K t) W (RU t) i p J H) in HD. injection HD as <-.
  pose proof (r_rw _ _ _ (RU t)) as RX.
  eapply derivS_ext.
  { intro s. specialize (HJ s). rewrite jac_cols_world in HJ. injection HJ as <-. cbn [jc_jac with_jac]. reflexivity. }
  cbn [jc_dot with_dot].
  rewrite (map_ext_in _ (fun k => map (fun c => dcol_world (K t) i
      (ptmul (ptmul (pttr p) (X t)) (ptinv (posW (K t) k)))
      (svsub (ptm (ptmul (ptmul (pttr p) (X t)) (ptinv (posW (K t) k))) (vb (K t) k)) (ptm (pttr p) (vb (K t) i))) c)
      (jS (nth k (mb_joints mb) jd)))).
  2:{ intros k Hk. unfold dcols. rewrite (r_ms _ _ _ (RU t)); auto. eapply root_path_in; eauto. }
  apply (deriv_concat (fun s k c => ptm (ptmul (ptrot (mtr (rotE (X s)))) (ptmul (ptmul (pttr p) (X s)) (ptinv (posW (K s) k)))) c)
    (fun k c => dcol_world (K t) i (ptmul (ptmul (pttr p) (X t)) (ptinv (posW (K t) k)))
      (svsub (ptm (ptmul (ptmul (pttr p) (X t)) (ptinv (posW (K t) k))) (vb (K t) k)) (ptm (pttr p) (vb (K t) i))) c)).
  intros k c Hk. pose proof (root_path_in _ _ _ W RP k Hk) as Hkn.
  pose proof (body_moves mb M K t W RM OK CO AK JM i Hi) as MV.
  pose proof (moves_rot_tr (fun s => X s) t _ (RX i Hi) MV) as M1. pose proof (col_moves k Hkn) as M2.
  assert (R1 : rigid (ptrot (mtr (rotE (X t))))) by (apply rigid_ptrot, SO3_tr, RX, Hi).
  assert (R2 : rigid (ptmul (ptmul (pttr p) (X t)) (ptinv (posW (K t) k)))).
  { repeat apply rigid_mul; auto using rigid_pttr. apply rigid_inv. auto. }
  pose proof (moves_mul _ _ t _ _ R1 M1 M2) as M3.
  eapply derivS_eq; [apply (deriv_ptm_const _ c t _ M3)|].
  { apply rigid_mul; auto. }
  cbv beta. unfold dcol_world.
  unfold wN. rewrite (r_vw _ _ _ (RU t)) by auto. rewrite ptrot_inv_ang.
  set (Y := ptmul (ptmul (pttr p) (X t)) (ptinv (posW (K t) k))) in *.
  set (V := svsub (ptm Y (vb (K t) k)) (ptm (pttr p) (vb (K t) i))).
  set (E := ptrot (mtr (rotE (X t)))) in *. set (w := mapp (mtr (rotE (X t))) (sang (vb (K t) i))).
  rewrite ptm_mul by auto. rewrite ptm_scale, scross_add_l, scross_scale_l, svscale_add, svscale_svscale, scross_ptm by auto.
  replace (-1 * -1) with 1 by ring. rewrite svscale_1. f_equal.
  rewrite <- scross_scale_l. f_equal. unfold svscale. cbn [sang slin]. rewrite vscale_v0. f_equal.
  clearbody w. clear. v3ring.
Qed.
Lemma bodyJacobian_deriv JJ Jd : (forall s, bodyJacobian mb (K s) J = Ok (JJ s)) -> bodyJacobianDot mb (K t) J = Ok Jd ->
  forall n, derivS (fun s => nth n (jc_jac (JJ s)) sv0) t (nth n (jc_dot Jd) sv0).
Proof.
  intros HJ HD n. rewrite (bodyJacobianDot_run mb (M t) (K t) W (RU t) i p J H) in HD. injection HD as <-.
  pose proof (r_rw _ _ _ (RU t)) as RX.
  eapply derivS_ext.
  { intro s. specialize (HJ s). rewrite (bodyJacobian_run mb (M s) (K s) W (RU s) i p J H) in HJ. injection HJ as <-.
    cbn [jc_jac with_jac]. unfold fcols. reflexivity. }
  cbn [jc_dot with_dot].
  rewrite (map_ext_in _ (fun k => map (fun c => dcol_body
      (ptmul (ptmul (pttr p) (X t)) (ptinv (posW (K t) k)))
      (svsub (ptm (ptmul (ptmul (pttr p) (X t)) (ptinv (posW (K t) k))) (vb (K t) k)) (ptm (pttr p) (vb (K t) i))) c)
      (jS (nth k (mb_joints mb) jd)))).
  2:{ intros k Hk. unfold dcols. rewrite (r_ms _ _ _ (RU t)); auto. eapply root_path_in; eauto. }
  apply (deriv_concat (fun s k c => ptm (ptmul (ptmul (pttr p) (X s)) (ptinv (posW (K s) k))) c)
    (fun k c => dcol_body (ptmul (ptmul (pttr p) (X t)) (ptinv (posW (K t) k)))
      (svsub (ptm (ptmul (ptmul (pttr p) (X t)) (ptinv (posW (K t) k))) (vb (K t) k)) (ptm (pttr p) (vb (K t) i))) c)).
  intros k c Hk. pose proof (root_path_in _ _ _ W RP k Hk) as Hkn.
  pose proof (col_moves k Hkn) as M2.
  eapply derivS_eq; [apply (deriv_ptm_const _ c t _ M2)|].
  { repeat apply rigid_mul; auto using rigid_pttr. apply rigid_inv. auto. }
  cbv beta. unfold dcol_body. rewrite scross_scale_l, svscale_svscale. replace (-1 * -1) with 1 by ring. apply svscale_1.
Qed.
End Traj.
