(** Jacobians, centre of mass, momentum, Coriolis matrix and makeMultiBody seen from another world frame. *)
From Coq Require Import Reals String ZArith Bool Arith List Lia Lra FunctionalExtensionality.
From Verif Require Import Res ResP SMap Vec VecP Sva SvaP Mat JointM MultiBodyM KinM DynM JacM CoMM MomM CoriolisM IntegM GraphM SpecFrame FrameP.
Import ListNotations.
Open Scope R_scope.

Lemma for_each_rmap {A S T} (g : S -> T) (f : A -> S -> res S) f' : (forall a s, f' a (g s) = rmap g (f a s)) ->
  forall l s, for_each l f' (g s) = rmap g (for_each l f s).
Proof.
  intros H. induction l as [|a l IH]; intros s; simpl; [reflexivity|].
  rewrite H, bind_rmap, rmap_bind. apply bind_ext. intros; apply IH.
Qed.

Lemma mapp_mm A B v : mapp (mmul A B) v = mapp A (mapp B v).
Proof. v3ring. Qed.
Lemma mtr_mtr A : mtr (mtr A) = A.
Proof. v3ring. Qed.
Lemma vadd_m0 a A : vadd a (mapp A v0) = a.
Proof. v3ring. Qed.
Lemma mapp_mc a v : mapp (mcross a) v = vcross a v.
Proof. v3ring. Qed.

Section Frame2.
Variable X : PT.
Hypothesis HX : rigid X.
Variable mb : MultiBody.
Local Notation mv := (move_mbc X mb).
Local Notation mvb := (move_mb X mb).

Ltac step := rewrite rmap_bind; apply bind_ext; intros ? ?.

Lemma ptm_rot_l P c : ptm (ptmul (ptrot (mtr (rotE X))) P) c = new_turned X (ptm P c).
Proof.
  unfold new_turned, new_dir, ptm, ptmul, ptrot. cbn [rotE trR sang slin].
  rewrite !vadd_m0.
  assert (K : forall A B v, mapp (mmul A B) v = mapp A (mapp B v)) by (intros; v3ring).
  now rewrite !K.
Qed.
Lemma ptm_rot_ll F P c : ptm (ptmul (ptrot (mtr (mmul F (rotE X)))) P) c = new_turned X (ptm (ptmul (ptrot (mtr F)) P) c).
Proof.
  unfold new_turned, new_dir, ptm, ptmul, ptrot. cbn [rotE trR sang slin].
  rewrite !vadd_m0.
  assert (K : forall A B v, mapp (mmul A B) v = mapp A (mapp B v)) by (intros; v3ring).
  assert (K2 : forall A B v, mapp (mtr (mmul A B)) v = mapp (mtr B) (mapp (mtr A) v)) by (intros; v3ring).
  now rewrite !K, !K2.
Qed.
Lemma ptm_rot_t F r u : ptm (mkPT (mtr (mmul F (rotE X))) r) u = new_turned X (ptm (mkPT (mtr F) r) u).
Proof. unfold new_turned, new_dir, ptm. cbn [rotE trR sang slin]. now rewrite !nd_mul. Qed.
(** ** Jacobian *)
Lemma jac_step_gen m (P P' : PT) (h : SV -> SV) J i s :
  (forall Q c, ptm (ptmul P' (ptinv (ptmul Q X))) c = h (ptm (ptmul P (ptinv Q)) c)) ->
  jac_step mvb (mv m) P' J i (fst s, map h (snd s)) = rmap (fun r => (fst r, map h (snd r))) (jac_step mb m P J i s).
Proof.
  intros H. unfold jac_step. cbn [bodyPosW move_mbc mb_joints move_mb motionSubspace fst snd].
  step. rewrite get_map, bind_rmap. step. step.
  rewrite (for_up_rmap (map h) _ (fun d jac => sg <- get (jc_sign J) i ;;
              ms <- get (motionSubspace m) a ;; c <- get ms d ;;
              set jac (fst s + d) (ptm (ptmul P (ptinv a0)) (svscale sg c)))).
  - rewrite bind_rmap. step. reflexivity.
  - intros d jac. step. step. step. rewrite H, set_map. reflexivity.
Qed.
Lemma jacobian__gen m (P P' : PT) (h : SV -> SV) (T : Jac -> Jac) J :
  (forall Q c, ptm (ptmul P' (ptinv (ptmul Q X))) c = h (ptm (ptmul P (ptinv Q)) c)) ->
  (forall K l, with_jac (map h l) (T K) = T (with_jac l K)) ->
  jc_path (T J) = jc_path J -> jc_sign (T J) = jc_sign J -> jc_jac (T J) = map h (jc_jac J) ->
  jacobian_ mvb (mv m) P' (T J) = rmap T (jacobian_ mb m P J).
Proof.
  intros H HT E1 E2 E3. unfold jacobian_. rewrite E1, E3.
  rewrite (for_up_ext _ (jac_step mvb (mv m) P' J)).
  2:{ intros i s. unfold jac_step. now rewrite E1, E2. }
  pose proof (for_up_rmap (fun r : nat * list SV => (fst r, map h (snd r))) (length (jc_path J)) (jac_step mb m P J)
                (jac_step mvb (mv m) P' J) (fun i s => jac_step_gen m P P' h J i s H) (0%nat, jc_jac J)) as G.
  cbn [fst snd] in G. rewrite G, bind_rmap. step. cbn [snd rmap]. now rewrite HT.
Qed.
Lemma jacobian__same m P J : jacobian_ mvb (mv m) (ptmul P X) J = rmap (fun J => J) (jacobian_ mb m P J).
Proof.
  apply (jacobian__gen m P (ptmul P X) (fun c => c) (fun J => J)); try reflexivity.
  - intros Q c. now rewrite ptmul_new_inv.
  - intros K l. now rewrite map_id.
  - now rewrite map_id.
Qed.
Lemma bodyJacobian_move m J : bodyJacobian mvb (mv m) J = bodyJacobian mb m J.
Proof.
  unfold bodyJacobian. apply bind_ext; intros N _. cbn [bodyPosW move_mbc]. rewrite get_map, bind_rmap.
  apply bind_ext; intros XN _. rewrite ptmul_assoc, jacobian__same. apply rmap_id.
Qed.
Lemma turned_col p Q c : ptm (ptmul (pttr (new_point X p)) (ptinv (ptmul Q X))) c = new_turned X (ptm (ptmul (pttr p) (ptinv Q)) c).
Proof.
  replace (pttr (new_point X p)) with (ptmul (ptmul (ptrot (mtr (rotE X))) (pttr p)) X).
  2:{ apply PT_ext; unfold ptmul, ptrot, pttr, new_point; cbn [rotE trR].
      - transitivity (mmul (mtr (rotE X)) (rotE X)); [v3ring|]. exact (f_equal rotE (ptinv_l X HX)).
      - f_equal. f_equal. v3ring. }
  rewrite ptmul_new_inv by exact HX.
  rewrite <- ptmul_assoc. apply ptm_rot_l.
Qed.
Lemma to_ref_world m J : (jc_ref J <= 0)%Z -> to_ref (mv m) (move_jac X J) = rmap (move_jac X) (to_ref m J).
Proof.
  intros H. unfold to_ref. cbn [jc_ref move_jac]. replace (jc_ref J >? 0)%Z with false; [reflexivity|].
  symmetry. rewrite Z.gtb_ltb. apply Z.ltb_ge. exact H.
Qed.
Lemma to_ref_body m J : (0 < jc_ref J)%Z -> to_ref (mv m) (move_jac X J) = rmap (turn_dot X) (to_ref m J).
Proof.
  intros H. unfold to_ref. cbn [jc_ref move_jac]. replace (jc_ref J >? 0)%Z with true.
  2:{ symmetry. rewrite Z.gtb_ltb. apply Z.ltb_lt. exact H. }
  cbn [bodyPosW move_mbc]. rewrite getz_map, bind_rmap. step. cbn [rmap]. f_equal.
  unfold with_jac, turn_dot. cbn [jc_path jc_sign jc_point jc_jac jc_dot jc_body jc_ref move_jac]. f_equal.
  rewrite map_map. apply map_ext. intros c.
  assert (K : forall v, mapp (rotE (ptmul a X)) (new_dir X v) = mapp (rotE a) v).
  { intros v. unfold ptmul, new_dir. cbn [rotE]. transitivity (mapp (rotE a) (mapp (rotE X) (mapp (mtr (rotE X)) v))); [v3ring|].
    now rewrite SO3_tr_app. }
  unfold new_turned. cbn [sang slin]. now rewrite !K.
Qed.
Lemma jac_ref_jacobian_ m P J J' : jacobian_ mb m P J = Ok J' -> jc_ref J' = jc_ref J.
Proof. unfold jacobian_. destruct (for_up _ _ _); simpl; intros H; inversion H; reflexivity. Qed.
Lemma jacobian__world m p J :
  jacobian_ mvb (mv m) (pttr (new_point X p)) (move_jac X J) = rmap (move_jac X) (jacobian_ mb m (pttr p) J).
Proof.
  apply (jacobian__gen m (pttr p) (pttr (new_point X p)) (new_turned X) (move_jac X)); try reflexivity.
  apply turned_col.
Qed.
Lemma point_move p Q : trR (ptmul p (ptmul Q X)) = new_point X (trR (ptmul p Q)).
Proof. rewrite ptmul_assoc. reflexivity. Qed.
Lemma jacobian_move m J : (jc_ref J <= 0)%Z ->
  jacobian mvb (mv m) (move_jac X J) = rmap (move_jac X) (jacobian mb m J).
Proof.
  intros H. unfold jacobian. cbn [jc_path jc_point move_jac bodyPosW move_mbc].
  step. rewrite get_map, bind_rmap. step. rewrite point_move, jacobian__world, bind_rmap.
  rewrite rmap_bind. apply bind_ext. intros J' HJ. apply to_ref_world. now rewrite (jac_ref_jacobian_ _ _ _ _ HJ).
Qed.
Lemma jacobian_move_ref m J : (0 < jc_ref J)%Z ->
  jacobian mvb (mv m) (move_jac X J) = rmap (turn_dot X) (jacobian mb m J).
Proof.
  intros H. unfold jacobian. cbn [jc_path jc_point move_jac bodyPosW move_mbc].
  step. rewrite get_map, bind_rmap. step. rewrite point_move, jacobian__world, bind_rmap.
  rewrite rmap_bind. apply bind_ext. intros J' HJ. apply to_ref_body. now rewrite (jac_ref_jacobian_ _ _ _ _ HJ).
Qed.

(** jacobianDot, bodyJacobianDot *)
Lemma dot_step_gen m (P : PT) (h : SV -> SV) col col' V J i s :
  (forall Y W c, col' Y W c = h (col Y W c)) ->
  dot_step mvb (mv m) col' (ptmul P X) V J i (fst s, map h (snd s)) =
  rmap (fun r => (fst r, map h (snd r))) (dot_step mb m col P V J i s).
Proof.
  intros H. unfold dot_step. cbn [bodyPosW move_mbc mb_joints move_mb motionSubspace bodyVelB].
  step. rewrite get_map, bind_rmap. step. step. step.
  rewrite (for_up_rmap (fun r : nat * list SV => (fst r, map h (snd r))) _ (fun d s => ms <- get (motionSubspace m) a ;; c <- get ms d ;;
                jac <- set (snd s) (fst s) (col (ptmul P (ptinv a0)) (svsub (ptm (ptmul P (ptinv a0)) a1) V) c) ;; Ok (S (fst s), jac))).
  - reflexivity.
  - intros d t. step. step. rewrite ptmul_new_inv by exact HX. rewrite H. cbn [fst snd].
    rewrite set_map, bind_rmap. step. reflexivity.
Qed.
Lemma bodyJacobianDot_move m J : bodyJacobianDot mvb (mv m) J = bodyJacobianDot mb m J.
Proof.
  unfold bodyJacobianDot. apply bind_ext; intros N _. cbn [bodyPosW bodyVelB move_mbc]. rewrite get_map, bind_rmap.
  apply bind_ext; intros XN _. apply bind_ext; intros VN _. rewrite ptmul_assoc. cbn [jc_path].
  pose proof (for_up_rmap (fun r : nat * list SV => (fst r, map (fun c => c) (snd r))) (length (jc_path J)) _ _
    (fun i s => dot_step_gen m (ptmul (jc_point J) XN) (fun c => c) (fun X_i_Np V c => scross V (ptm X_i_Np c)) _
       (ptm (jc_point J) VN) J i s (fun _ _ _ => eq_refl)) (0%nat, jc_dot J)) as G.
  cbn [fst snd] in G. rewrite map_id in G. rewrite G, bind_rmap. apply bind_ext; intros s _. cbn [snd]. now rewrite map_id.
Qed.
Lemma nt_cross w v : new_turned X (scross (mkSV w v0) v) = scross (mkSV (new_dir X w) v0) (new_turned X v).
Proof.
  unfold new_turned, scross. cbn [sang slin]. rewrite !nd_add, !nd_cross by exact HX. now rewrite nd_0.
Qed.
Lemma jacobianDot_move m J : jacobianDot mvb (mv m) (move_jac X J) = rmap (move_jac X) (jacobianDot mb m J).
Proof.
  unfold jacobianDot. cbn [jc_path jc_point jc_dot move_jac bodyPosW bodyVelB bodyVelW move_mbc].
  step. rewrite get_map, bind_rmap. step. step. rewrite get_map, bind_rmap. step. rewrite ptmul_assoc.
  rewrite (for_up_ext _ (dot_step mvb (mv m) (fun X_i_Np V c => svadd (scross (mkSV (sang (new_turned X a2)) v0) (ptm (ptmul (ptrot (mtr (rotE (ptmul a0 X)))) X_i_Np) c))
                                     (ptm (ptrot (mtr (rotE (ptmul a0 X)))) (scross V (ptm X_i_Np c)))) (ptmul (ptmul (jc_point J) a0) X) (ptm (jc_point J) a1) J)).
  2:{ reflexivity. }
  assert (K : forall Y (W : SV) c, svadd (scross (mkSV (sang (new_turned X a2)) v0) (ptm (ptmul (ptrot (mtr (rotE (ptmul a0 X)))) Y) c))
                                     (ptm (ptrot (mtr (rotE (ptmul a0 X)))) (scross W (ptm Y c))) =
    new_turned X (svadd (scross (mkSV (sang a2) v0) (ptm (ptmul (ptrot (mtr (rotE a0))) Y) c))
                                     (ptm (ptrot (mtr (rotE a0))) (scross W (ptm Y c))))).
  { intros Y W c. rewrite nt_add, nt_cross. f_equal; [f_equal|].
    - apply ptm_rot_ll.
    - apply ptm_rot_t. }
  pose proof (for_up_rmap (fun r : nat * list SV => (fst r, map (new_turned X) (snd r))) (length (jc_path J)) _ _
    (fun i s => dot_step_gen m (ptmul (jc_point J) a0) (new_turned X) _ _ (ptm (jc_point J) a1) J i s K) (0%nat, jc_dot J)) as G.
  cbn [fst snd] in G. rewrite G, bind_rmap. step. reflexivity.
Qed.
Lemma velocity_move m J : velocity (mv m) J = rmap (new_turned X) (velocity m J).
Proof.
  unfold velocity. step. cbn [bodyPosW bodyVelB move_mbc]. rewrite get_map, bind_rmap. step. step. cbn [rmap]. f_equal.
  apply ptm_rot_t.
Qed.

(** ** Centre of mass *)
Lemma vdiv_new v k mass : vdiv_mass (vadd (vscale mass k) (new_dir X v)) mass =
  rmap (fun p => vadd k (new_dir X p)) (vdiv_mass v mass).
Proof.
  unfold vdiv_mass. destruct (Rlt_dec 0 mass); [|reflexivity]. cbn [rmap]. f_equal. unfold new_dir.
  transitivity (vadd (vscale (/ mass * mass) k) (vscale (/ mass) (mapp (mtr (rotE X)) v))); [v3ring|].
  rewrite Rinv_l by lra. v3ring.
Qed.
Lemma vdiv_dir v mass : vdiv_mass (new_dir X v) mass = rmap (new_dir X) (vdiv_mass v mass).
Proof.
  unfold vdiv_mass. destruct (Rlt_dec 0 mass); [|reflexivity]. cbn [rmap]. f_equal. now rewrite nd_scale.
Qed.
Lemma com_move m : computeCoM mvb (mv m) = rmap (new_point X) (computeCoM mb m).
Proof.
  unfold computeCoM.
  pose proof (for_up_rmap (fun s : R * V3 => (fst s, vadd (vscale (fst s) (trR X)) (new_dir X (snd s)))) (nrBodies mb)
    (com_step mb m) (com_step mvb (mv m))) as G.
  assert (E : (0, v0) = (fun s : R * V3 => (fst s, vadd (vscale (fst s) (trR X)) (new_dir X (snd s)))) (0, v0)).
  { cbn [fst snd]. rewrite nd_0. f_equal. v3ring. }
  change (nrBodies mvb) with (nrBodies mb). rewrite E at 1. rewrite G.
  - rewrite bind_rmap. step. cbn [fst snd]. apply vdiv_new.
  - intros i s. unfold com_step. cbn [mb_bodies move_mb bodyPosW move_mbc]. step. rewrite get_map, bind_rmap. step.
    cbn [rmap fst snd]. f_equal. f_equal. unfold ptmul, pttr, new_dir. cbn [rotE trR].
    generalize (imom (binertia a)) (imass (binertia a)) (fst s) (snd s). intros c k k0 v. v3ring.
Qed.
Lemma comv_move m : computeCoMVelocity mvb (mv m) = rmap (new_dir X) (computeCoMVelocity mb m).
Proof.
  unfold computeCoMVelocity.
  pose proof (for_up_rmap (fun s : R * V3 => (fst s, new_dir X (snd s))) (nrBodies mb)
    (comv_step mb m) (comv_step mvb (mv m))) as G.
  assert (E : (0, v0) = (fun s : R * V3 => (fst s, new_dir X (snd s))) (0, v0)) by (cbn [fst snd]; now rewrite nd_0).
  change (nrBodies mvb) with (nrBodies mb). rewrite E at 1. rewrite G.
  - rewrite bind_rmap. step. cbn [fst snd]. apply vdiv_dir.
  - intros i s. unfold comv_step. cbn [mb_bodies move_mb bodyPosW bodyVelB move_mbc]. step. rewrite get_map, bind_rmap. step. step.
    cbn [rmap fst snd]. f_equal. f_equal. rewrite nd_add. f_equal.
    exact (f_equal slin (ptm_rot_t (rotE a0) (imom (binertia a)) (mkSV (sang a1) (vscale (imass (binertia a)) (slin a1))))).
Qed.
Lemma coma_move m : computeCoMAcceleration mvb (mv m) = rmap (new_dir X) (computeCoMAcceleration mb m).
Proof.
  unfold computeCoMAcceleration.
  pose proof (for_up_rmap (fun s : R * V3 => (fst s, new_dir X (snd s))) (nrBodies mb)
    (coma_step mb m) (coma_step mvb (mv m))) as G.
  assert (E : (0, v0) = (fun s : R * V3 => (fst s, new_dir X (snd s))) (0, v0)) by (cbn [fst snd]; now rewrite nd_0).
  change (nrBodies mvb) with (nrBodies mb). rewrite E at 1. rewrite G.
  - rewrite bind_rmap. step. cbn [fst snd]. apply vdiv_dir.
  - intros i s. unfold coma_step. cbn [mb_bodies move_mb bodyPosW bodyVelB bodyVelW bodyAccB move_mbc]. step.
    rewrite get_map, bind_rmap. step. rewrite get_map, bind_rmap. step. step. step.
    cbn [rmap fst snd]. f_equal. f_equal. rewrite !nd_add.
    assert (K : forall c v, ptm (mkPT (mtr (rotE (ptmul a0 X))) c) v = new_turned X (ptm (mkPT (mtr (rotE a0)) c) v)).
    { intros c v. apply ptm_rot_t. }
    rewrite !K. f_equal.
    exact (eq_sym (f_equal slin (nt_cross (sang a1) (ptm (mkPT (mtr (rotE a0)) (imom (binertia a))) (mkSV (sang a3) (vscale (imass (binertia a)) (slin a3))))))).
Qed.

(** ** Momentum *)
Lemma xcom_move Q com : ptmul (ptmul Q X) (pttr (vopp (new_point X com))) = ptmul (ptmul Q (pttr (vopp com))) (ptrot (rotE X)).
Proof.
  rewrite <- !ptmul_assoc. f_equal. apply PT_ext; unfold ptmul, pttr, ptrot, new_point; cbn [rotE trR]; v3ring.
Qed.
Lemma trans_turn P f : pttrans (ptmul P (ptrot (rotE X))) f = new_turned X (pttrans P f).
Proof.
  unfold new_turned, pttrans, ptmul, ptrot. cbn [rotE trR sang slin]. rewrite !nd_add.
  rewrite nd_cross by exact HX. unfold new_dir. apply SV_ext; cbn [sang slin]; [|v3ring].
  rewrite !nd_mul. f_equal. f_equal. v3ring.
Qed.
Lemma momentum_move m com :
  computeCentroidalMomentum mvb (mv m) (new_point X com) = rmap (new_turned X) (computeCentroidalMomentum mb m com).
Proof.
  unfold computeCentroidalMomentum. change (nrBodies mvb) with (nrBodies mb). rewrite <- (nt_0 X) at 1.
  apply for_up_rmap. intros i s. cbn [mb_bodies move_mb bodyPosW bodyVelB move_mbc].
  step. step. rewrite get_map, bind_rmap. step. cbn [rmap]. f_equal. rewrite nt_add, xcom_move, trans_turn. reflexivity.
Qed.
Lemma inv_turn P : ptinv (ptmul P (ptrot (rotE X))) = ptmul (ptrot (mtr (rotE X))) (ptinv P).
Proof.
  apply PT_ext; unfold ptinv, ptmul, ptrot; cbn [rotE trR]; [v3ring|].
  transitivity (vopp (mapp (rotE P) (mapp (rotE X) (mapp (mtr (rotE X)) (trR P))))); [v3ring|].
  rewrite SO3_tr_app by exact HX. v3ring.
Qed.
Lemma dual_turn P f : ptdual (ptmul (ptrot (mtr (rotE X))) P) f = new_turned X (ptdual P f).
Proof.
  unfold new_turned, new_dir, ptdual, ptmul, ptrot. cbn [rotE trR sang slin].
  rewrite !vadd_m0.
  assert (K : forall A B v, mapp (mmul A B) v = mapp A (mapp B v)) by (intros; v3ring).
  now rewrite !K.
Qed.
Lemma nt_sub a b : new_turned X (svsub a b) = svsub (new_turned X a) (new_turned X b).
Proof. apply SV_ext; apply nd_sub. Qed.
Lemma nt_crossDual v f : scrossDual (mkSV v0 (new_dir X v)) (new_turned X f) = new_turned X (scrossDual (mkSV v0 v) f).
Proof.
  unfold new_turned, scrossDual. cbn [sang slin]. rewrite !nd_add, !nd_cross by exact HX. now rewrite nd_0.
Qed.
Lemma momentumdot_move m com comDot :
  computeCentroidalMomentumDot mvb (mv m) (new_point X com) (new_dir X comDot) =
  rmap (new_turned X) (computeCentroidalMomentumDot mb m com comDot).
Proof.
  unfold computeCentroidalMomentumDot. change (nrBodies mvb) with (nrBodies mb). rewrite <- (nt_0 X) at 1.
  apply for_up_rmap. intros i s. cbn [mb_bodies move_mb bodyPosW bodyVelB bodyAccB move_mbc].
  step. rewrite get_map, bind_rmap. step. step. step. cbn [rmap]. f_equal. rewrite nt_add. f_equal.
  unfold body_momentum_dot. rewrite xcom_move, inv_turn, !dual_turn, trans_turn, nt_crossDual, <- nt_sub, <- nt_add.
  reflexivity.
Qed.

(** ** Coriolis matrix *)
Lemma cor_entry_move I p Q VW ja jb db :
  cor_entry I p (ptmul Q X) (new_turned X VW) (new_turned X ja) (new_turned X jb) (new_turned X db) = cor_entry I p Q VW ja jb db.
Proof.
  unfold cor_entry. cbn [sang slin new_turned ptmul rotE]. rewrite nd_dot by exact HX. f_equal.
  set (In := msub _ _).
  assert (K : forall v, mapp (mmul (mtr (mmul (rotE Q) (rotE X))) (mmul In (mtr (mtr (mmul (rotE Q) (rotE X)))))) (new_dir X v) =
                        new_dir X (mapp (mmul (mtr (rotE Q)) (mmul In (mtr (mtr (rotE Q))))) v)).
  { intros v. unfold new_dir.
    rewrite !mtr_mtr, !mapp_mm, !nd_mul. rewrite SO3_tr_app by exact HX. reflexivity. }
  assert (K2 : forall v, mapp (mmul (mmul (mcross (new_dir X (sang VW))) (mtr (mmul (rotE Q) (rotE X)))) (mmul In (mtr (mtr (mmul (rotE Q) (rotE X)))))) (new_dir X v) =
                        new_dir X (mapp (mmul (mmul (mcross (sang VW)) (mtr (rotE Q))) (mmul In (mtr (mtr (rotE Q))))) v)).
  { intros v.
    transitivity (vcross (new_dir X (sang VW)) (mapp (mmul (mtr (mmul (rotE Q) (rotE X))) (mmul In (mtr (mtr (mmul (rotE Q) (rotE X)))))) (new_dir X v))).
    - rewrite !mapp_mm. apply mapp_mc.
    - rewrite K, <- nd_cross by exact HX. f_equal. rewrite !mapp_mm. symmetry. apply mapp_mc. }
  rewrite K, K2, <- nd_add. apply nd_dot. exact HX.
Qed.
Lemma nth_turned l k : nth k (map (new_turned X) l) sv0 = new_turned X (nth k l sv0).
Proof. rewrite <- (nt_0 X) at 1. apply map_nth. Qed.
Definition mv_cs (s : list Jac * Mat * Mat) : list Jac * Mat * Mat := (map (move_jac X) (fst (fst s)), snd (fst s), snd s).
Lemma jac_ref_jacobian m J J' : jacobian mb m J = Ok J' -> jc_ref J' = jc_ref J.
Proof.
  unfold jacobian. destruct (back _); simpl; try discriminate. destruct (get _ _); simpl; try discriminate.
  destruct (jacobian_ _ _ _ _) eqn:E; simpl; try discriminate. intros H.
  rewrite <- (jac_ref_jacobian_ _ _ _ _ E). unfold to_ref in H. destruct (_ >? _)%Z.
  - destruct (getz _ _); simpl in H; inversion H; reflexivity.
  - now inversion H.
Qed.
Lemma set_in {A} (P : A -> Prop) l i a l' : set l i a = Ok l' -> P a -> (forall x, In x l -> P x) -> forall x, In x l' -> P x.
Proof.
  unfold set. destruct (_ <? _)%nat; [|discriminate]. intros H; inversion H; subst. clear H. intros Pa Pl x.
  revert i. induction l as [|y l IH]; intros [|i]; simpl; auto.
  - intros [<-|H]; auto. apply Pl; now right.
  - intros [<-|H]; [apply Pl; now left|]. apply (IH (fun x H => Pl x (or_intror H)) i H).
Qed.
Lemma get_in {A} (l : list A) i a : get l i = Ok a -> In a l.
Proof. unfold get. destruct (nth_error l i) eqn:E; [|discriminate]. intros H; inversion H; subst. eapply nth_error_In; eauto. Qed.

Lemma cor_step_move m c i s : (forall J, In J (fst (fst s)) -> (jc_ref J <= 0)%Z) ->
  cor_step mvb (mv m) (move_cor X c) i (mv_cs s) = rmap mv_cs (cor_step mb m c i s) /\
  (forall s', cor_step mb m c i s = Ok s' -> forall J, In J (fst (fst s')) -> (jc_ref J <= 0)%Z).
Proof.
  destruct s as [[jacs r] M]. cbn [fst snd mv_cs]. intros HJ. split.
  - unfold cor_step. cbn [mv_cs fst snd]. rewrite get_map, bind_rmap. rewrite rmap_bind. apply bind_ext. intros J HJi.
    rewrite jacobian_move by (apply HJ; eapply get_in; eauto). rewrite bind_rmap. step.
    rewrite jacobianDot_move, bind_rmap. step. rewrite set_map, bind_rmap. step.
    cbn [bodyPosW bodyVelW move_mbc mb_bodies move_mb]. rewrite get_map, bind_rmap. step. rewrite get_map, bind_rmap. step. step.
    cbv zeta. unfold jac_dof. cbn [jc_dot jc_jac move_jac]. rewrite !map_length.
    destruct (length (jc_dot a0) =? length (jc_jac a0))%nat; [|reflexivity].
    match goal with |- bind (set_block _ _ _ _ _ ?f) _ = rmap _ (bind (set_block _ _ _ _ _ ?g) _) => replace f with g end.
    2:{ extensionality x; extensionality y. rewrite !nth_turned. symmetry. apply cor_entry_move. }
    step. step. step. step. reflexivity.
  - intros s' E. unfold cor_step in E.
    destruct (get jacs i) as [J| | |] eqn:E1; try discriminate. cbn [bind] in E.
    destruct (jacobian mb m J) as [J1| | |] eqn:E2; try discriminate. cbn [bind] in E.
    destruct (jacobianDot mb m J1) as [J2| | |] eqn:E3; try discriminate. cbn [bind] in E.
    destruct (set jacs i J2) as [jacs'| | |] eqn:E4; try discriminate. cbn [bind] in E.
    assert (R : jc_ref J2 = jc_ref J1).
    { unfold jacobianDot in E3.
      repeat (match type of E3 with bind ?x _ = _ => destruct x; try discriminate; cbn [bind] in E3 end).
      inversion E3; reflexivity. }
    assert (Q : forall J, In J jacs' -> (jc_ref J <= 0)%Z).
    { eapply set_in; eauto. rewrite R, (jac_ref_jacobian _ _ _ E2). apply HJ. eapply get_in; eauto. }
    repeat (match type of E with bind ?x _ = _ => destruct x eqn:?; try discriminate; cbn [bind] in E
            | (if ?b then _ else _) = _ => destruct b; try discriminate end).
    inversion E; subst. exact Q.
Qed.
Lemma coriolis_move m c : (forall J, In J (co_jacs c) -> (jc_ref J <= 0)%Z) ->
  coriolis mvb (mv m) (move_cor X c) = rmap (move_cor X) (coriolis mb m c).
Proof.
  intros H. unfold coriolis. change (nrBodies mvb) with (nrBodies mb).
  cbn [co_jacs co_res co_mat co_blocks move_cor].
  assert (G : forall n lo s, (forall J, In J (fst (fst s)) -> (jc_ref J <= 0)%Z) ->
    for_from lo n (cor_step mvb (mv m) (move_cor X c)) (mv_cs s) = rmap mv_cs (for_from lo n (cor_step mb m c) s)).
  { induction n as [|n IH]; intros lo s Hs; cbn [for_from]; [reflexivity|].
    destruct (cor_step_move m c lo s Hs) as [E1 E2]. rewrite E1, bind_rmap, rmap_bind. apply bind_ext. intros s' Es.
    apply IH. exact (E2 s' Es). }
  unfold for_up. change (map (move_jac X) (co_jacs c), co_res c, mat_clear (co_mat c)) with (mv_cs (co_jacs c, co_res c, mat_clear (co_mat c))).
  rewrite G by exact H. rewrite bind_rmap. step. destruct a as [[jacs r] M]. reflexivity.
Qed.
End Frame2.

(** ** The root transform of makeMultiBody *)
Definition mv_acc (X : PT) (a : Acc) : Acc :=
  mkAcc (ac_bodies a) (ac_joints a) (ac_pred a) (ac_succ a) (ac_parent a) (move_roots X (ac_pred a) (ac_Xt a)).
Definition acc_len (a : Acc) : Prop := length (ac_pred a) = length (ac_Xt a).
Lemma move_roots_app X p : forall l x y, length p = length l ->
  move_roots X (p ++ [y]) (l ++ [x]) = move_roots X p l ++ [if (y =? -1)%Z then ptmul x X else x].
Proof.
  induction p as [|a p IH]; intros [|b l] x y H; simpl in *; try discriminate; [reflexivity|]. now rewrite IH by lia.
Qed.
Lemma makeTree_len : forall fuel h a from j p s par Xt Xb acc acc',
  acc_len acc -> makeTree fuel h a from j p s par Xt Xb acc = Ok acc' -> acc_len acc'.
Proof.
  induction fuel as [|f IH]; intros h a from j p s par Xt Xb acc acc' H; cbn [makeTree]; [discriminate|].
  destruct (get (hNodes h) a) as [nd| | |]; cbn [bind]; try discriminate.
  intros E. revert E.
  generalize (Z.of_nat (length (ac_bodies (ac_push (mkBody (ptdualI (x_from (nArcs nd) from Xb) (binertia (nBody nd))) (bname (nBody nd))) j p s par Xt acc))) - 1)%Z. intros cur.
  assert (H1 : acc_len (ac_push (mkBody (ptdualI (x_from (nArcs nd) from Xb) (binertia (nBody nd))) (bname (nBody nd))) j p s par Xt acc)).
  { unfold acc_len in *. cbn. rewrite !app_length. simpl. lia. }
  revert H1. generalize (ac_push (mkBody (ptdualI (x_from (nArcs nd) from Xb) (binertia (nBody nd))) (bname (nBody nd))) j p s par Xt acc).
  generalize (x_from (nArcs nd) from Xb). intros XF. clear H.
  induction (nArcs nd) as [|e arcs IHa]; intros ac Hac; cbn [for_each].
  - intros E; inversion E; subst; exact Hac.
  - destruct (is_from from e); cbn [bind].
    + apply IHa. exact Hac.
    + destruct (makeTree _ _ _ _ _ _ _ _ _ _ _) as [ac'| | |] eqn:E; cbn [bind]; try discriminate.
      apply IHa. exact (IH _ _ _ _ _ _ _ _ _ _ _ Hac E).
Qed.
Lemma makeTree_move X : forall fuel h a from j p s par Xt Xb acc, acc_len acc ->
  makeTree fuel h a from j p s par (if (p =? -1)%Z then ptmul Xt X else Xt) Xb (mv_acc X acc) =
  rmap (mv_acc X) (makeTree fuel h a from j p s par Xt Xb acc).
Proof.
  induction fuel as [|f IH]; intros h a from j p s par Xt Xb acc H; cbn [makeTree]; [reflexivity|].
  rewrite rmap_bind. apply bind_ext. intros nd _.
  set (XF := x_from (nArcs nd) from Xb). set (B := mkBody _ _).
  set (ac1 := ac_push B j p s par Xt acc).
  assert (E1 : ac_push B j p s par (if (p =? -1)%Z then ptmul Xt X else Xt) (mv_acc X acc) = mv_acc X ac1).
  { unfold ac1, mv_acc, ac_push. cbn. f_equal. symmetry. apply move_roots_app. exact H. }
  rewrite E1. change (ac_bodies (mv_acc X ac1)) with (ac_bodies ac1).
  assert (H1 : acc_len ac1). { unfold acc_len, ac1 in *. cbn. rewrite !app_length. simpl. lia. }
  assert (HC : (0 <= Z.of_nat (length (ac_bodies ac1)) - 1)%Z).
  { unfold ac1. cbn. rewrite app_length. simpl. lia. }
  revert HC. generalize (Z.of_nat (length (ac_bodies ac1)) - 1)%Z. intros cur HC.
  clearbody ac1. clear E1. revert ac1 H1. generalize (nArcs nd) at 1 2.
  intros arcs. revert arcs. clearbody XF.
  induction arcs as [|e arcs IHa]; intros ac Hac; cbn [for_each]; [reflexivity|].
  destruct (is_from from e); cbn [bind]; [apply IHa; exact Hac|].
  change (ac_bodies (mv_acc X ac)) with (ac_bodies ac).
  replace (ptmul (aX e) (ptinv XF)) with (if (cur =? -1)%Z then ptmul (ptmul (aX e) (ptinv XF)) X else ptmul (aX e) (ptinv XF)) at 1.
  2:{ destruct (cur =? -1)%Z eqn:Q; [apply Z.eqb_eq in Q; lia|reflexivity]. }
  rewrite IH by exact Hac. rewrite bind_rmap, rmap_bind. apply bind_ext. intros ac' Eac.
  apply IHa. exact (makeTree_len _ _ _ _ _ _ _ _ _ _ _ _ Hac Eac).
Qed.
Lemma makeMultiBody_move X fuel root t axis X0 Xb s :
  makeMultiBody fuel root t axis (ptmul X0 X) Xb s = rmap (move_mb X) (makeMultiBody fuel root t axis X0 Xb s).
Proof.
  unfold makeMultiBody. destruct s as [h g]. rewrite rmap_bind. apply bind_ext. intros a _.
  pose proof (makeTree_move X fuel h a None (mkJ t axis true (gRoot g)) (-1)%Z 0%Z (-1)%Z X0 Xb acc0 eq_refl) as E.
  change (mv_acc X acc0) with acc0 in E. change (-1 =? -1)%Z with true in E. cbv iota in E. rewrite E, bind_rmap, rmap_bind.
  apply bind_ext. intros acc _. unfold MultiBody_ctor. cbn [ac_bodies ac_joints ac_pred ac_succ ac_parent ac_Xt mv_acc].
  rewrite rmap_bind. apply bind_ext. intros c _. reflexivity.
Qed.

Lemma simulate_move X mb solve fuel step prec : rigid X -> forall n s,
  simulate solve fuel (move_mb X mb) step prec n (fst s, move_mbc X mb (snd s)) =
  rmap (fun r => (fst r, move_mbc X mb (snd r))) (simulate solve fuel mb step prec n s).
Proof.
  intros HX. induction n as [|n IH]; intros [fd m]; cbn [simulate]; [reflexivity|]. cbn [fst snd].
  rewrite fk_move, bind_rmap, rmap_bind. apply bind_ext; intros m1 _.
  rewrite fv_move, bind_rmap, rmap_bind. apply bind_ext; intros m2 _.
  rewrite fd_move by exact HX. rewrite bind_rmap, rmap_bind. apply bind_ext; intros r _. unfold mv2. cbn [fst snd].
  rewrite integ_move, bind_rmap, rmap_bind. apply bind_ext; intros m3 _.
  apply (IH (fst r, m3)).
Qed.
