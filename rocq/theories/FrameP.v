(** The kinematic and dynamic functions seen from another world frame. *)
From Coq Require Import Reals String ZArith Bool Arith List Lia Lra FunctionalExtensionality.
From Verif Require Import Res ResP Vec VecP Sva SvaP Mat JointM MultiBodyM KinM DynM JacM CoMM MomM CoriolisM IntegM SpecFrame.
Import ListNotations.
Open Scope R_scope.

(** ** Outcomes and lists *)
Lemma rmap_bind {A B C} (f : B -> C) (x : res A) (k : A -> res B) :
  rmap f (bind x k) = bind x (fun a => rmap f (k a)).
Proof. destruct x; reflexivity. Qed.
Lemma bind_rmap {A B C} (f : A -> B) (x : res A) (k : B -> res C) :
  bind (rmap f x) k = bind x (fun a => k (f a)).
Proof. destruct x; reflexivity. Qed.
Lemma bind_ext {A B} (x : res A) (k k' : A -> res B) : (forall a, x = Ok a -> k a = k' a) -> bind x k = bind x k'.
Proof. destruct x; simpl; auto. Qed.
Lemma rmap_id {A} (x : res A) : rmap (fun a => a) x = x.
Proof. destruct x; reflexivity. Qed.
Lemma get_map {A B} (f : A -> B) l i : get (map f l) i = rmap f (get l i).
Proof. unfold get. rewrite nth_error_map. destruct (nth_error l i); reflexivity. Qed.
Lemma getz_map {A B} (f : A -> B) l i : getz (map f l) i = rmap f (getz l i).
Proof. unfold getz. destruct (i <? 0)%Z; [reflexivity|apply get_map]. Qed.
Lemma upd_map {A B} (f : A -> B) l : forall i a, upd (map f l) i (f a) = map f (upd l i a).
Proof. induction l as [|x l IH]; intros [|i] a; simpl; auto. now rewrite IH. Qed.
Lemma set_map {A B} (f : A -> B) l i a : set (map f l) i (f a) = rmap (map f) (set l i a).
Proof. unfold set. rewrite map_length. destruct (i <? length l)%nat; simpl; [now rewrite upd_map|reflexivity]. Qed.
Lemma setz_map {A B} (f : A -> B) l i a : setz (map f l) i (f a) = rmap (map f) (setz l i a).
Proof. unfold setz. destruct (i <? 0)%Z; [reflexivity|apply set_map]. Qed.
Lemma get_move X pred : forall l i,
  get (move_roots X pred l) i = rmap (fun x => if (nth i pred 0 =? -1)%Z then ptmul x X else x) (get l i).
Proof.
  unfold get. induction pred as [|p pred IH]; intros [|x l] [|i]; simpl; auto.
  - destruct i; destruct (nth_error l _); reflexivity.
Qed.
Lemma set_move X pred : forall l i a,
  set (move_roots X pred l) i (if (nth i pred 0 =? -1)%Z then ptmul a X else a) = rmap (move_roots X pred) (set l i a).
Proof.
  assert (L : forall l, length (move_roots X pred l) = length l).
  { induction pred as [|p pr IH]; intros [|x l]; simpl; auto. }
  intros l i a. unfold set. rewrite L. destruct (i <? length l)%nat; [|reflexivity]. simpl. f_equal. clear L.
  revert l i. induction pred as [|p pr IH]; intros [|x l] [|i]; simpl; auto.
  now rewrite IH.
Qed.
Lemma get_nth {A} (l : list A) i a d : get l i = Ok a -> nth i l d = a.
Proof. unfold get. destruct (nth_error l i) eqn:E; [|discriminate]. intros H; inversion H; subst. now apply nth_error_nth. Qed.

Lemma for_up_rmap {S T} (g : S -> T) n f f' : (forall i s, f' i (g s) = rmap g (f i s)) ->
  forall s, for_up n f' (g s) = rmap g (for_up n f s).
Proof.
  intros H. unfold for_up. generalize 0%nat. induction n as [|n IH]; intros lo s; simpl; [reflexivity|].
  rewrite H, bind_rmap, rmap_bind. apply bind_ext. intros a _. apply IH.
Qed.
Lemma for_up_ext {S} n (f f' : nat -> S -> res S) : (forall i s, f' i s = f i s) -> forall s, for_up n f' s = for_up n f s.
Proof.
  intros H. unfold for_up. generalize 0%nat. induction n as [|n IH]; intros lo s; simpl; [reflexivity|].
  rewrite H. apply bind_ext. intros a _. apply IH.
Qed.
Lemma for_down_ext {S} n (f f' : nat -> S -> res S) : (forall i s, f' i s = f i s) -> forall s, for_down n f' s = for_down n f s.
Proof.
  intros H. induction n as [|n IH]; intros s; simpl; [reflexivity|].
  rewrite H. apply bind_ext. intros a _. apply IH.
Qed.

(** ** Algebra *)
Lemma nd_mul E F v : mapp (mtr (mmul E F)) v = mapp (mtr F) (mapp (mtr E) v).
Proof. v3ring. Qed.
Lemma nd_add X a b : new_dir X (vadd a b) = vadd (new_dir X a) (new_dir X b).
Proof. unfold new_dir. v3ring. Qed.
Lemma nd_sub X a b : new_dir X (vsub a b) = vsub (new_dir X a) (new_dir X b).
Proof. unfold new_dir. v3ring. Qed.
Lemma nd_scale X k a : new_dir X (vscale k a) = vscale k (new_dir X a).
Proof. unfold new_dir. v3ring. Qed.
Lemma nd_0 X : new_dir X v0 = v0.
Proof. unfold new_dir. v3ring. Qed.
Lemma SO3_tr_app E v : SO3 E -> mapp E (mapp (mtr E) v) = v.
Proof.
  intros H. assert (K : rigid (mkPT E v0)) by exact H.
  pose proof (f_equal sang (ptm_ptinvm (mkPT E v0) (mkSV v v0) K)) as G. exact G.
Qed.
Lemma nd_cross X a b : rigid X -> new_dir X (vcross a b) = vcross (new_dir X a) (new_dir X b).
Proof.
  intros H. pose proof (scross_ptm (ptinv X) (mkSV a v0) (mkSV b v0) (rigid_inv X H)) as G.
  apply (f_equal sang) in G. exact G.
Qed.
Lemma nd_dot X a b : rigid X -> vdot (new_dir X a) (new_dir X b) = vdot a b.
Proof.
  intros H. unfold new_dir.
  transitivity (vdot a (mapp (rotE X) (mapp (mtr (rotE X)) b))); [v3ring|]. now rewrite SO3_tr_app.
Qed.
Lemma nt_0 X : new_turned X sv0 = sv0.
Proof. apply SV_ext; apply nd_0. Qed.
Lemma nt_add X a b : new_turned X (svadd a b) = svadd (new_turned X a) (new_turned X b).
Proof. apply SV_ext; apply nd_add. Qed.
Lemma nw_trans X f : new_wrench X f = pttrans X f.
Proof. reflexivity. Qed.

(** Only the second factor has to be rigid. *)
Lemma ptdual_mul2 P X f : rigid X -> ptdual (ptmul P X) f = ptdual P (ptdual X f).
Proof.
  intros H. pose proof (ptm_mul P X (mkSV (slin f) (sang f)) H) as G.
  apply SV_ext; [exact (f_equal slin G)|exact (f_equal sang G)].
Qed.
Lemma ptdual_new P X f : rigid X -> ptdual (ptmul P X) (new_wrench X f) = ptdual P f.
Proof. intros H. rewrite ptdual_mul2 by exact H. now rewrite nw_trans, ptdual_trans. Qed.
Lemma ptm_new P X v : rigid X -> ptm (ptmul P X) (new_motion X v) = ptm P v.
Proof. intros H. rewrite ptm_mul by exact H. f_equal. exact (ptm_ptinvm X v H). Qed.
Lemma new_motion_lin X g : mkSV v0 (new_dir X g) = new_motion X (mkSV v0 g).
Proof. apply SV_ext; unfold new_motion, new_dir; cbn [sang slin]; v3ring. Qed.
Lemma ptmul_new_inv P Q X : rigid X -> ptmul (ptmul P X) (ptinv (ptmul Q X)) = ptmul P (ptinv Q).
Proof.
  intros H.
  assert (K : ptinv (ptmul Q X) = ptmul (ptinv X) (ptinv Q)).
  { apply PT_ext; unfold ptinv, ptmul; cbn [rotE trR]; [v3ring|].
    transitivity (vadd (vopp (mapp (rotE Q) (mapp (rotE X) (trR X))))
                       (vopp (mapp (rotE Q) (mapp (rotE X) (mapp (mtr (rotE X)) (trR Q)))))); [v3ring|].
    rewrite SO3_tr_app by exact H. v3ring. }
  rewrite K, <- ptmul_assoc, (ptmul_assoc X), ptinv_r by exact H. now rewrite ptmul_id_l.
Qed.

(** ** Kinematics *)
Section Frame.
Variable X : PT.
Hypothesis HX : rigid X.
Variable mb : MultiBody.
Local Notation mv := (move_mbc X mb).

Ltac step := rewrite rmap_bind; apply bind_ext; intros ? ?.
Ltac step2 := rewrite ?bind_rmap, rmap_bind; apply bind_ext; intros ? ?.

Lemma fk_step_move i m : fk_step (move_mb X mb) i (mv m) = rmap mv (fk_step mb i m).
Proof.
  unfold fk_step. cbn [mb_pred mb_succ mb_joints mb_Xt move_mb q jointConfig move_mbc].
  rewrite rmap_bind. apply bind_ext. intros pr Hpr. pose proof (get_nth _ _ _ 0%Z Hpr) as Np.
  step. step. step. step. step.
  rewrite get_move, bind_rmap. step.
  cbn [parentToSon with_jointConfig move_mbc].
  match goal with |- bind (set _ _ ?v) _ = _ =>
    replace v with (if (nth i (mb_pred mb) 0 =? -1)%Z then ptmul (ptmul a2 a4) X else ptmul a2 a4)
  end.
  2:{ destruct (_ =? _)%Z; [apply eq_sym, ptmul_assoc|reflexivity]. }
  rewrite set_move, bind_rmap. step.
  cbn [motionSubspace with_parentToSon with_jointConfig with_motionSubspace parentToSon bodyPosW move_mbc].
  step.
  rewrite get_move, bind_rmap. step. rewrite Np.
  destruct (pr =? -1)%Z eqn:Ep; cbn [negb].
  - rewrite (setz_map (fun P => ptmul P X)), bind_rmap. step. reflexivity.
  - rewrite getz_map, bind_rmap. step. rewrite ptmul_assoc.
    rewrite (setz_map (fun P => ptmul P X)), bind_rmap. step. reflexivity.
Qed.
Lemma fk_move m : forwardKinematics (move_mb X mb) (mv m) = rmap mv (forwardKinematics mb m).
Proof. apply for_up_rmap. intros; apply fk_step_move. Qed.

Lemma fv_step_move i m : fv_step (move_mb X mb) i (mv m) = rmap mv (fv_step mb i m).
Proof.
  unfold fv_step. cbn [mb_pred mb_succ mb_joints mb_Xt move_mb alpha jointVelocity parentToSon move_mbc].
  rewrite rmap_bind. apply bind_ext. intros pr Hpr. pose proof (get_nth _ _ _ 0%Z Hpr) as Np.
  step. rewrite get_move, bind_rmap. step. step. step. step. step.
  cbn [bodyVelB with_jointVelocity bodyVelW with_bodyVelB bodyPosW move_mbc]. rewrite Np.
  assert (G : forall vb, (bv <- setz (bodyVelB m) a vb;;
     Xw <- getz (map (fun P => ptmul P X) (bodyPosW m)) a;;
     bw <- setz (map (new_turned X) (bodyVelW m)) a (ptinvm (ptrot (rotE Xw)) vb);;
     Ok (with_bodyVelW bw (with_bodyVelB bv (with_jointVelocity a4 (mv m))))) =
     rmap mv (bv <- setz (bodyVelB m) a vb;;
      Xw <- getz (bodyPosW m) a;;
      bw <- setz (bodyVelW m) a (ptinvm (ptrot (rotE Xw)) vb);;
      Ok (with_bodyVelW bw (with_bodyVelB bv (with_jointVelocity a4 m))))).
  { intros vb. step. rewrite getz_map, bind_rmap. step.
    replace (ptinvm (ptrot (rotE (ptmul a6 X))) vb) with (new_turned X (ptinvm (ptrot (rotE a6)) vb)).
    2:{ apply SV_ext; unfold new_turned, new_dir, ptinvm, ptmul, ptrot; cbn [sang slin rotE trR]; v3ring. }
    rewrite setz_map, bind_rmap. step. reflexivity. }
  destruct (pr =? -1)%Z eqn:Ep; cbn [negb bind].
  - apply G.
  - destruct (getz (bodyVelB m) pr); cbn [bind rmap]; try reflexivity. apply G.
Qed.
Lemma fv_move m : forwardVelocity (move_mb X mb) (mv m) = rmap mv (forwardVelocity mb m).
Proof. apply for_up_rmap. intros; apply fv_step_move. Qed.

Lemma fa_step_move A0 i m :
  fa_step (move_mb X mb) (new_motion X A0) i (mv m) = rmap mv (fa_step mb A0 i m).
Proof.
  unfold fa_step. cbn [mb_pred mb_succ mb_joints mb_Xt move_mb alphaD jointVelocity parentToSon move_mbc bodyVelB bodyAccB].
  rewrite rmap_bind. apply bind_ext. intros pr Hpr. pose proof (get_nth _ _ _ 0%Z Hpr) as Np.
  step. rewrite get_move, bind_rmap. step. step. step. step. step. step. rewrite Np.
  destruct (pr =? -1)%Z eqn:Ep; cbn [negb bind].
  - rewrite ptm_new by exact HX. step. reflexivity.
  - step. step. reflexivity.
Qed.
Lemma fa_move A0 m :
  forwardAcceleration (move_mb X mb) (mv m) (new_motion X A0) = rmap mv (forwardAcceleration mb m A0).
Proof. apply for_up_rmap. intros; apply fa_step_move. Qed.

(** ** Dynamics *)
Lemma id_step_move m a0 i s :
  id_step (move_mb X mb) (mv m) (new_motion X a0) i s = id_step mb m a0 i s.
Proof.
  unfold id_step. destruct s as [acc f].
  cbn [mb_pred mb_bodies mb_joints mb_Xt move_mb alphaD jointVelocity parentToSon move_mbc bodyVelB bodyPosW force].
  rewrite get_move, bind_rmap. apply bind_ext. intros Y HY.
  apply bind_ext; intros vj _. apply bind_ext; intros j _. apply bind_ext; intros adi _.
  apply bind_ext; intros at_ _. apply bind_ext; intros vb _. apply bind_ext; intros pr Hpr.
  rewrite (get_nth _ _ _ 0%Z Hpr).
  assert (G : forall ai, (acc0 <- set acc i ai;;
     b <- get (mb_bodies mb) i;;
     Xw <- get (map (fun P => ptmul P X) (bodyPosW m)) i;;
     fe <- get (map (new_wrench X) (force m)) i;;
     f0 <- set f i (svsub (svadd (rbim (binertia b) ai) (scrossDual vb (rbim (binertia b) vb))) (ptdual Xw fe));;
     Ok (acc0, f0)) =
     (acc0 <- set acc i ai;;
     b <- get (mb_bodies mb) i;;
     Xw <- get (bodyPosW m) i;;
     fe <- get (force m) i;;
     f0 <- set f i (svsub (svadd (rbim (binertia b) ai) (scrossDual vb (rbim (binertia b) vb))) (ptdual Xw fe));;
     Ok (acc0, f0))).
  { intros ai. apply bind_ext; intros ? _. apply bind_ext; intros ? _.
    rewrite get_map, bind_rmap. apply bind_ext; intros ? _.
    rewrite get_map, bind_rmap. apply bind_ext; intros ? _. now rewrite ptdual_new by exact HX. }
  destruct (pr =? -1)%Z; cbn [negb bind].
  - rewrite ptm_new by exact HX. apply G.
  - apply bind_ext; intros ? _. apply G.
Qed.
Lemma torque_step_move m i s : torque_step (move_mb X mb) (mv m) i s = torque_step mb m i s.
Proof.
  unfold torque_step. destruct s as [jt f].
  cbn [mb_pred mb_joints move_mb motionSubspace parentToSon move_mbc].
  apply bind_ext; intros j _. apply bind_ext; intros jt' _. apply bind_ext; intros pr Hpr.
  destruct (pr =? -1)%Z eqn:Ep; cbn [negb]; [reflexivity|].
  rewrite get_move, bind_rmap. rewrite (get_nth _ _ _ 0%Z Hpr), Ep. reflexivity.
Qed.
Definition mv2 {A} (r : A * MBC) : A * MBC := (fst r, mv (snd r)).
Lemma torques_move f m :
  computeJointTorques (move_mb X mb) f (mv m) = rmap mv2 (computeJointTorques mb f m).
Proof.
  unfold computeJointTorques.
  rewrite (for_down_ext (nrBodies mb) (torque_step mb m) (torque_step (move_mb X mb) (mv m)) (torque_step_move m)).
  cbn [jointTorque move_mbc]. step. reflexivity.
Qed.
Lemma id_move f m : inverseDynamics (move_mb X mb) f (mv m) = rmap mv2 (inverseDynamics mb f m).
Proof.
  unfold inverseDynamics. cbn [gravity move_mbc bodyAccB]. rewrite new_motion_lin.
  rewrite (for_up_ext (nrBodies mb) (id_step mb m (mkSV v0 (gravity m))) (id_step (move_mb X mb) (mv m) _)) by (intros; apply id_step_move).
  step. apply (torques_move (snd a) (with_bodyAccB (fst a) m)).
Qed.
Lemma idni_move f m :
  inverseDynamicsNoInertia (move_mb X mb) f (mv m) = rmap mv2 (inverseDynamicsNoInertia mb f m).
Proof.
  unfold inverseDynamicsNoInertia. cbn [bodyPosW force move_mbc].
  erewrite for_up_ext; [step; apply torques_move|].
  intros i s. rewrite get_map, bind_rmap. apply bind_ext; intros P _.
  rewrite get_map, bind_rmap. apply bind_ext; intros fe _. now rewrite ptdual_new by exact HX.
Qed.

Lemma anc_move m dp i di : forall fuel j H F,
  anc_loop (move_mb X mb) (mv m) dp i di fuel j H F = anc_loop mb m dp i di fuel j H F.
Proof.
  induction fuel as [|fuel IH]; intros j H F; cbn [anc_loop]; [reflexivity|].
  cbn [mb_pred mb_joints move_mb parentToSon motionSubspace move_mbc].
  apply bind_ext; intros pr Hpr. destruct (pr =? -1)%Z eqn:Ep; cbn [negb]; [reflexivity|].
  rewrite get_move, bind_rmap, (get_nth _ _ _ 0%Z Hpr), Ep.
  apply bind_ext; intros Y _. apply bind_ext; intros F' _. apply bind_ext; intros jj _.
  destruct (jdof jj =? 0)%nat; cbn [negb]; [apply IH|].
  repeat (apply bind_ext; intros ? _). apply IH.
Qed.
Lemma h_step_move m i s : h_step (move_mb X mb) (mv m) i s = h_step mb m i s.
Proof.
  unfold h_step. cbn [mb_pred mb_joints move_mb parentToSon motionSubspace move_mbc].
  apply bind_ext; intros pr Hpr. destruct (pr =? -1)%Z eqn:Ep; cbn [negb].
  - cbn [bind]. repeat (apply bind_ext; intros ? _).
    change (nrJoints (move_mb X mb)) with (nrJoints mb). now rewrite anc_move.
  - rewrite get_move, bind_rmap, (get_nth _ _ _ 0%Z Hpr), Ep. apply bind_ext; intros s' _.
    repeat (apply bind_ext; intros ? _).
    change (nrJoints (move_mb X mb)) with (nrJoints mb). now rewrite anc_move.
Qed.
Lemma computeH_move m s : computeH (move_mb X mb) (mv m) s = computeH mb m s.
Proof.
  unfold computeH. cbn [mb_bodies move_mb]. change (nrBodies (move_mb X mb)) with (nrBodies mb).
  apply bind_ext; intros s' _. apply for_down_ext. intros; apply h_step_move.
Qed.
Lemma c_step1_move m a0 i s : c_step1 (move_mb X mb) (mv m) (new_motion X a0) i s = c_step1 mb m a0 i s.
Proof.
  unfold c_step1.
  cbn [mb_pred mb_bodies mb_joints move_mb jointVelocity parentToSon move_mbc bodyVelB bodyPosW force].
  rewrite get_move, bind_rmap. apply bind_ext. intros Y HY.
  apply bind_ext; intros vj _. apply bind_ext; intros vb _. apply bind_ext; intros pr Hpr.
  rewrite (get_nth _ _ _ 0%Z Hpr).
  assert (G : forall ai, (acc <- set (fd_acc s) i ai;;
     b <- get (mb_bodies mb) i;;
     Xw <- get (map (fun P => ptmul P X) (bodyPosW m)) i;;
     fe <- get (map (new_wrench X) (force m)) i;;
     f0 <- set (fd_f s) i (svsub (svadd (rbim (binertia b) ai) (scrossDual vb (rbim (binertia b) vb))) (ptdual Xw fe));;
     Ok (with_f f0 (with_acc acc s))) =
     (acc <- set (fd_acc s) i ai;;
     b <- get (mb_bodies mb) i;;
     Xw <- get (bodyPosW m) i;;
     fe <- get (force m) i;;
     f0 <- set (fd_f s) i (svsub (svadd (rbim (binertia b) ai) (scrossDual vb (rbim (binertia b) vb))) (ptdual Xw fe));;
     Ok (with_f f0 (with_acc acc s)))).
  { intros ai. apply bind_ext; intros ? _. apply bind_ext; intros ? _.
    rewrite get_map, bind_rmap. apply bind_ext; intros ? _.
    rewrite get_map, bind_rmap. apply bind_ext; intros ? _. now rewrite ptdual_new by exact HX. }
  destruct (pr =? -1)%Z; cbn [negb bind].
  - rewrite ptm_new by exact HX. apply G.
  - apply bind_ext; intros ? _. apply G.
Qed.
Lemma c_step2_move m i s : c_step2 (move_mb X mb) (mv m) i s = c_step2 mb m i s.
Proof.
  unfold c_step2. cbn [mb_pred mb_joints move_mb parentToSon motionSubspace move_mbc].
  apply bind_ext; intros j _. apply bind_ext; intros pi _. apply bind_ext; intros ms _. apply bind_ext; intros fi _.
  apply bind_ext; intros C _. apply bind_ext; intros pr Hpr.
  destruct (pr =? -1)%Z eqn:Ep; cbn [negb]; [reflexivity|].
  rewrite get_move, bind_rmap, (get_nth _ _ _ 0%Z Hpr), Ep. reflexivity.
Qed.
Lemma computeC_move m s : computeC (move_mb X mb) (mv m) s = computeC mb m s.
Proof.
  unfold computeC. cbn [gravity move_mbc]. rewrite new_motion_lin.
  change (nrBodies (move_mb X mb)) with (nrBodies mb).
  rewrite (for_up_ext (nrBodies mb) (c_step1 mb m (mkSV v0 (gravity m))) (c_step1 (move_mb X mb) (mv m) _)) by (intros; apply c_step1_move).
  apply bind_ext; intros s' _. apply for_down_ext. intros; apply c_step2_move.
Qed.
Lemma fd_move solve m s :
  forwardDynamics solve (move_mb X mb) (mv m) s = rmap mv2 (forwardDynamics solve mb m s).
Proof.
  unfold forwardDynamics. rewrite computeH_move. step. rewrite computeC_move. step.
  cbn [jointTorque alphaD move_mbc]. step.
  destruct (_ =? _)%nat; [|reflexivity]. step. reflexivity.
Qed.

(** ** Integration and simulation *)
Lemma integ_move fuel m step prec : integration fuel (move_mb X mb) (mv m) step prec = rmap mv (integration fuel mb m step prec).
Proof.
  apply for_up_rmap. intros i s. unfold integ_joint.
  cbn [mb_joints move_mb q alpha alphaD move_mbc].
  do 8 step. reflexivity.
Qed.
End Frame.
