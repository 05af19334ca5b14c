(** Forward kinematics, velocity and acceleration in closed form along root paths. *)
From Coq Require Import Reals String ZArith Bool Arith Lia List.
From Verif Require Import Res ResP Vec VecP Sva SvaP Mat JointM MultiBodyM KinM Spec JointP KinP.
Import ListNotations.
Open Scope R_scope.

Lemma root_path_lt mb i l : wf_mb mb -> root_path mb i l ->
  (i < nrBodies mb)%nat /\ forall k, In k l -> (k <= i)%nat.
Proof.
  intros W H. induction H.
  - split. rewrite <- (wf_pred_len mb W). apply nth_error_Some. congruence.
    intros k [->|[]]. lia.
  - assert (Hi : (i < nrBodies mb)%nat).
    { rewrite <- (wf_pred_len mb W). apply nth_error_Some. congruence. }
    split; auto. intros k Hk. apply in_app_or in Hk. destruct Hk as [Hk|[->|[]]]; [|lia].
    apply IHroot_path in Hk. apply pred_par in H. pose proof (par_lt mb i p W Hi H). lia.
Qed.

Lemma root_path_exists mb : wf_mb mb -> forall i, (i < nrBodies mb)%nat -> exists l, root_path mb i l.
Proof.
  intros W i. induction i as [i IH] using lt_wf_ind. intros L.
  destruct (par mb i) as [p|] eqn:E.
  - pose proof (par_lt mb i p W L E). destruct (IH p) as (l & Hl); try lia.
    exists (l ++ [i]). eapply rp_step; eauto. now apply par_pred.
  - exists [i]. apply rp_root. now apply par_none.
Qed.

Lemma root_path_unique mb i l l' : wf_mb mb -> root_path mb i l -> root_path mb i l' -> l = l'.
Proof.
  intros W H. revert l'. induction H; intros l' H'; inversion H'; subst; auto.
  - rewrite H in H0. injection H0 as H0. lia.
  - rewrite H in H1. injection H1 as H1. lia.
  - rewrite H in H1. injection H1 as H1. apply Nat2Z.inj in H1. subst.
    f_equal. now apply IHroot_path.
Qed.

Lemma root_path_anc mb i l : wf_mb mb -> root_path mb i l -> forall k, In k l <-> anc mb k i.
Proof.
  intros W H. induction H; intros k.
  - split.
    + intros [->|[]]. constructor.
    + intros A. inversion A; subst; [now left|]. rewrite H in H0. injection H0 as H0. lia.
  - rewrite in_app_iff. rewrite IHroot_path. split.
    + intros [A|[->|[]]]. now apply (anc_step _ _ p). constructor.
    + intros A. inversion A; subst; [right; now left|].
      rewrite H in H1. injection H1 as H1. apply Nat2Z.inj in H1. subst. now left.
Qed.

Lemma chain_app P l i : chain P (l ++ [i]) = ptmul (P i) (chain P l).
Proof. unfold chain. now rewrite fold_left_app. Qed.
Lemma path_sum_app f l i : path_sum f (l ++ [i]) = svadd (path_sum f l) (f i).
Proof. unfold path_sum. now rewrite fold_left_app. Qed.

(** The world pose of a body composes joint and placement transforms along its path. *)
Lemma fk_chain mb m m' i l : wf_mb mb -> fk_post mb m m' -> root_path mb i l ->
  nth i (bodyPosW m') ptid = chain (fun k => nth k (parentToSon m') ptid) l.
Proof.
  intros W F H. induction H.
  - destruct (root_path_lt mb i [i] W) as [L _]; [now apply rp_root|].
    rewrite (fk_bp _ _ _ F) by auto. rewrite (pred_par_none _ _ H).
    unfold chain; simpl. now rewrite ptmul_id_r.
  - destruct (root_path_lt mb i (l ++ [i]) W) as [L _]; [eapply rp_step; eauto|].
    rewrite (fk_bp _ _ _ F) by auto. rewrite (pred_par _ _ _ H). rewrite IHroot_path.
    now rewrite chain_app.
Qed.

Lemma nth_error_nth_d {A} (l : list A) i d a : nth_error l i = Some a -> nth i l d = a.
Proof. apply nth_error_nth. Qed.

Lemma fk_rigid_pts mb m m' : wf_mb mb -> rigid_mb mb -> config_ok mb m -> length (q m) = nrJoints mb ->
  fk_post mb m m' -> forall i, (i < nrBodies mb)%nat -> rigid (nth i (parentToSon m') ptid).
Proof.
  intros W [RJ RX] C Lq F i L. pose proof (wf_nrJoints mb W) as NJ.
  rewrite (fk_pts _ _ _ F) by auto. apply rigid_mul.
  - eapply pose_rigid; [| |apply (fk_jc _ _ _ F i L)].
    + apply RJ. apply nth_In. unfold nrJoints in NJ. lia.
    + apply (C i).
      * apply nth_error_nth'. unfold nrJoints in NJ. lia.
      * apply nth_error_nth'. lia.
  - apply RX. apply nth_In. rewrite (wf_Xt_len mb W). auto.
Qed.

Lemma fk_rigid mb m m' : wf_mb mb -> rigid_mb mb -> config_ok mb m -> length (q m) = nrJoints mb ->
  fk_post mb m m' -> forall i, (i < nrBodies mb)%nat -> rigid (nth i (bodyPosW m') ptid).
Proof.
  intros W RM C Lq F i. induction i as [i IH] using lt_wf_ind. intros L.
  rewrite (fk_bp _ _ _ F) by auto.
  pose proof (fk_rigid_pts mb m m' W RM C Lq F i L).
  destruct (par mb i) eqn:P; auto. pose proof (par_lt mb i n W L P).
  apply rigid_mul; auto. apply IH; lia.
Qed.

(** Consistency of parentToSon and bodyPosW, as established by forward kinematics. *)
Definition placed (mb : MultiBody) (m : MBC) : Prop :=
  forall i, (i < nrBodies mb)%nat ->
    rigid (nth i (parentToSon m) ptid) /\ rigid (nth i (bodyPosW m) ptid) /\
    nth i (bodyPosW m) ptid =
      match par mb i with
      | Some p => ptmul (nth i (parentToSon m) ptid) (nth p (bodyPosW m) ptid)
      | None => nth i (parentToSon m) ptid
      end.

Lemma fk_placed mb m m' : wf_mb mb -> rigid_mb mb -> config_ok mb m -> length (q m) = nrJoints mb ->
  fk_post mb m m' -> placed mb m'.
Proof.
  intros W RM C Lq F i L. split; [|split].
  - eapply fk_rigid_pts; eauto.
  - eapply fk_rigid; eauto.
  - now apply (fk_bp _ _ _ F).
Qed.

Lemma ptm_path_sum X f l : ptm X (path_sum f l) = path_sum (fun k => ptm X (f k)) l.
Proof.
  unfold path_sum.
  assert (G : forall a b, ptm X a = b ->
     ptm X (fold_left (fun s k => svadd s (f k)) l a) = fold_left (fun s k => svadd s (ptm X (f k))) l b).
  { induction l; simpl; intros a0 b <-; auto. apply IHl. apply ptm_add. }
  apply G. apply ptm_sv0.
Qed.

Lemma path_sum_ext f g l : (forall k, In k l -> f k = g k) -> path_sum f l = path_sum g l.
Proof.
  unfold path_sum. generalize sv0. induction l; simpl; intros s H; auto.
  rewrite (H a) by auto. apply IHl. auto.
Qed.

Lemma relX_self W i : rigid (nth i W ptid) -> relX W i i = ptid.
Proof. intros. now apply ptinv_r. Qed.

Lemma relX_step mb m i p k : wf_mb mb -> placed mb m -> (i < nrBodies mb)%nat ->
  par mb i = Some p -> (k < nrBodies mb)%nat ->
  relX (bodyPosW m) i k = ptmul (nth i (parentToSon m) ptid) (relX (bodyPosW m) p k).
Proof.
  intros W C L P K. unfold relX. destruct (C i L) as (_ & _ & E). rewrite P in E. rewrite E.
  now rewrite ptmul_assoc.
Qed.

Lemma relX_rigid mb m i k : placed mb m -> (i < nrBodies mb)%nat -> (k < nrBodies mb)%nat ->
  rigid (relX (bodyPosW m) i k).
Proof. intros C L K. apply rigid_mul. apply C; auto. apply rigid_inv. apply C; auto. Qed.

(** Generic closed form of a forward recursion A_i = X_i A_parent(i) + s_i. *)
Lemma forward_closed mb m (A : nat -> SV) (A0 : SV) (s : nat -> SV) :
  wf_mb mb -> placed mb m ->
  (forall i, (i < nrBodies mb)%nat ->
     A i = svadd (ptm (nth i (parentToSon m) ptid) (match par mb i with Some p => A p | None => A0 end)) (s i)) ->
  forall i l, root_path mb i l ->
  A i = svadd (ptm (nth i (bodyPosW m) ptid) A0)
              (path_sum (fun k => ptm (relX (bodyPosW m) i k) (s k)) l).
Proof.
  intros W C H i l R. induction R.
  - destruct (root_path_lt mb i [i] W) as [L _]; [now apply rp_root|].
    rewrite H by auto. rewrite (pred_par_none _ _ H0).
    destruct (C i L) as (_ & RW & E). rewrite (pred_par_none _ _ H0) in E. rewrite <- E. f_equal.
    unfold path_sum; simpl. rewrite relX_self by auto. now rewrite ptm_id, svadd_0_l.
  - destruct (root_path_lt mb i (l ++ [i]) W) as [L LL]; [eapply rp_step; eauto|].
    pose proof (pred_par _ _ _ H0) as P. pose proof (par_lt mb i p W L P) as Lp.
    rewrite H by auto. rewrite P. rewrite IHR. rewrite ptm_add, <- ptm_mul by (apply C; lia).
    destruct (C i L) as (_ & RW & E). rewrite P in E. rewrite <- E.
    rewrite path_sum_app, ptm_path_sum, relX_self, ptm_id by auto.
    rewrite !svadd_assoc. f_equal. f_equal. apply path_sum_ext.
    intros k Hk. match goal with Hp : root_path mb p l |- _ => destruct (root_path_lt mb p l W Hp) as [_ RR] end.
    apply RR in Hk.
    rewrite (relX_step mb m i p k) by (auto; lia).
    rewrite ptm_mul; auto. apply (relX_rigid mb); auto; lia.
Qed.

Lemma fv_closed mb m m' i l : wf_mb mb -> placed mb m -> fv_post mb m m' -> root_path mb i l ->
  nth i (bodyVelB m') sv0 =
  path_sum (fun k => ptm (relX (bodyPosW m) i k) (smul (jS (nth k (mb_joints mb) jd)) (nth k (alpha m) []))) l.
Proof.
  intros W C F R.
  rewrite (forward_closed mb m (fun k => nth k (bodyVelB m') sv0) sv0
             (fun k => smul (jS (nth k (mb_joints mb) jd)) (nth k (alpha m) [])) W C) with (l := l); auto.
  - now rewrite ptm_sv0, svadd_0_l.
  - intros k L. rewrite <- (fv_jv _ _ _ F) by auto. rewrite (fv_vb _ _ _ F) by auto.
    destruct (par mb k); auto. now rewrite ptm_sv0, svadd_0_l.
Qed.

Lemma fa_closed mb A0 m m' i l : wf_mb mb -> placed mb m -> fa_post mb A0 m m' -> root_path mb i l ->
  nth i (bodyAccB m') sv0 =
  svadd (ptm (nth i (bodyPosW m) ptid) A0)
  (path_sum (fun k => ptm (relX (bodyPosW m) i k)
      (svadd (smul (jS (nth k (mb_joints mb) jd)) (nth k (alphaD m) []))
             (scross (nth k (bodyVelB m) sv0) (nth k (jointVelocity m) sv0)))) l).
Proof.
  intros W C F R.
  apply (forward_closed mb m (fun k => nth k (bodyAccB m') sv0) A0
     (fun k => svadd (smul (jS (nth k (mb_joints mb) jd)) (nth k (alphaD m) []))
             (scross (nth k (bodyVelB m) sv0) (nth k (jointVelocity m) sv0))) W C); auto.
  intros k L. rewrite (fa_acc _ _ _ _ F) by auto. now rewrite svadd_assoc.
Qed.
