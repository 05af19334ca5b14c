(** Multibodies and configurations as containers. *)
From Coq Require Import Reals String ZArith Bool Arith Lia Lra List.
From Verif Require Import Res ResP SMap Vec VecP Sva SvaP Mat JointM MultiBodyM KinM DynM Spec SpecDyn SpecConf
  JointP KinP KinFinP MbP ConvP DynP DynCP DynHP JointFinP Ex.
Import ListNotations.
Open Scope nat_scope.

(** ** Tiling *)
Lemma list_sum_firstn_le l i : list_sum (firstn i l) <= list_sum l.
Proof. revert i; induction l; intros [|i]; simpl; try lia. specialize (IHl i). lia. Qed.
Lemma tiles_sums size pos : length pos = length size ->
  (forall i, i < length size -> nth i pos 0 = list_sum (firstn i size)) -> tiles pos size (list_sum size).
Proof.
  intros L H.
  assert (S1 : forall i, i < length size -> list_sum (firstn (S i) size) = list_sum (firstn i size) + nth i size 0).
  { intros i Hi. clear -Hi. revert i Hi. induction size; intros i Hi; simpl in *; [lia|].
    destruct i; simpl; [lia|]. rewrite IHsize by lia. simpl. lia. }
  split; [auto|]. split; [|split].
  - intros i Hi. rewrite H by auto. rewrite <- S1 by auto. apply list_sum_firstn_le.
  - intros i k [Hik Hk]. rewrite !H by lia. rewrite <- S1 by lia.
    replace (firstn (S i) size) with (firstn (S i) (firstn k size)); [apply list_sum_firstn_le|].
    rewrite firstn_firstn. f_equal. lia.
  - intros p Hp.
    assert (G : forall n, n <= length size -> p < list_sum (firstn n size) ->
        exists i, i < n /\ list_sum (firstn i size) <= p < list_sum (firstn (S i) size)).
    { induction n; intros Hn Hlt; [simpl in Hlt; lia|].
      destruct (Nat.lt_ge_cases p (list_sum (firstn n size))) as [C|C].
      - destruct IHn as (i & Hi & HH); [lia|auto|]. exists i. split; [lia|auto].
      - exists n. split; [lia|]. auto. }
    destruct (G (length size)) as (i & Hi & H1); [lia|rewrite firstn_all; auto|].
    exists i. split; [auto|]. rewrite H by auto. rewrite <- S1 by auto. auto.
Qed.
Lemma firstn_map' {A B} (f : A -> B) n l : firstn n (map f l) = map f (firstn n l).
Proof. revert n; induction l; destruct n; simpl; auto. now rewrite IHl. Qed.

Lemma ctor_tiles bodies joints pred succ parent Xt mb : length joints = length bodies ->
  MultiBody_ctor bodies joints pred succ parent Xt = Ok mb ->
  mb_joints mb = joints /\ mb_bodies mb = bodies /\
  tiles (mb_posParam mb) (map jparams joints) (mb_nrParams mb) /\
  tiles (mb_posDof mb) (map jdof joints) (mb_nrDof mb).
Proof.
  intros L E. destruct (MultiBody_ctor_spec bodies joints pred succ parent Xt) as
    (mb' & E' & Eb & Ej & _ & _ & _ & _ & Lpp & Lpd & Pos & Np & Nd & _); [lia|].
  rewrite E in E'. injection E' as <-. rewrite <- L, firstn_all in Np, Nd. rewrite Np, Nd.
  split; [auto|]. split; [auto|]. split; apply tiles_sums; rewrite ?map_length; auto; intros i Hi;
    destruct (Pos i ltac:(lia)) as [P1 P2]; rewrite firstn_map'.
  - now apply nth_error_nth.
  - now apply nth_error_nth.
Qed.

(** ** Names *)
Lemma names_last bodies joints pred succ parent Xt mb : length joints = length bodies ->
  MultiBody_ctor bodies joints pred succ parent Xt = Ok mb ->
  (forall n i, bodyIndexByName mb n = Ok (Z.of_nat i) <->
     nth_error (map bname bodies) i = Some n /\ forall k, i < k -> nth_error (map bname bodies) k <> Some n) /\
  (forall n i, jointIndexByName mb n = Ok (Z.of_nat i) <->
     nth_error (map jname joints) i = Some n /\ forall k, i < k -> nth_error (map jname joints) k <> Some n) /\
  (forall n z, bodyIndexByName mb n = Ok z -> exists i, z = Z.of_nat i) /\
  (forall n z, jointIndexByName mb n = Ok z -> exists i, z = Z.of_nat i) /\
  (forall n, sBodyIndexByName mb n = Throw OutOfRange <-> ~ In n (map bname bodies)) /\
  (forall n, sJointIndexByName mb n = Throw OutOfRange <-> ~ In n (map jname joints)) /\
  (forall n, bodyIndexByName mb n = UB <-> ~ In n (map bname bodies)) /\
  (forall n, jointIndexByName mb n = UB <-> ~ In n (map jname joints)) /\
  (forall n, In n (map bname bodies) -> sBodyIndexByName mb n = bodyIndexByName mb n) /\
  (forall n, In n (map jname joints) -> sJointIndexByName mb n = jointIndexByName mb n).
Proof.
  intros L E. destruct (MultiBody_ctor_spec bodies joints pred succ parent Xt) as
    (mb' & E' & _ & _ & _ & _ & _ & _ & _ & _ & _ & _ & _ & Mb & Mj); [lia|].
  rewrite E in E'. injection E' as <-.
  assert (G : forall (A : Type) (nm : A -> string) (l : list A) d k mp, k = length l ->
     map_ok (fun i => nm (nth i l d)) k mp ->
     (forall n i, mfind mp n = Some (Z.of_nat i) <->
        nth_error (map nm l) i = Some n /\ forall k, i < k -> nth_error (map nm l) k <> Some n) /\
     (forall n z, mfind mp n = Some z -> exists i, z = Z.of_nat i) /\
     (forall n, mfind mp n = None <-> ~ In n (map nm l))).
  { clear. intros A nm l d k mp -> M.
    assert (NE : forall i n, nth_error (map nm l) i = Some n <-> i < length l /\ nm (nth i l d) = n).
    { intros i n. split.
      - intros H. assert (i < length l) by (rewrite <- (map_length nm); apply nth_error_Some; congruence).
        split; auto. rewrite nth_error_map, (nth_error_nth' l d H0) in H. simpl in H. congruence.
      - intros [H <-]. now rewrite nth_error_map, (nth_error_nth' l d H). }
    split; [|split].
    - intros n i. rewrite (M n (Z.of_nat i)). unfold last_named. split.
      + intros (i' & Z1 & H1 & H2 & H3). apply Nat2Z.inj in Z1. subst i'. split; [apply NE; auto|].
        intros k Hk C. apply NE in C. apply (H3 k); [lia|tauto].
      + intros (H1 & H2). apply NE in H1. exists i. split; [auto|]. split; [tauto|]. split; [tauto|].
        intros k Hk C. apply (H2 k); [lia|]. apply NE. split; [lia|auto].
    - intros n z H. apply (M n z) in H. destruct H as (i & H & _). eauto.
    - intros n. split.
      + intros H I. apply In_nth_error in I. destruct I as (i0 & I0).
        assert (EX : exists i, (nm (nth i l d) = n /\ i < length l) /\ forall k, i < k < length l -> nm (nth k l d) <> n).
        { apply NE in I0. clear H M NE. destruct I0 as [I1 I2].
          remember (length l - i0) as g. revert i0 I1 I2 Heqg. induction g as [g IH] using lt_wf_ind. intros i0 I1 I2 Hg.
          destruct (existsb (fun k => String.eqb (nm (nth k l d)) n) (seq (S i0) (length l - S i0))) eqn:X.
          - apply existsb_exists in X. destruct X as (k & Ik & Ek). apply in_seq in Ik. apply String.eqb_eq in Ek.
            apply (IH (length l - k)) with (i0 := k); auto; lia.
          - exists i0. split; auto. intros k Hk C.
            assert (T : existsb (fun k => String.eqb (nm (nth k l d)) n) (seq (S i0) (length l - S i0)) = true).
            { apply existsb_exists. exists k. split; [apply in_seq; lia|]. now apply String.eqb_eq. }
            congruence. }
        destruct EX as (i & (H1 & H2) & H3).
        assert (S1 : mfind mp n = Some (Z.of_nat i)) by (apply M; exists i; auto).
        congruence.
      + intros NI. destruct (mfind mp n) eqn:F; auto. exfalso. apply NI.
        apply M in F. destruct F as (i & _ & H1 & H2 & _). apply nth_error_In with (n := i). apply NE. auto. }
  destruct (G _ bname bodies bd _ _ eq_refl Mb) as (B1 & B2 & B3).
  destruct (G _ jname joints jd _ _ (eq_sym L) Mj) as (J1 & J2 & J3).
  unfold bodyIndexByName, jointIndexByName, sBodyIndexByName, sJointIndexByName, mat_, mfind_deref.
  assert (BO : forall mp (n : string) i, match mfind mp n with Some a => Ok a | None => UB end = Ok (Z.of_nat i) <-> mfind mp n = Some (Z.of_nat i)).
  { intros mp n i. destruct (mfind mp n); split; intros; congruence. }
  split; [intros; rewrite BO; apply B1|]. split; [intros; rewrite BO; apply J1|].
  split; [intros n z H; apply (B2 n); destruct (mfind _ n); congruence|].
  split; [intros n z H; apply (J2 n); destruct (mfind _ n); congruence|].
  split; [intros n; rewrite <- B3; destruct (mfind _ n); split; congruence|].
  split; [intros n; rewrite <- J3; destruct (mfind _ n); split; congruence|].
  split; [intros n; rewrite <- B3; destruct (mfind _ n); split; congruence|].
  split; [intros n; rewrite <- J3; destruct (mfind _ n); split; congruence|].
  split; intros n H; [destruct (mfind (mb_bodyInd mb) n) eqn:F|destruct (mfind (mb_jointInd mb) n) eqn:F]; auto;
    [apply B3 in F|apply J3 in F]; contradiction.
Qed.
Lemma last_unique {A} (l : list A) i n : NoDup l -> nth_error l i = Some n -> forall k, i < k -> nth_error l k <> Some n.
Proof.
  intros ND H k Hk C. assert (i = k); [|lia].
  apply (proj1 (NoDup_nth_error l) ND); [apply nth_error_Some; congruence|congruence].
Qed.

(** ** Vectors and per-joint parameters *)
Lemma check_loop {St} n (b : nat -> bool) e (body : nat -> St -> res St) s :
  (forall i, i < n -> body i s = if b i then Ok s else Throw e) ->
  for_up n body s = if forallb b (seq 0 n) then Ok s else Throw e.
Proof.
  assert (G : forall n lo, (forall i, lo <= i < lo + n -> body i s = if b i then Ok s else Throw e) ->
    for_from lo n body s = if forallb b (seq lo n) then Ok s else Throw e).
  { clear. induction n; intros lo H; simpl; auto. rewrite H by lia. destruct (b lo); simpl; auto.
    apply IHn. intros; apply H; lia. }
  intros H. apply G. intros; apply H; lia.
Qed.
Lemma sized_dec_eq {A} mb f (v : list (list A)) : length v = nrJoints mb ->
  (forallb (fun i => length (nth i v []) =? f (nth i (mb_joints mb) jd)) (seq 0 (nrJoints mb)) = true <-> sized mb f v).
Proof.
  intros L. rewrite forallb_forall. split.
  - intros H. apply sized_of_nth; auto. intros i Hi. apply Nat.eqb_eq, H, in_seq. lia.
  - intros H i Hi. apply in_seq in Hi. apply Nat.eqb_eq. apply (sized_nth _ _ _ _ H). lia.
Qed.
Lemma checkSizes_spec mb v f :
  (sized mb f v -> checkSizes mb v f = Ok tt) /\ (~ sized mb f v -> checkSizes mb v f = Throw OutOfRange).
Proof.
  unfold checkSizes. destruct (Nat.eqb_spec (length v) (nrJoints mb)) as [L|L].
  - rewrite (check_loop _ (fun i => length (nth i v []) =? f (nth i (mb_joints mb) jd)) OutOfRange).
    + pose proof (sized_dec_eq mb f v L) as D. destruct (forallb _ _); split; intros H; auto; exfalso; intuition congruence.
    + intros i Hi. rewrite (get_nth _ _ jd), (get_nth _ _ []) by (unfold nrJoints in *; lia). cbn [bind].
      now rewrite Nat.eqb_sym.
  - split; auto. intros H. apply sized_length in H. congruence.
Qed.
Lemma checkEach_spec {A} mb (v : list (list A)) f :
  (sized mb f v -> checkMatchJointsVector mb v ;;; checkEach mb v f = Ok tt) /\
  (~ sized mb f v -> checkMatchJointsVector mb v ;;; checkEach mb v f = Throw DomainError).
Proof.
  unfold checkMatchJointsVector, checkEach. destruct (Nat.eqb_spec (length v) (nrJoints mb)) as [L|L]; cbn [bind].
  - rewrite (check_loop _ (fun i => length (nth i v []) =? f (nth i (mb_joints mb) jd)) DomainError).
    + pose proof (sized_dec_eq mb f v L) as D. rewrite L. destruct (forallb _ _); split; intros H; auto; exfalso; intuition congruence.
    + intros i Hi. rewrite (get_nth _ _ []), (get_nth _ _ jd) by (unfold nrJoints in *; lia). reflexivity.
  - split; auto. intros H. apply sized_length in H. congruence.
Qed.
Lemma sized_zeros {A} (a : A) mb f : sized mb f (map (fun j => repeat a (f j)) (mb_joints mb)).
Proof. unfold sized. rewrite map_map. apply map_ext. intros. apply repeat_length. Qed.
Lemma conv_fwd (g : nat -> R) mb f n v : sized mb f v -> n = list_sum (map f (mb_joints mb)) ->
  paramToVector v (map g (seq 0 n)) = Ok (concat v).
Proof.
  intros H ->. apply paramToVector_ok. rewrite (concat_length mb v f H), map_length, seq_length. auto.
Qed.
Lemma conv_bwd mb f v e : sized mb f v -> length e = list_sum (map f (mb_joints mb)) ->
  exists v', vectorToParam e v = Ok v' /\ sized mb f v' /\ concat v' = e.
Proof.
  intros H L. destruct (vectorToParam_ok e v) as (v' & E & M & C); [rewrite (concat_length mb v f H); auto|].
  exists v'. split; auto. split; auto. unfold sized in *. congruence.
Qed.

(** ** A fresh configuration, and zero *)
Lemma MBC_zero_ok mb m : wf_mb mb -> mbc_ok mb m ->
  MBC_zero mb m = Ok (with_force (repeat sv0 (nrBodies mb))
     (with_jointTorque (map zeroDof (mb_joints mb)) (with_alphaD (map zeroDof (mb_joints mb))
     (with_alpha (map zeroDof (mb_joints mb)) (with_q (map zeroParam (mb_joints mb)) m))))).
Proof.
  intros W K. unfold MBC_zero.
  pose proof (sized_length _ _ _ (ok_q _ _ K)) as Lq. pose proof (sized_length _ _ _ (ok_alpha _ _ K)) as La.
  pose proof (sized_length _ _ _ (ok_alphaD _ _ K)) as Ld. pose proof (sized_length _ _ _ (ok_jointTorque _ _ K)) as Lt.
  pose proof (ok_force _ _ K) as Lf.
  rewrite Lq. unfold nrJoints in *.
  match goal with |- context [for_up ?n ?b m] => pose (B := b); change (for_up n b m) with (for_up n B m);
    destruct (for_up_inv (fun k m' => m' = with_jointTorque (jointTorque m') (with_alphaD (alphaD m') (with_alpha (alpha m') (with_q (q m') m))) /\
      length (q m') = length (mb_joints mb) /\ length (alpha m') = length (mb_joints mb) /\
      length (alphaD m') = length (mb_joints mb) /\ length (jointTorque m') = length (mb_joints mb) /\
      forall i, i < k -> nth i (q m') [] = zeroParam (nth i (mb_joints mb) jd) /\
         nth i (alpha m') [] = zeroDof (nth i (mb_joints mb) jd) /\ nth i (alphaD m') [] = zeroDof (nth i (mb_joints mb) jd) /\
         nth i (jointTorque m') [] = zeroDof (nth i (mb_joints mb) jd)) B n m) as (m1 & E1 & F1 & L1 & L2 & L3 & L4 & H1) end.
  - split; [destruct m; reflexivity|]. repeat (split; auto); intros; lia.
  - intros i m' Hi (F & L1 & L2 & L3 & L4 & H). unfold B. gets.
    eexists; split; [reflexivity|]. cbn [q alpha alphaD jointTorque with_q with_alpha with_alphaD with_jointTorque]. rewrite !upd_length.
    split; [rewrite F; reflexivity|]. do 4 (split; [auto|]).
    intros k Hk. destruct (Nat.eq_dec k i) as [->|].
    + rewrite !nth_upd_eq by lia. auto.
    + rewrite !nth_upd_neq by auto. apply H. lia.
  - rewrite E1. cbn [bind].
    assert (Lf1 : length (force m1) = nrBodies mb) by (rewrite F1; auto). rewrite Lf1.
    destruct (for_up_inv (fun k m' => m' = with_force (force m') m1 /\ length (force m') = nrBodies mb /\
       forall i, i < k -> nth i (force m') sv0 = sv0)
       (fun i m => f' <- set (force m) i sv0 ;; Ok (with_force f' m)) (nrBodies mb) m1) as (m2 & E2 & F2 & L5 & H2).
    + split; [destruct m1; reflexivity|]. split; auto. intros; lia.
    + intros i m' Hi (F & L & H). gets. eexists; split; [reflexivity|]. cbn [force with_force]. rewrite upd_length.
      split; [rewrite F; reflexivity|]. split; auto. intros k Hk. destruct (Nat.eq_dec k i) as [->|].
      * now rewrite nth_upd_eq by lia.
      * rewrite nth_upd_neq by auto. apply H; lia.
    + rewrite E2. f_equal. rewrite F2, F1.
      assert (Q1 : q m1 = map zeroParam (mb_joints mb)).
      { apply (list_ext_nth _ _ []); rewrite ?map_length; auto. intros i Hi.
        rewrite (nth_map_lt _ _ _ jd) by lia. apply H1. lia. }
      assert (Q2 : alpha m1 = map zeroDof (mb_joints mb)).
      { apply (list_ext_nth _ _ []); rewrite ?map_length; auto. intros i Hi.
        rewrite (nth_map_lt _ _ _ jd) by lia. apply H1. lia. }
      assert (Q3 : alphaD m1 = map zeroDof (mb_joints mb)).
      { apply (list_ext_nth _ _ []); rewrite ?map_length; auto. intros i Hi.
        rewrite (nth_map_lt _ _ _ jd) by lia. apply H1. lia. }
      assert (Q4 : jointTorque m1 = map zeroDof (mb_joints mb)).
      { apply (list_ext_nth _ _ []); rewrite ?map_length; auto. intros i Hi.
        rewrite (nth_map_lt _ _ _ jd) by lia. apply H1. lia. }
      assert (Q5 : force m2 = repeat sv0 (nrBodies mb)).
      { apply (list_ext_nth _ _ sv0); rewrite ?repeat_length; auto. intros i Hi. rewrite nth_repeat. apply H2. lia. }
      rewrite Q1, Q2, Q3, Q4, Q5. reflexivity.
Qed.
Definition all_checks (mb : MultiBody) (m : MBC) : Prop :=
  checkMatchBodyPos mb m = Ok tt /\ checkMatchParentToSon mb m = Ok tt /\ checkMatchBodyVel mb m = Ok tt /\
  checkMatchBodyAcc mb m = Ok tt /\ checkMatchJointConf mb m = Ok tt /\ checkMatchJointVelocity mb m = Ok tt /\
  checkMatchJointTorque mb m = Ok tt /\ checkMatchMotionSubspace mb m = Ok tt /\ checkMatchQ mb m = Ok tt /\
  checkMatchAlpha mb m = Ok tt /\ checkMatchAlphaD mb m = Ok tt /\ checkMatchForce mb m = Ok tt.
Lemma checkB {A} mb (v : list A) : (length v = nrBodies mb -> checkMatchBodiesVector mb v = Ok tt) /\
  (length v <> nrBodies mb -> checkMatchBodiesVector mb v = Throw DomainError).
Proof. unfold checkMatchBodiesVector. destruct (Nat.eqb_spec (length v) (nrBodies mb)); split; auto; congruence. Qed.
Lemma checkJ {A} mb (v : list A) : (length v = nrJoints mb -> checkMatchJointsVector mb v = Ok tt) /\
  (length v <> nrJoints mb -> checkMatchJointsVector mb v = Throw DomainError).
Proof. unfold checkMatchJointsVector. destruct (Nat.eqb_spec (length v) (nrJoints mb)); split; auto; congruence. Qed.
Lemma mbc_ok_checks mb m : nrJoints mb = nrBodies mb -> mbc_ok mb m -> all_checks mb m.
Proof.
  intros NJ K. unfold all_checks, checkMatchBodyVel.
  rewrite (proj1 (checkB mb (bodyVelW m)) (ok_bodyVelW _ _ K)). cbn [bind].
  destruct K. rewrite <- NJ in ok_parentToSon.
  split; [now apply checkB|]. split; [now apply checkJ|]. split; [now apply checkB|]. split; [now apply checkB|].
  split; [now apply checkJ|]. split; [now apply checkJ|].
  do 5 (split; [now apply checkEach_spec|]). now apply checkB.
Qed.

(** ** Safe functions *)
(** What a passed check means. *)
Lemma checkB_inv {A} mb (v : list A) : checkMatchBodiesVector mb v = Throw DomainError \/
  (checkMatchBodiesVector mb v = Ok tt /\ length v = nrBodies mb).
Proof. destruct (checkB mb v). destruct (Nat.eq_dec (length v) (nrBodies mb)); auto. Qed.
Lemma checkJ_inv {A} mb (v : list A) : checkMatchJointsVector mb v = Throw DomainError \/
  (checkMatchJointsVector mb v = Ok tt /\ length v = nrJoints mb).
Proof. destruct (checkJ mb v). destruct (Nat.eq_dec (length v) (nrJoints mb)); auto. Qed.
Lemma sized_dec {A} mb f (v : list (list A)) : {sized mb f v} + {~ sized mb f v}.
Proof. unfold sized. apply list_eq_dec, Nat.eq_dec. Qed.
Lemma checkE_inv {A} mb (v : list (list A)) f :
  checkMatchJointsVector mb v ;;; checkEach mb v f = Throw DomainError \/
  (checkMatchJointsVector mb v ;;; checkEach mb v f = Ok tt /\ sized mb f v).
Proof. destruct (checkEach_spec mb v f). destruct (sized_dec mb f v); auto. Qed.

Ltac chk t := let E := fresh in let S := fresh "S" in
  destruct t as [E|[E S]]; rewrite E; cbn [bind]; [now left|].
Ltac chk_vel mb m := unfold checkMatchBodyVel; rewrite !bind_assoc;
  chk (checkB_inv mb (bodyVelW m)); chk (checkB_inv mb (bodyVelB m)).

Lemma sFV_defined mb m : wf_mb mb -> defined (sForwardVelocity mb m).
Proof.
  intros W. pose proof (wf_nrJoints mb W) as NJ. unfold defined, sForwardVelocity.
  chk (checkE_inv mb (alpha m) jdof : checkMatchAlpha mb m = _ \/ checkMatchAlpha mb m = _ /\ _).
  chk (checkB_inv mb (bodyPosW m) : checkMatchBodyPos mb m = _ \/ checkMatchBodyPos mb m = _ /\ _).
  chk (checkJ_inv mb (jointConfig m) : checkMatchJointConf mb m = _ \/ checkMatchJointConf mb m = _ /\ _).
  chk (checkJ_inv mb (parentToSon m) : checkMatchParentToSon mb m = _ \/ checkMatchParentToSon mb m = _ /\ _).
  chk_vel mb m.
  chk (checkJ_inv mb (jointVelocity m) : checkMatchJointVelocity mb m = _ \/ checkMatchJointVelocity mb m = _ /\ _).
  chk (checkE_inv mb (motionSubspace m) jdof : checkMatchMotionSubspace mb m = _ \/ checkMatchMotionSubspace mb m = _ /\ _).
  right. destruct (FV_ok mb m) as (m' & E & _); auto; try congruence. eauto.
Qed.
Lemma sFA_defined mb m A0 : wf_mb mb -> defined (sForwardAcceleration mb m A0).
Proof.
  intros W. pose proof (wf_nrJoints mb W) as NJ. unfold defined, sForwardAcceleration.
  chk (checkE_inv mb (alphaD m) jdof : checkMatchAlphaD mb m = _ \/ checkMatchAlphaD mb m = _ /\ _).
  chk (checkJ_inv mb (parentToSon m) : checkMatchParentToSon mb m = _ \/ checkMatchParentToSon mb m = _ /\ _).
  chk (checkJ_inv mb (jointVelocity m) : checkMatchJointVelocity mb m = _ \/ checkMatchJointVelocity mb m = _ /\ _).
  chk_vel mb m.
  chk (checkB_inv mb (bodyAccB m) : checkMatchBodyAcc mb m = _ \/ checkMatchBodyAcc mb m = _ /\ _).
  right. destruct (FA_ok mb m A0) as (m' & E & _); auto; try congruence. eauto.
Qed.
(** Forward kinematics does not check the motion subspaces: it is defined if they have
    the right number. *)
Lemma sFK_defined mb m : wf_mb mb -> length (motionSubspace m) = nrJoints mb -> defined (sForwardKinematics mb m).
Proof.
  intros W Lm. pose proof (wf_nrJoints mb W) as NJ. unfold defined, sForwardKinematics.
  chk (checkE_inv mb (q m) jparams : checkMatchQ mb m = _ \/ checkMatchQ mb m = _ /\ _).
  chk (checkB_inv mb (bodyPosW m) : checkMatchBodyPos mb m = _ \/ checkMatchBodyPos mb m = _ /\ _).
  chk (checkJ_inv mb (jointConfig m) : checkMatchJointConf mb m = _ \/ checkMatchJointConf mb m = _ /\ _).
  chk (checkJ_inv mb (parentToSon m) : checkMatchParentToSon mb m = _ \/ checkMatchParentToSon mb m = _ /\ _).
  right. destruct (FK_ok mb m) as (m' & E & _); auto; try congruence. eauto.
Qed.

(** Fields that an algorithm does not read can be replaced by ones of the right size. *)
Definition fill_qa mb m := with_q (map (fun j => repeat 0%R (jparams j)) (mb_joints mb))
   (with_alpha (map (fun j => repeat 0%R (jdof j)) (mb_joints mb)) m).
Definition fill_c mb m := with_alphaD (map (fun j => repeat 0%R (jdof j)) (mb_joints mb))
  (with_jointTorque (map (fun j => repeat 0%R (jdof j)) (mb_joints mb))
  (with_jointConfig (repeat ptid (nrJoints mb)) (with_bodyAccB (repeat sv0 (nrBodies mb)) (fill_qa mb m)))).
Definition fill_h mb m := with_jointVelocity (repeat sv0 (nrJoints mb)) (with_bodyVelW (repeat sv0 (nrBodies mb))
  (with_bodyVelB (repeat sv0 (nrBodies mb)) (with_bodyPosW (repeat ptid (nrBodies mb))
  (with_force (repeat sv0 (nrBodies mb)) (fill_c mb m))))).

Lemma id_checks_inv mb m : wf_mb mb -> id_checks mb m = Throw DomainError \/
  (id_checks mb m = Ok tt /\ mbc_ok mb (fill_qa mb m)).
Proof.
  intros W. pose proof (wf_nrJoints mb W) as NJ. unfold id_checks.
  chk (checkE_inv mb (alphaD m) jdof : checkMatchAlphaD mb m = _ \/ checkMatchAlphaD mb m = _ /\ _).
  chk (checkB_inv mb (force m) : checkMatchForce mb m = _ \/ checkMatchForce mb m = _ /\ _).
  chk (checkJ_inv mb (jointConfig m) : checkMatchJointConf mb m = _ \/ checkMatchJointConf mb m = _ /\ _).
  chk (checkJ_inv mb (jointVelocity m) : checkMatchJointVelocity mb m = _ \/ checkMatchJointVelocity mb m = _ /\ _).
  chk (checkB_inv mb (bodyPosW m) : checkMatchBodyPos mb m = _ \/ checkMatchBodyPos mb m = _ /\ _).
  chk (checkJ_inv mb (parentToSon m) : checkMatchParentToSon mb m = _ \/ checkMatchParentToSon mb m = _ /\ _).
  chk_vel mb m.
  chk (checkE_inv mb (motionSubspace m) jdof : checkMatchMotionSubspace mb m = _ \/ checkMatchMotionSubspace mb m = _ /\ _).
  chk (checkB_inv mb (bodyAccB m) : checkMatchBodyAcc mb m = _ \/ checkMatchBodyAcc mb m = _ /\ _).
  destruct (checkE_inv mb (jointTorque m) jdof : checkMatchJointTorque mb m = _ \/ checkMatchJointTorque mb m = _ /\ _) as [E|[E S9]];
    [now left|]. right. split; auto.
  constructor; cbn; auto; try apply sized_zeros. congruence.
Qed.
Lemma sID_defined mb f m : wf_mb mb -> length f = nrBodies mb -> defined (sInverseDynamics mb f m).
Proof.
  intros W Lf. unfold defined, sInverseDynamics. destruct (id_checks_inv mb m W) as [E|[E K]]; rewrite E; cbn [bind]; [now left|right].
  assert (KK := K). destruct KK. cbn in *.
  destruct (id_forward_ok mb (fill_qa mb m) f (mkSV v0 (gravity m)) W K Lf) as (A & f' & E1 & LA & LF & _).
  unfold inverseDynamics.
  change (for_up (nrBodies mb) (id_step mb m (mkSV v0 (gravity m))) (bodyAccB m, f))
    with (for_up (nrBodies mb) (id_step mb (fill_qa mb m) (mkSV v0 (gravity m))) (bodyAccB (fill_qa mb m), f)).
  rewrite E1. cbn [bind fst snd].
  destruct (torques_ok mb (with_bodyAccB A m) f') as (f2 & m2 & E2 & _); auto. eauto.
Qed.
Lemma sIDN_defined mb f m : wf_mb mb -> length f = nrBodies mb -> defined (sInverseDynamicsNoInertia mb f m).
Proof.
  intros W Lf. unfold defined, sInverseDynamicsNoInertia. destruct (id_checks_inv mb m W) as [E|[E K]]; rewrite E; cbn [bind]; [now left|right].
  destruct K. cbn in *. unfold inverseDynamicsNoInertia.
  destruct (for_up_inv (fun _ f => length f = nrBodies mb)
    (fun i f => Xw <- get (bodyPosW m) i ;; fe <- get (force m) i ;; set f i (ptdual Xw fe)) (nrBodies mb) f) as (f' & E1 & L); auto.
  { intros i f0 Hi L. gets. eexists; split; [reflexivity|]. now rewrite upd_length. }
  rewrite E1. cbn [bind].
  destruct (torques_ok mb m f') as (f2 & m2 & E2 & _); auto. eauto.
Qed.
Lemma C_sizes mb m s : wf_mb mb -> fd_ok mb s -> sized mb jdof (motionSubspace m) ->
  length (parentToSon m) = nrBodies mb -> length (jointVelocity m) = nrJoints mb ->
  length (bodyVelB m) = nrBodies mb -> length (bodyVelW m) = nrBodies mb -> length (bodyPosW m) = nrBodies mb -> length (force m) = nrBodies mb ->
  exists s', computeC mb m s = Ok s' /\ c_post mb (fill_c mb m) s s'.
Proof.
  intros. change (computeC mb m s) with (computeC mb (fill_c mb m) s). apply C_ok; auto.
  constructor; cbn; auto; try apply sized_zeros; apply repeat_length.
Qed.
Lemma sC_defined mb m s : wf_mb mb -> fd_ok mb s -> defined (sComputeC mb m s).
Proof.
  intros W O1. pose proof (wf_nrJoints mb W) as NJ. unfold defined, sComputeC.
  chk (checkJ_inv mb (parentToSon m) : checkMatchParentToSon mb m = _ \/ checkMatchParentToSon mb m = _ /\ _).
  chk (checkE_inv mb (motionSubspace m) jdof : checkMatchMotionSubspace mb m = _ \/ checkMatchMotionSubspace mb m = _ /\ _).
  chk (checkJ_inv mb (jointVelocity m) : checkMatchJointVelocity mb m = _ \/ checkMatchJointVelocity mb m = _ /\ _).
  chk_vel mb m.
  chk (checkB_inv mb (bodyPosW m) : checkMatchBodyPos mb m = _ \/ checkMatchBodyPos mb m = _ /\ _).
  chk (checkB_inv mb (force m) : checkMatchForce mb m = _ \/ checkMatchForce mb m = _ /\ _).
  right. destruct (C_sizes mb m s) as (s' & E & _); auto; try congruence. eauto.
Qed.

(** ** The mass matrix loop only needs sizes *)
Lemma set_block_sizes mb H i p B : wf_mb mb -> i < nrBodies mb -> p < nrBodies mb ->
  mrows H = mb_nrDof mb -> mcols H = mb_nrDof mb ->
  exists H', set_block H (pos mb i) (pos mb p) (dofi mb i) (dofi mb p) B = Ok H' /\
    mrows H' = mb_nrDof mb /\ mcols H' = mb_nrDof mb.
Proof.
  intros W Hi Hp R1 R2. destruct (set_block_tile mb H i p B W Hi Hp R1 R2) as (H' & E & A1 & A2 & _). eauto.
Qed.
Lemma anc_sizes mb m dofPos i : wf_mb mb -> i < nrBodies mb -> sized mb jdof (motionSubspace m) ->
  length (parentToSon m) = nrBodies mb -> length dofPos = nrBodies mb ->
  (forall k, k < nrBodies mb -> nth k dofPos 0 = pos mb k) ->
  forall fuel j H F, j < fuel -> j < nrBodies mb -> mrows H = mb_nrDof mb -> mcols H = mb_nrDof mb -> length F = dofi mb i ->
  exists H' F', anc_loop mb m dofPos i (dofi mb i) fuel j H F = Ok (H', F') /\
    mrows H' = mb_nrDof mb /\ mcols H' = mb_nrDof mb /\ length F' = dofi mb i.
Proof.
  intros W Li Sms Lpts LdP HdP. pose proof (wf_nrJoints mb W) as NJ. pose proof (wf_joints mb W) as Ljs.
  pose proof (sized_length _ _ _ Sms) as Lms. pose proof (wf_pred_len mb W) as Lpr.
  induction fuel; intros j H F Lf Lj Hr Hc LF; [lia|].
  simpl. destruct (wf_get_pred mb j W Lj) as [[Ep Pp]|(p & Ep & Hp & Pp)]; rewrite Ep; cbn [bind].
  - simpl. eauto 8.
  - destruct (Z.eqb_spec (Z.of_nat p) (-1)); [lia|]. cbn [negb]. rewrite Nat2Z.id.
    rewrite (get_nth (parentToSon m) j ptid) by lia. cbn [bind]. rewrite (pttrans_cols mb dofPos LdP i Li) by auto. cbn [bind].
    rewrite getz_nat, (get_nth (mb_joints mb) p jd) by lia. cbn [bind]. fold (dofi mb p).
    set (F1 := map _ F). assert (LF1 : length F1 = dofi mb i) by (unfold F1; now rewrite map_length).
    destruct (Nat.eqb_spec (dofi mb p) 0) as [Z0|NZ]; cbn [negb].
    + apply IHfuel; auto; lia.
    + rewrite (get_nth dofPos i 0), (get_nth dofPos p 0), (get_nth (motionSubspace m) p []) by lia. cbn [bind].
      rewrite !HdP by lia. unfold smat_tmul. rewrite LF1, (sized_nth _ _ _ p Sms) by lia. fold (dofi mb p). rewrite !Nat.eqb_refl.
      cbn [andb bind].
      set (B := fun a b => svdot (nth a F1 sv0) (nth b (nth p (motionSubspace m) []) sv0)).
      destruct (set_block_sizes mb H i p B W Li ltac:(lia) Hr Hc) as (H1 & E1 & Hr1 & Hc1).
      rewrite E1. cbn [bind]. unfold get_block.
      pose proof (pos_le mb i W Li). pose proof (pos_le mb p W ltac:(lia)).
      destruct (Nat.leb_spec (pos mb i + dofi mb i) (mrows H1)); [|lia].
      destruct (Nat.leb_spec (pos mb p + dofi mb p) (mcols H1)); [|lia]. cbn [andb bind].
      destruct (set_block_sizes mb H1 p i (fun a b => ment H1 (pos mb i + b)%nat (pos mb p + a)%nat) W ltac:(lia) Li Hr1 Hc1)
        as (HM2 & E2 & Hr2 & Hc2).
      rewrite E2. cbn [bind]. apply IHfuel; auto; lia.
Qed.
Lemma H_sizes mb m s : wf_mb mb -> fd_ok mb s -> sized mb jdof (motionSubspace m) ->
  length (parentToSon m) = nrBodies mb ->
  exists s', computeH mb m s = Ok s' /\ fd_ok mb s'.
Proof.
  intros W O1 Sms Lpts. pose proof (wf_nrJoints mb W) as NJ. pose proof (wf_joints mb W) as Ljs.
  pose proof (sized_length _ _ _ Sms) as Lms. pose proof (wf_pred_len mb W) as Lpr.
  unfold computeH. set (s0 := with_H _ s).
  assert (O2 : fd_ok mb s0) by (destruct O1; constructor; auto).
  match goal with |- context [for_up ?n ?b s0] => 
    destruct (for_up_inv (fun _ s' => fd_ok mb s') b n s0) as (s1 & E1 & OK1) end; auto.
  { intros i s' Hi OK1. assert (NB : i < length (mb_bodies mb)) by (unfold nrBodies in Hi; auto).
    pose proof (fo_I _ _ OK1). rewrite (get_nth _ _ bd) by lia. cbn [bind]. rewrite set_ok by lia. cbn [bind].
    eexists; split; [reflexivity|]. destruct OK1; constructor; cbn; auto. now rewrite upd_length. }
  rewrite E1. cbn [bind].
  destruct (for_down_inv (fun _ s' => fd_ok mb s') (h_step mb m) (nrBodies mb) s1) as (s2 & E2 & OK2); auto.
  2: eauto.
  intros i s' Hi OK2. rewrite h_step_eq.
  assert (Core : forall s3, fd_ok mb s3 -> exists s4, h_rest mb m i s3 = Ok s4 /\ fd_ok mb s4).
  { clear s' OK2. intros s3 OK3. unfold h_rest.
    pose proof (fo_F _ _ OK3) as SF. pose proof (sized_length _ _ _ SF) as LF.
    rewrite (get_nth (mb_joints mb) i jd), (get_nth (fd_F s3) i []) by lia. cbn [bind]. fold (dofi mb i).
    pose proof (sized_nth _ _ _ i Sms ltac:(lia)) as Lmi. fold (dofi mb i) in Lmi.
    pose proof (sized_nth _ _ _ i SF ltac:(lia)) as LFi. fold (dofi mb i) in LFi.
    match goal with |- context [for_up ?n ?b (nth i (fd_F s3) [])] =>
      destruct (for_up_inv (fun _ F' => length F' = dofi mb i) b n (nth i (fd_F s3) [])) as (F1 & EF & LF1) end; auto.
    { intros d F' Hd L. pose proof (fo_I _ _ OK3). 
      rewrite (get_nth (fd_I s3) i rbi0), (get_nth (motionSubspace m) i []) by lia. cbn [bind].
      rewrite (get_nth _ d sv0) by lia. cbn [bind]. rewrite set_ok by lia. eexists; split; [reflexivity|]. now rewrite upd_length. }
    rewrite EF. cbn [bind]. rewrite (get_nth (fd_dofPos s3) i 0) by (rewrite (fo_pos_len _ _ OK3); lia). cbn [bind].
    rewrite (get_nth (motionSubspace m) i []) by lia. cbn [bind].
    unfold smat_tmul. rewrite Lmi, LF1, !Nat.eqb_refl. cbn [andb bind]. rewrite (fo_pos _ _ OK3) by auto.
    destruct (set_block_sizes mb (fd_H s3) i i (fun a b => svdot (nth a (nth i (motionSubspace m) []) sv0) (nth b F1 sv0)) W Hi Hi (fo_rows _ _ OK3) (fo_cols _ _ OK3)) as (H1 & EH & R1 & C1).
    rewrite EH. cbn [bind].
    destruct (anc_sizes mb m (fd_dofPos s3) i W Hi Sms Lpts (fo_pos_len _ _ OK3) (fo_pos _ _ OK3) (S (nrJoints mb)) i H1 F1 ltac:(lia) Hi R1 C1 LF1)
      as (H2 & F2 & EA & R2 & C2 & L2).
    rewrite EA. cbn [bind fst snd]. rewrite set_ok by lia. cbn [bind].
    eexists; split; [reflexivity|]. destruct OK3; constructor; cbn; auto.
    apply sized_of_nth; [rewrite upd_length; auto|]. intros k Hk.
    destruct (Nat.eq_dec k i) as [->|].
    + rewrite nth_upd_eq by lia. auto.
    + rewrite nth_upd_neq by auto. apply (sized_nth _ _ _ _ SF). lia. }
  destruct (wf_get_pred mb i W Hi) as [[Ep Pp]|(p & Ep & Hp & Pp)]; rewrite Ep; cbn [bind].
  - simpl. auto.
  - destruct (Z.eqb_spec (Z.of_nat p) (-1)); [lia|]. cbn [negb]. pose proof (fo_I _ _ OK2).
    rewrite (get_nth (parentToSon m) i ptid), getz_nat, (get_nth _ p rbi0), (get_nth _ i rbi0) by lia. cbn [bind].
    rewrite setz_nat, set_ok by lia. cbn [bind]. apply Core. destruct OK2; constructor; cbn; auto. now rewrite upd_length.
Qed.
Lemma sH_defined mb m s : wf_mb mb -> fd_ok mb s -> defined (sComputeH mb m s).
Proof.
  intros W O1. pose proof (wf_nrJoints mb W) as NJ. unfold defined, sComputeH.
  chk (checkJ_inv mb (parentToSon m) : checkMatchParentToSon mb m = _ \/ checkMatchParentToSon mb m = _ /\ _).
  chk (checkE_inv mb (motionSubspace m) jdof : checkMatchMotionSubspace mb m = _ \/ checkMatchMotionSubspace mb m = _ /\ _).
  right. destruct (H_sizes mb m s) as (s' & E & _); auto; try congruence. eauto.
Qed.
Lemma sFD_defined solve mb m s : wf_mb mb -> fd_ok mb s ->
  (forall M b, length (solve M b) = length b) -> defined (sForwardDynamics solve mb m s).
Proof.
  intros W O1 SL. pose proof (wf_nrJoints mb W) as NJ. unfold defined, sForwardDynamics.
  chk (checkJ_inv mb (parentToSon m) : checkMatchParentToSon mb m = _ \/ checkMatchParentToSon mb m = _ /\ _).
  chk (checkE_inv mb (motionSubspace m) jdof : checkMatchMotionSubspace mb m = _ \/ checkMatchMotionSubspace mb m = _ /\ _).
  chk (checkJ_inv mb (jointVelocity m) : checkMatchJointVelocity mb m = _ \/ checkMatchJointVelocity mb m = _ /\ _).
  chk_vel mb m.
  chk (checkB_inv mb (bodyPosW m) : checkMatchBodyPos mb m = _ \/ checkMatchBodyPos mb m = _ /\ _).
  chk (checkB_inv mb (force m) : checkMatchForce mb m = _ \/ checkMatchForce mb m = _ /\ _).
  chk (checkE_inv mb (jointTorque m) jdof : checkMatchJointTorque mb m = _ \/ checkMatchJointTorque mb m = _ /\ _).
  chk (checkE_inv mb (alphaD m) jdof : checkMatchAlphaD mb m = _ \/ checkMatchAlphaD mb m = _ /\ _).
  right. unfold forwardDynamics.
  destruct (H_sizes mb m s) as (s1 & E1 & O2); auto; try congruence. rewrite E1. cbn [bind].
  destruct (C_sizes mb m s1) as (s2 & E2 & P2); auto; try congruence. rewrite E2. cbn [bind].
  pose proof (cp_ok _ _ _ _ P2) as O3.
  rewrite paramToVector_ok; [|rewrite (concat_length mb _ jdof) by auto; rewrite (fo_tmp _ _ O3); symmetry; apply wf_nrDof; auto].
  cbn [bind]. rewrite (concat_length mb _ jdof) by auto. rewrite (fo_C _ _ O3), <- (wf_nrDof mb W), Nat.eqb_refl.
  match goal with |- context [vectorToParam (solve ?M ?b) _] => destruct (conv_bwd mb jdof (alphaD m) (solve M b)) as (v' & E & _); auto end.
  { rewrite SL, map_length, combine_length, (concat_length mb _ jdof), (fo_C _ _ O3), (wf_nrDof mb W) by auto. lia. }
  rewrite E. cbn [bind]. eauto.
Qed.

(** ** Converter *)
Lemma constructed_names mb : constructed mb ->
  nrJoints mb = nrBodies mb /\
  (forall n i, bodyIndexByName mb n = Ok (Z.of_nat i) <->
     nth_error (body_names mb) i = Some n /\ forall k, i < k -> nth_error (body_names mb) k <> Some n) /\
  (forall n i, jointIndexByName mb n = Ok (Z.of_nat i) <->
     nth_error (joint_names mb) i = Some n /\ forall k, i < k -> nth_error (joint_names mb) k <> Some n) /\
  (forall n, In n (body_names mb) -> exists z, mfind (mb_bodyInd mb) n = Some z) /\
  (forall n, In n (joint_names mb) -> exists z, mfind (mb_jointInd mb) n = Some z) /\
  (forall n, ~ In n (body_names mb) -> mfind (mb_bodyInd mb) n = None) /\
  (forall n, ~ In n (joint_names mb) -> mfind (mb_jointInd mb) n = None).
Proof.
  intros (bodies & joints & pred & succ & parent & Xt & L & E).
  destruct (ctor_tiles _ _ _ _ _ _ _ L E) as (Ej & Eb & _).
  destruct (names_last _ _ _ _ _ _ _ L E) as (B1 & J1 & _ & _ & _ & _ & BU & JU & _).
  unfold joint_names, body_names, nrJoints, nrBodies. rewrite Ej, Eb.
  repeat (split; [assumption|]).
  unfold bodyIndexByName, jointIndexByName, mfind_deref in BU, JU.
  repeat split; intros n H.
  - specialize (BU n). destruct (mfind _ n); eauto. exfalso. exact (proj1 BU eq_refl H).
  - specialize (JU n). destruct (mfind _ n); eauto. exfalso. exact (proj1 JU eq_refl H).
  - apply BU in H. destruct (mfind _ n); congruence.
  - apply JU in H. destruct (mfind _ n); congruence.
Qed.

Lemma index_list (names : list string) (ix : string -> res Z) (l : list string) :
  (forall n i, ix n = Ok (Z.of_nat i) <-> nth_error names i = Some n /\ forall k, i < k -> nth_error names k <> Some n) ->
  NoDup names -> (forall n, In n l -> In n names) ->
  exists ks, map_res ix l = Ok (map Z.of_nat ks) /\ length ks = length l /\
    forall i, i < length l -> nth_error names (nth i ks 0) = nth_error l i.
Proof.
  intros IX ND. induction l as [|n l IH]; intros Inc; simpl.
  - exists []. repeat split; auto. simpl; intros; lia.
  - destruct (In_nth_error names n) as (k & Hk); [apply Inc; simpl; auto|].
    rewrite (proj2 (IX n k)); [|split; auto; apply last_unique; auto]. cbn [bind].
    destruct IH as (ks & E & L & H); [intros; apply Inc; simpl; auto|]. rewrite E. cbn [bind].
    exists (k :: ks). split; [reflexivity|]. split; [simpl; auto|].
    intros [|i] Hi; simpl; auto. apply H. lia.
Qed.
Lemma map_res_map {A B C} (f : B -> res C) (g : A -> B) l : map_res (fun a => f (g a)) l = map_res f (map g l).
Proof. induction l; simpl; auto. now rewrite IHl. Qed.

(** The index part of the three arrays copied together. *)
Definition scattered {A} (ks : list nat) (off n : nat) (src dst0 dst : list A) : Prop :=
  length dst = length dst0 /\
  (forall i, i < n -> nth_error dst (nth i ks 0) = nth_error src (off + i)) /\
  (forall k, (forall i, i < n -> nth i ks 0 <> k) -> nth_error dst k = nth_error dst0 k).
Lemma scattered_step {A} ks off n (src dst0 dst : list A) x : scattered ks off n src dst0 dst ->
  (forall i, i < n -> nth i ks 0 <> nth n ks 0) -> nth n ks 0 < length dst0 -> nth_error src (off + n) = Some x ->
  scattered ks off (S n) src dst0 (upd dst (nth n ks 0) x).
Proof.
  intros (L & H1 & H2) Hne Hlt Hx. split; [now rewrite upd_length|]. split.
  - intros i Hi. destruct (Nat.eq_dec i n) as [->|].
    + rewrite nth_error_upd_eq by lia. auto.
    + rewrite nth_error_upd_neq; [apply H1; lia|]. intros C. apply (Hne i); [lia|auto].
  - intros k Hk. rewrite nth_error_upd_neq; [apply H2; intros; apply Hk; lia|]. apply Hk. lia.
Qed.
Lemma ne_Some {A} (l : list A) i : i < length l -> exists x, nth_error l i = Some x.
Proof. intros H. destruct (nth_error l i) eqn:E; eauto. apply nth_error_None in E. lia. Qed.

Lemma convert_ok kj kb mf mt :
  (forall i k, i < k < length kj -> nth i kj 0 <> nth k kj 0) -> (forall i k, i < k < length kb -> nth i kb 0 <> nth k kb 0) ->
  (forall i, i < length kj -> nth i kj 0 < length (q mt) /\ nth i kj 0 < length (alpha mt) /\ nth i kj 0 < length (alphaD mt) /\
     S i < length (q mf) /\ S i < length (alpha mf) /\ S i < length (alphaD mf)) ->
  (forall i, i < length kb -> nth i kb 0 < length (force mt) /\ i < length (force mf)) ->
  exists m', CC_convert (mkCC (map Z.of_nat kj) (map Z.of_nat kb)) mf mt = Ok m' /\
    m' = with_force (force m') (with_alphaD (alphaD m') (with_alpha (alpha m') (with_q (q m') mt))) /\
    scattered kj 1 (length kj) (q mf) (q mt) (q m') /\ scattered kj 1 (length kj) (alpha mf) (alpha mt) (alpha m') /\
    scattered kj 1 (length kj) (alphaD mf) (alphaD mt) (alphaD m') /\
    scattered kb 0 (length kb) (force mf) (force mt) (force m').
Proof.
  intros Dj Db Bj Bb. unfold CC_convert. cbn [cc_j cc_b]. rewrite !map_length.
  assert (GZ : forall l i, i < length l -> get (map Z.of_nat l) i = Ok (Z.of_nat (nth i l 0))).
  { intros l i Hi. rewrite (get_nth _ _ 0%Z) by (rewrite map_length; auto). f_equal. now rewrite (nth_map_lt _ _ _ 0) by auto. }
  match goal with |- context [for_up (length kj) ?b mt] =>
    destruct (for_up_inv (fun n m' => m' = with_alphaD (alphaD m') (with_alpha (alpha m') (with_q (q m') mt)) /\
      scattered kj 1 n (q mf) (q mt) (q m') /\ scattered kj 1 n (alpha mf) (alpha mt) (alpha m') /\
      scattered kj 1 n (alphaD mf) (alphaD mt) (alphaD m')) b (length kj) mt) as (m1 & E1 & F1 & S1 & S2 & S3) end.
  - split; [destruct mt; reflexivity|]. repeat split; auto; intros; lia.
  - intros i m' Hi (F & S1 & S2 & S3). destruct (Bj i Hi) as (Z1 & Z2 & Z3 & Z4 & Z5 & Z6).
    destruct (ne_Some _ _ Z4) as (x1 & N1). destruct (ne_Some _ _ Z5) as (x2 & N2). destruct (ne_Some _ _ Z6) as (x3 & N3).
    rewrite GZ by auto. cbn [bind].
    rewrite (proj2 (get_Ok _ _ _) N1). cbn [bind]. rewrite setz_nat, set_ok by (rewrite (proj1 S1); auto). cbn [bind].
    rewrite (proj2 (get_Ok _ _ _) N2). cbn [bind]. rewrite setz_nat, set_ok by (rewrite (proj1 S2); auto). cbn [bind].
    rewrite (proj2 (get_Ok _ _ _) N3). cbn [bind]. rewrite setz_nat, set_ok by (rewrite (proj1 S3); auto). cbn [bind].
    eexists; split; [reflexivity|]. cbn [q alpha alphaD with_q with_alpha with_alphaD].
    split; [rewrite F; reflexivity|].
    assert (D : forall k, k < i -> nth k kj 0 <> nth i kj 0) by (intros; apply Dj; lia).
    split; [|split]; apply scattered_step; auto.
  - rewrite E1. cbn [bind].
    match goal with |- context [for_up (length kb) ?b m1] =>
    destruct (for_up_inv (fun n m' => m' = with_force (force m') m1 /\
      scattered kb 0 n (force mf) (force mt) (force m')) b (length kb) m1) as (m2 & E2 & F2 & S4) end.
    + split; [destruct m1; reflexivity|]. rewrite F1. repeat split; auto; intros; lia.
    + intros i m' Hi (F & S4). destruct (Bb i Hi) as (Z1 & Z2).
      destruct (ne_Some _ _ Z2) as (x1 & N1). rewrite GZ by auto. cbn [bind].
      rewrite (proj2 (get_Ok _ _ _) N1). cbn [bind]. rewrite setz_nat, set_ok by (rewrite (proj1 S4); auto). cbn [bind].
      eexists; split; [reflexivity|]. cbn [force with_force]. split; [rewrite F; reflexivity|].
      apply scattered_step; auto.
    + exists m2. split; auto.
      assert (Eq : q m2 = q m1 /\ alpha m2 = alpha m1 /\ alphaD m2 = alphaD m1) by (rewrite F2; auto).
      destruct Eq as (Q1 & Q2 & Q3). rewrite Q1, Q2, Q3. split; [rewrite F2 at 1; rewrite F1 at 1; reflexivity|]. auto.
Qed.

Lemma scattered_names {A} ks (l names : list string) off (src dst0 dst : list A) :
  length ks = length l -> NoDup names -> NoDup l -> (forall i, i < length l -> nth_error names (nth i ks 0) = nth_error l i) ->
  scattered ks off (length ks) src dst0 dst ->
  (forall i k n, nth_error l i = Some n -> nth_error names k = Some n -> nth_error dst k = nth_error src (off + i)) /\
  (forall k n, nth_error names k = Some n -> ~ In n l -> nth_error dst k = nth_error dst0 k).
Proof.
  intros L ND NDl H (L1 & H1 & H2). split.
  - intros i k n Hi Hk. assert (Li : i < length l) by (apply nth_error_Some; congruence).
    specialize (H i Li). assert (nth i ks 0 = k).
    { apply (proj1 (NoDup_nth_error names) ND); [apply nth_error_Some|]; congruence. }
    subst k. apply H1. lia.
  - intros k n Hk NI. apply H2. intros i Hi C. subst k. apply NI.
    rewrite H in Hk by lia. now apply nth_error_In in Hk.
Qed.
Lemma ks_distinct ks (l names : list string) : length ks = length l -> NoDup l ->
  (forall i, i < length l -> nth_error names (nth i ks 0) = nth_error l i) ->
  forall i k, i < k < length ks -> nth i ks 0 <> nth k ks 0.
Proof.
  intros L ND H i k Hik C. pose proof (H i ltac:(lia)) as A. pose proof (H k ltac:(lia)) as B. rewrite C in A.
  assert (i = k); [|lia]. apply (proj1 (NoDup_nth_error l) ND); [lia|congruence].
Qed.

Lemma converter_ok from to_ mf mt : constructed from -> constructed to_ -> distinct_names from -> distinct_names to_ ->
  0 < nrJoints from ->
  (forall n, In n (tl (joint_names from)) -> In n (joint_names to_)) ->
  (forall n, In n (body_names from) -> In n (body_names to_)) ->
  shaped from mf -> shaped to_ mt ->
  exists cc m', CC_ctor from to_ = Ok cc /\ CC_convert cc mf mt = Ok m' /\
    m' = with_force (force m') (with_alphaD (alphaD m') (with_alpha (alpha m') (with_q (q m') mt))) /\
    length (q m') = length (q mt) /\ length (alpha m') = length (alpha mt) /\ length (alphaD m') = length (alphaD mt) /\
    length (force m') = length (force mt) /\
    (forall i k n, 0 < i -> nth_error (joint_names from) i = Some n -> nth_error (joint_names to_) k = Some n ->
       nth_error (q m') k = nth_error (q mf) i /\ nth_error (alpha m') k = nth_error (alpha mf) i /\
       nth_error (alphaD m') k = nth_error (alphaD mf) i) /\
    (forall k n, nth_error (joint_names to_) k = Some n -> ~ In n (tl (joint_names from)) ->
       nth_error (q m') k = nth_error (q mt) k /\ nth_error (alpha m') k = nth_error (alpha mt) k /\
       nth_error (alphaD m') k = nth_error (alphaD mt) k) /\
    (forall i k n, nth_error (body_names from) i = Some n -> nth_error (body_names to_) k = Some n ->
       nth_error (force m') k = nth_error (force mf) i) /\
    (forall k n, nth_error (body_names to_) k = Some n -> ~ In n (body_names from) ->
       nth_error (force m') k = nth_error (force mt) k).
Proof.
  intros Cf Ct [Df1 Df2] [Dt1 Dt2] NZ Ij Ib Kf Kt.
  destruct (constructed_names _ Ct) as (NJt & B1 & J1 & _). destruct (constructed_names _ Cf) as (NJf & _).
  destruct (index_list _ _ (tl (joint_names from)) J1 Dt1 Ij) as (kj & Ej & Lj & Hj).
  destruct (index_list _ _ (body_names from) B1 Dt2 Ib) as (kb & Eb & Lb & Hb).
  assert (Ltl : S (length (tl (joint_names from))) = nrJoints from).
  { unfold joint_names, nrJoints in *. destruct (mb_joints from); simpl in *; [lia|]. now rewrite map_length. }
  assert (NDtl : NoDup (tl (joint_names from))) by (destruct (joint_names from); simpl; [constructor|now inversion Df1]).
  assert (Lbn : length (body_names from) = nrBodies from) by (unfold body_names, nrBodies; now rewrite map_length).
  destruct Kf as (Fq & Fa & Fd & Ff). destruct Kt as (Tq & Ta & Td & Tf).
  assert (InJ : forall i, i < length kj -> nth i kj 0 < nrJoints to_).
  { intros i Hi. replace (nrJoints to_) with (length (joint_names to_)) by (unfold joint_names, nrJoints; now rewrite map_length).
    apply nth_error_Some. rewrite Hj by lia. apply nth_error_Some. lia. }
  assert (InB : forall i, i < length kb -> nth i kb 0 < nrBodies to_).
  { intros i Hi. replace (nrBodies to_) with (length (body_names to_)) by (unfold body_names, nrBodies; now rewrite map_length).
    apply nth_error_Some. rewrite Hb by lia. apply nth_error_Some. lia. }
  destruct (convert_ok kj kb mf mt) as (m' & E & F & S1 & S2 & S3 & S4).
  { eapply ks_distinct; eauto. }
  { eapply ks_distinct; eauto. }
  { intros i Hi. pose proof (InJ i Hi). repeat split; lia. }
  { intros i Hi. pose proof (InB i Hi). repeat split; lia. }
  exists (mkCC (map Z.of_nat kj) (map Z.of_nat kb)), m'.
  split. { unfold CC_ctor. unfold joint_names, body_names, nrJoints in *. destruct (mb_joints from) as [|j0 js]; [simpl in NZ; lia|].
    cbn [map tl] in Ej. rewrite (map_res_map (jointIndexByName to_) jname), Ej. cbn [bind].
    now rewrite (map_res_map (bodyIndexByName to_) bname), Eb. }
  split; [auto|]. split; [auto|]. split; [apply S1|]. split; [apply S2|]. split; [apply S3|]. split; [apply S4|].
  destruct (scattered_names _ _ _ _ _ _ _ Lj Dt1 NDtl Hj S1) as [G1 U1].
  destruct (scattered_names _ _ _ _ _ _ _ Lj Dt1 NDtl Hj S2) as [G2 U2].
  destruct (scattered_names _ _ _ _ _ _ _ Lj Dt1 NDtl Hj S3) as [G3 U3].
  destruct (scattered_names _ _ _ _ _ _ _ Lb Dt2 Df2 Hb S4) as [G4 U4].
  split; [|split; [|split]].
  - intros i k n Hi Hn Hk. destruct i as [|i]; [lia|].
    assert (Hn' : nth_error (tl (joint_names from)) i = Some n) by (destruct (joint_names from); [discriminate|exact Hn]).
    rewrite (G1 i k n Hn' Hk), (G2 i k n Hn' Hk), (G3 i k n Hn' Hk). auto.
  - intros k n Hk NI. rewrite (U1 k n), (U2 k n), (U3 k n); auto.
  - intros i k n Hi Hk. apply (G4 i k n Hi Hk).
  - apply U4.
Qed.
Lemma mbc_ok_shaped mb m : mbc_ok mb m -> shaped mb m.
Proof. intros K. destruct K. repeat split; auto; eapply sized_length; eassumption. Qed.
Lemma sConstructor_ok from to_ : constructed from -> constructed to_ ->
  (nrBodies from = nrBodies to_ /\ nrJoints from = nrJoints to_ /\ (forall n, In n (joint_names from) -> In n (joint_names to_)) /\ (forall n, In n (body_names from) -> In n (body_names to_)) ->
   CC_sConstructor from to_ = CC_ctor from to_) /\
  (~ (nrBodies from = nrBodies to_ /\ nrJoints from = nrJoints to_ /\ (forall n, In n (joint_names from) -> In n (joint_names to_)) /\ (forall n, In n (body_names from) -> In n (body_names to_))) ->
   CC_sConstructor from to_ = Throw DomainError).
Proof.
  intros Cf Ct. destruct (constructed_names _ Ct) as (_ & _ & _ & Bi & Ji & Bn & Jn).
  unfold CC_sConstructor.
  set (fj := forallb _ (mb_joints from)). set (fb := forallb _ (mb_bodies from)).
  assert (HJ : fj = true <-> forall n, In n (joint_names from) -> In n (joint_names to_)).
  { unfold fj. rewrite forallb_forall. unfold joint_names at 1. split.
    - intros H n Hn. apply in_map_iff in Hn. destruct Hn as (j & <- & Hj). specialize (H j Hj).
      destruct (in_dec string_dec (jname j) (joint_names to_)) as [|NI]; auto. rewrite (Jn _ NI) in H. discriminate.
    - intros H j Hj. destruct (Ji (jname j)) as (z & ->); auto. apply H, in_map_iff; eauto. }
  assert (HB : fb = true <-> forall n, In n (body_names from) -> In n (body_names to_)).
  { unfold fb. rewrite forallb_forall. unfold body_names at 1. split.
    - intros H n Hn. apply in_map_iff in Hn. destruct Hn as (j & <- & Hj). specialize (H j Hj).
      destruct (in_dec string_dec (bname j) (body_names to_)) as [|NI]; auto. rewrite (Bn _ NI) in H. discriminate.
    - intros H j Hj. destruct (Bi (bname j)) as (z & ->); auto. apply H, in_map_iff; eauto. }
  destruct (Nat.eqb_spec (nrBodies from) (nrBodies to_)), (Nat.eqb_spec (nrJoints from) (nrJoints to_)); cbn [andb]; 
    try (split; [intros (A & B & _); congruence|auto]).
  destruct fj, fb; cbn [andb]; split; auto; intros H; exfalso;
    first [apply H; repeat split; auto; first [now apply HJ|now apply HB]
          | destruct H as (_ & _ & H1 & H2); first [apply HJ in H1; discriminate|apply HB in H2; discriminate]].
Qed.
Lemma roundtrip_ok from to_ mf mt mf2 : constructed from -> constructed to_ -> distinct_names from -> distinct_names to_ ->
  0 < nrJoints from -> 0 < nrJoints to_ ->
  (forall n, In n (joint_names from) <-> In n (joint_names to_)) ->
  (forall n, In n (body_names from) <-> In n (body_names to_)) ->
  shaped from mf -> shaped to_ mt -> shaped from mf2 ->
  exists cc cc' m' m'', CC_ctor from to_ = Ok cc /\ CC_ctor to_ from = Ok cc' /\ CC_convert cc mf mt = Ok m' /\ CC_convert cc' m' mf2 = Ok m'' /\ force m'' = force mf /\ forall i n, 0 < i -> nth_error (joint_names from) i = Some n -> nth_error (joint_names to_) 0 <> Some n ->
      nth_error (q m'') i = nth_error (q mf) i /\ nth_error (alpha m'') i = nth_error (alpha mf) i /\ nth_error (alphaD m'') i = nth_error (alphaD mf) i.
Proof.
  intros Cf Ct Df Dt NZf NZt IJ IB Sf St Sf2.
  assert (TL : forall (l : list string) n, In n (tl l) -> In n l) by (intros [|a l] n; simpl; auto).
  destruct (converter_ok from to_ mf mt) as (cc & m' & E1 & E2 & F & L1 & L2 & L3 & L4 & GJ & _ & GB & _); auto.
  { intros n H. apply IJ; auto. } { intros n H. apply IB; auto. }
  destruct St as (T1 & T2 & T3 & T4).
  assert (Sm : shaped to_ m') by (repeat split; congruence).
  destruct (converter_ok to_ from m' mf2) as (cc' & m'' & E1' & E2' & F' & M1 & M2 & M3 & M4 & GJ' & _ & GB' & _); auto.
  { intros n H. apply IJ; auto. } { intros n H. apply IB; auto. }
  exists cc, cc', m', m''. do 4 (split; [assumption|]). split.
  - apply list_ext; [destruct Sf as (_ & _ & _ & X), Sf2 as (_ & _ & _ & Y); congruence|].
    intros i Hi. destruct Sf2 as (_ & _ & _ & Y).
    destruct (nth_error (body_names from) i) as [n|] eqn:N.
    + assert (I : In n (body_names to_)) by (apply IB; now apply nth_error_In in N).
      apply In_nth_error in I. destruct I as (k & Hk). rewrite (GB' k i n Hk N). apply (GB i k n N Hk).
    + apply nth_error_None in N. unfold body_names in N. rewrite map_length in N. unfold nrBodies in Y. lia.
  - intros i n Hi N N0. assert (I : In n (joint_names to_)) by (apply IJ; now apply nth_error_In in N).
    apply In_nth_error in I. destruct I as (k & Hk). assert (0 < k) by (destruct k; [contradiction|lia]).
    destruct (GJ' k i n H Hk N) as (A1 & A2 & A3). destruct (GJ i k n Hi N Hk) as (B1 & B2 & B3).
    rewrite A1, A2, A3. auto.
Qed.

(** ** In the form of the property statements *)
Lemma names_distinct bodies joints pred succ parent Xt mb : length joints = length bodies ->
  MultiBody_ctor bodies joints pred succ parent Xt = Ok mb ->
  NoDup (map bname bodies) -> NoDup (map jname joints) ->
  (forall i b, nth_error bodies i = Some b ->
     bodyIndexByName mb (bname b) = Ok (Z.of_nat i) /\ sBodyIndexByName mb (bname b) = Ok (Z.of_nat i)) /\
  (forall i j, nth_error joints i = Some j ->
     jointIndexByName mb (jname j) = Ok (Z.of_nat i) /\ sJointIndexByName mb (jname j) = Ok (Z.of_nat i)).
Proof.
  intros L E Nb Nj. destruct (names_last _ _ _ _ _ _ _ L E) as (B1 & J1 & _ & _ & _ & _ & _ & _ & SB & SJ).
  split; intros i x H.
  - assert (N : nth_error (map bname bodies) i = Some (bname x)) by (rewrite nth_error_map, H; reflexivity).
    assert (G : bodyIndexByName mb (bname x) = Ok (Z.of_nat i)) by (apply B1; split; auto; apply last_unique; auto).
    split; auto. rewrite SB; auto. now apply nth_error_In in N.
  - assert (N : nth_error (map jname joints) i = Some (jname x)) by (rewrite nth_error_map, H; reflexivity).
    assert (G : jointIndexByName mb (jname x) = Ok (Z.of_nat i)) by (apply J1; split; auto; apply last_unique; auto).
    split; auto. rewrite SJ; auto. now apply nth_error_In in N.
Qed.
Lemma names_absent bodies joints pred succ parent Xt mb : length joints = length bodies ->
  MultiBody_ctor bodies joints pred succ parent Xt = Ok mb ->
  forall n,
  (sBodyIndexByName mb n = Throw OutOfRange <-> ~ In n (map bname bodies)) /\
  (sJointIndexByName mb n = Throw OutOfRange <-> ~ In n (map jname joints)) /\
  (bodyIndexByName mb n = UB <-> ~ In n (map bname bodies)) /\
  (jointIndexByName mb n = UB <-> ~ In n (map jname joints)).
Proof.
  intros L E n. destruct (names_last _ _ _ _ _ _ _ L E) as (_ & _ & _ & _ & A & B & C & D & _). auto.
Qed.
Lemma names_duplicates bodies joints pred succ parent Xt mb : length joints = length bodies ->
  MultiBody_ctor bodies joints pred succ parent Xt = Ok mb ->
  forall n i,
  (bodyIndexByName mb n = Ok (Z.of_nat i) <->
     nth_error (map bname bodies) i = Some n /\ forall k, i < k -> nth_error (map bname bodies) k <> Some n) /\
  (jointIndexByName mb n = Ok (Z.of_nat i) <->
     nth_error (map jname joints) i = Some n /\ forall k, i < k -> nth_error (map jname joints) k <> Some n).
Proof.
  intros L E n i. destruct (names_last _ _ _ _ _ _ _ L E) as (A & B & _). auto.
Qed.

Lemma round_gen mb f n : n = list_sum (map f (mb_joints mb)) ->
  let zeros := map (fun j => repeat 0%R (f j)) (mb_joints mb) in
  (forall g v, sized mb f v -> paramToVector v (map g (seq 0 n)) = Ok (concat v) /\ length (concat v) = n /\
     vectorToParam (concat v) zeros = Ok v) /\
  (forall (g : nat -> R) e, length e = n -> exists v, vectorToParam e zeros = Ok v /\ sized mb f v /\
     paramToVector v (map g (seq 0 n)) = Ok e).
Proof.
  intros N z. pose proof (sized_zeros 0%R mb f) as Sz. split.
  - intros g v S. pose proof (concat_length mb v f S) as L. split; [apply (conv_fwd g mb f); auto|]. split; [congruence|].
    destruct (conv_bwd mb f z (concat v) Sz L) as (v' & E & S' & C). rewrite E. f_equal. apply concat_inj; auto.
    unfold sized in *. congruence.
  - intros g e L. destruct (conv_bwd mb f z e Sz) as (v' & E & S' & C); [congruence|].
    exists v'. split; auto. split; auto. rewrite (conv_fwd g mb f) by auto. now rewrite C.
Qed.
Lemma param_round_trip mb : wf_mb mb ->
  (forall g v, sized mb jparams v -> mbParamToVector g mb v = Ok (concat v) /\
     sMbParamToVector g mb v = Ok (concat v) /\ length (concat v) = mb_nrParams mb /\
     mbVectorToParam mb (concat v) = Ok v /\ sMbVectorToParam mb (concat v) = Ok v) /\
  (forall g e, length e = mb_nrParams mb -> exists v, mbVectorToParam mb e = Ok v /\ sMbVectorToParam mb e = Ok v /\
     sized mb jparams v /\ mbParamToVector g mb v = Ok e).
Proof.
  intros W. destruct (round_gen mb jparams (mb_nrParams mb) (wf_nrParams mb W)) as [A B].
  unfold sMbParamToVector, sMbVectorToParam, mbParamToVector, mbVectorToParam. split.
  - intros g v S. destruct (A g v S) as (A1 & A2 & A3). rewrite (proj1 (checkSizes_spec mb v jparams) S). cbn [bind].
    rewrite A2, Nat.eqb_refl. auto.
  - intros g e L. destruct (B g e L) as (v & B1 & B2 & B3). exists v. rewrite L, Nat.eqb_refl. auto.
Qed.
Lemma dof_round_trip mb : wf_mb mb ->
  (forall g v, sized mb jdof v -> mbDofToVector g mb v = Ok (concat v) /\
     sMbDofToVector g mb v = Ok (concat v) /\ length (concat v) = mb_nrDof mb /\
     mbVectorToDof mb (concat v) = Ok v /\ sMbVectorToDof mb (concat v) = Ok v) /\
  (forall g e, length e = mb_nrDof mb -> exists v, mbVectorToDof mb e = Ok v /\ sMbVectorToDof mb e = Ok v /\
     sized mb jdof v /\ mbDofToVector g mb v = Ok e).
Proof.
  intros W. destruct (round_gen mb jdof (mb_nrDof mb) (wf_nrDof mb W)) as [A B].
  unfold sMbDofToVector, sMbVectorToDof, mbDofToVector, mbVectorToDof. split.
  - intros g v S. destruct (A g v S) as (A1 & A2 & A3). rewrite (proj1 (checkSizes_spec mb v jdof) S). cbn [bind].
    rewrite A2, Nat.eqb_refl. auto.
  - intros g e L. destruct (B g e L) as (v & B1 & B2 & B3). exists v. rewrite L, Nat.eqb_refl. auto.
Qed.
Lemma conv_safe_throw mb : wf_mb mb ->
  (forall g v, sMbParamToVector g mb v = Throw OutOfRange <-> ~ sized mb jparams v) /\
  (forall g v, sMbDofToVector g mb v = Throw OutOfRange <-> ~ sized mb jdof v) /\
  (forall e, sMbVectorToParam mb e = Throw OutOfRange <-> length e <> mb_nrParams mb) /\
  (forall e, sMbVectorToDof mb e = Throw OutOfRange <-> length e <> mb_nrDof mb).
Proof.
  intros W. destruct (param_round_trip mb W) as [A B]. destruct (dof_round_trip mb W) as [C D].
  split; [|split; [|split]].
  - intros g v. split.
    + intros H S. destruct (A g v S) as (_ & E & _). congruence.
    + intros H. unfold sMbParamToVector. now rewrite (proj2 (checkSizes_spec mb v jparams) H).
  - intros g v. split.
    + intros H S. destruct (C g v S) as (_ & E & _). congruence.
    + intros H. unfold sMbDofToVector. now rewrite (proj2 (checkSizes_spec mb v jdof) H).
  - intros e. split.
    + intros H S. destruct (B (fun _ => 0%R) e S) as (v & _ & E & _). congruence.
    + intros H. unfold sMbVectorToParam. destruct (Nat.eqb_spec (mb_nrParams mb) (length e)); auto; congruence.
  - intros e. split.
    + intros H S. destruct (D (fun _ => 0%R) e S) as (v & _ & E & _). congruence.
    + intros H. unfold sMbVectorToDof. destruct (Nat.eqb_spec (mb_nrDof mb) (length e)); auto; congruence.
Qed.
Lemma conv_plain v e :
  (length (concat v) = length e -> sParamToVector v e = Ok (concat v) /\ paramToVector v e = Ok (concat v) /\
     exists v', sVectorToParam e v = Ok v' /\ vectorToParam e v = Ok v' /\
       map (@length R) v' = map (@length R) v /\ concat v' = e) /\
  (length (concat v) <> length e -> sParamToVector v e = Throw OutOfRange /\ sVectorToParam e v = Throw OutOfRange).
Proof.
  unfold sParamToVector, sVectorToParam, for_up. rewrite sum_sizes. cbn [bind Nat.add].
  destruct (Nat.eqb_spec (length (concat v)) (length e)) as [L|L]; split; intros H; try contradiction; auto.
  rewrite (paramToVector_ok _ _ L). split; auto. split; auto.
  destruct (vectorToParam_ok e v L) as (v' & E & M & C). eauto.
Qed.
Lemma fresh_ok g mb : nrJoints mb = nrBodies mb ->
  mbc_ok mb (MBC_ctor g mb) /\ all_checks mb (MBC_ctor g mb).
Proof. intros N. pose proof (MBC_ctor_ok g mb N) as K. split; auto. apply mbc_ok_checks; auto. Qed.
Lemma nth_zeros (f : Joint -> nat) (l : list Joint) i j v : nth_error l i = Some j -> nth_error (map (fun j => repeat 0%R (f j)) l) i = Some v -> length v = f j /\ forall x, In x v -> x = 0%R.
Proof.
  intros E H. rewrite (map_nth_error _ _ _ E) in H. injection H as <-. split; [apply repeat_length|]. intros x Hx. now apply repeat_spec in Hx.
Qed.
Lemma fresh_values g mb i j : nth_error (mb_joints mb) i = Some j ->
  let m := MBC_ctor g mb in
  (forall v, nth_error (q m) i = Some v -> length v = jparams j /\ forall x, In x v -> x = 0%R) /\
  (forall v, nth_error (alpha m) i = Some v \/ nth_error (alphaD m) i = Some v \/ nth_error (jointTorque m) i = Some v -> length v = jdof j /\ forall x, In x v -> x = 0%R) /\
  vx (gravity m) = 0%R /\ vy (gravity m) = (981 / 100)%R /\ vz (gravity m) = 0%R.
Proof.
  intros E m. split; [intros v; now apply nth_zeros|]. split; [intros v [H|[H|H]]; revert H; now apply nth_zeros|]. split; [reflexivity|]. split; reflexivity.
Qed.
Lemma zero_ok mb m : wf_mb mb -> mbc_ok mb m ->
  exists m', MBC_zero mb m = Ok m' /\ mbc_ok mb m' /\
    q m' = map zeroParam (mb_joints mb) /\
    alpha m' = map (fun j => repeat 0%R (jdof j)) (mb_joints mb) /\
    alphaD m' = map (fun j => repeat 0%R (jdof j)) (mb_joints mb) /\
    jointTorque m' = map (fun j => repeat 0%R (jdof j)) (mb_joints mb) /\
    force m' = repeat sv0 (nrBodies mb) /\
    jointConfig m' = jointConfig m /\ jointVelocity m' = jointVelocity m /\ motionSubspace m' = motionSubspace m /\
    bodyPosW m' = bodyPosW m /\ parentToSon m' = parentToSon m /\ bodyVelW m' = bodyVelW m /\
    bodyVelB m' = bodyVelB m /\ bodyAccB m' = bodyAccB m /\ gravity m' = gravity m.
Proof.
  intros W K. rewrite MBC_zero_ok by auto. eexists; split; [reflexivity|].
  assert (ZD : forall j, zeroDof j = repeat 0%R (jdof j) \/ True) by auto. clear ZD.
  assert (SZ : forall j, In j (mb_joints mb) -> length (zeroParam j) = jparams j /\ zeroDof j = repeat 0%R (jdof j)).
  { intros j Hj. destruct (JointFinP.sizes j (wf_joint_ok mb W j Hj)) as (A & B & _). split; auto.
    rewrite <- B. unfold zeroDof, ZeroDof in *. destruct (jtyp j); try reflexivity; simpl in *; auto. }
  assert (ED : map zeroDof (mb_joints mb) = map (fun j => repeat 0%R (jdof j)) (mb_joints mb))
    by (apply map_ext_in; intros; now apply SZ).
  split.
  - destruct K; constructor; cbn; auto; rewrite ?ED; try apply sized_zeros.
    + unfold sized. rewrite map_map. apply map_ext_in. intros; now apply SZ.
    + apply repeat_length.
  - cbn. rewrite ED. repeat (split; [reflexivity|]). reflexivity.
Qed.
Lemma safe_functions mb m : wf_mb mb ->
  defined (sForwardVelocity mb m) /\
  (forall A0, defined (sForwardAcceleration mb m A0)) /\
  (forall f, length f = nrBodies mb -> defined (sInverseDynamics mb f m) /\ defined (sInverseDynamicsNoInertia mb f m)) /\
  (forall s, fd_ok mb s -> defined (sComputeH mb m s) /\ defined (sComputeC mb m s)) /\
  (forall solve s, fd_ok mb s -> (forall M b, length (solve M b) = length b) -> defined (sForwardDynamics solve mb m s)).
Proof.
  intros W. split; [now apply sFV_defined|]. split; [intros; now apply sFA_defined|].
  split; [intros; split; [now apply sID_defined|now apply sIDN_defined]|].
  split; [intros; split; [now apply sH_defined|now apply sC_defined]|]. intros; now apply sFD_defined.
Qed.
Lemma sFK_refuted : exists mb m, wf_mb mb /\ sForwardKinematics mb m = UB.
Proof. exists ex_mb, (with_motionSubspace [] ex_m). split; [apply ex_wf|reflexivity]. Qed.
Lemma chk_iff (r : res unit) (P : Prop) : (P -> r = Ok tt) -> (~ P -> r = Throw DomainError) -> {P} + {~ P} ->
  (r = Ok tt <-> P) /\ (r = Throw DomainError <-> ~ P).
Proof. intros A B [D|D]; [rewrite (A D)|rewrite (B D)]; split; split; intros; try congruence; try discriminate; contradiction. Qed.
Lemma checks_exact mb m :
  (checkMatchQ mb m = Ok tt <-> sized mb jparams (q m)) /\ (checkMatchQ mb m = Throw DomainError <-> ~ sized mb jparams (q m)) /\
  (checkMatchAlpha mb m = Ok tt <-> sized mb jdof (alpha m)) /\ (checkMatchAlpha mb m = Throw DomainError <-> ~ sized mb jdof (alpha m)) /\
  (checkMatchAlphaD mb m = Ok tt <-> sized mb jdof (alphaD m)) /\ (checkMatchAlphaD mb m = Throw DomainError <-> ~ sized mb jdof (alphaD m)) /\
  (checkMatchJointTorque mb m = Ok tt <-> sized mb jdof (jointTorque m)) /\
  (checkMatchJointTorque mb m = Throw DomainError <-> ~ sized mb jdof (jointTorque m)) /\
  (checkMatchMotionSubspace mb m = Ok tt <-> sized mb jdof (motionSubspace m)) /\
  (checkMatchMotionSubspace mb m = Throw DomainError <-> ~ sized mb jdof (motionSubspace m)) /\
  (checkMatchForce mb m = Ok tt <-> length (force m) = nrBodies mb) /\
  (checkMatchBodyPos mb m = Ok tt <-> length (bodyPosW m) = nrBodies mb) /\
  (checkMatchBodyVel mb m = Ok tt <-> length (bodyVelW m) = nrBodies mb /\ length (bodyVelB m) = nrBodies mb) /\
  (checkMatchBodyAcc mb m = Ok tt <-> length (bodyAccB m) = nrBodies mb) /\
  (checkMatchJointConf mb m = Ok tt <-> length (jointConfig m) = nrJoints mb) /\
  (checkMatchJointVelocity mb m = Ok tt <-> length (jointVelocity m) = nrJoints mb) /\
  (checkMatchParentToSon mb m = Ok tt <-> length (parentToSon m) = nrJoints mb).
Proof.
  assert (E : forall A (v : list (list A)) f, (checkMatchJointsVector mb v ;;; checkEach mb v f = Ok tt <-> sized mb f v) /\
     (checkMatchJointsVector mb v ;;; checkEach mb v f = Throw DomainError <-> ~ sized mb f v)).
  { intros. destruct (checkEach_spec mb v f). apply chk_iff; auto. apply sized_dec. }
  assert (B : forall A (v : list A), checkMatchBodiesVector mb v = Ok tt <-> length v = nrBodies mb).
  { intros. destruct (checkB mb v). apply chk_iff; auto. apply Nat.eq_dec. }
  assert (J : forall A (v : list A), checkMatchJointsVector mb v = Ok tt <-> length v = nrJoints mb).
  { intros. destruct (checkJ mb v). apply chk_iff; auto. apply Nat.eq_dec. }
  repeat (split; [first [apply E|apply B|apply J]|]); try apply J.
  split; [|repeat (split; [first [apply B|apply J]|]); apply J].
  unfold checkMatchBodyVel. rewrite <- !B. destruct (checkB_inv mb (bodyVelW m)) as [X|[X _]]; rewrite X; cbn [bind]; split.
  - discriminate.
  - intros [H _]; discriminate.
  - auto.
  - tauto.
Qed.
Lemma sFV_total mb m : wf_mb mb -> mbc_ok mb m -> exists m', sForwardVelocity mb m = Ok m'.
Proof.
  intros W K. destruct (mbc_ok_checks mb m (wf_nrJoints mb W) K) as (A1 & A2 & A3 & A4 & A5 & A6 & A7 & A8 & A9 & A10 & A11 & A12).
  unfold sForwardVelocity. rewrite A10, A1, A5, A2, A3, A6, A8. cbn [bind].
  destruct (FV_total mb m W K) as (m' & E & _). eauto.
Qed.
