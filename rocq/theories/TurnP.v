(** Turning joints around changes the signs of their coordinates and nothing else. *)
From Coq Require Import Reals String ZArith Bool Arith List Lia Lra.
From Verif Require Import Res ResP SMap Vec VecP Sva SvaP Mat JointM MultiBodyM KinM DynM CoMM Spec SpecDyn SpecHold SpecTurn
  JointP JointFinP KinP MbP TreeP DynP DynHP DynCP DynFinP DynFin2P KinFinP BaseP JacTopP.
Import ListNotations.
Open Scope R_scope.

Lemma map_id_ext {X} (f : X -> X) l : (forall x, In x l -> f x = x) -> map f l = l.
Proof. intro E. rewrite <- (map_id l) at 2. now apply map_ext_in. Qed.
Lemma turn_S j : jS (set_forward j (negb (jfwd j))) = map (svscale (sgn true)) (jS j).
Proof. unfold set_forward. cbn [jS]. destruct (jfwd j); reflexivity. Qed.
Lemma smul_turn S x : smul (map (svscale (sgn true)) S) (map Ropp x) = smul S x.
Proof.
  revert x. induction S as [|s S IH]; intros [|k x]; try reflexivity. cbn [map smul]. rewrite IH. f_equal. unfold sgn. svring.
Qed.
Lemma angleAxis_turn th a : angleAxis (- - th) (vscale (sgn true) a) = angleAxis (- th) a.
Proof.
  unfold sgn. rewrite angleAxis_opp, Ropp_involutive. unfold angleAxis, mtr. cbv [vscale vx vy vz m00 m01 m02 m10 m11 m12 m20 m21 m22].
  rewrite sin_neg, cos_neg. f_equal; ring.
Qed.
Lemma turn_pose j x : jtyp j = Rev \/ jtyp j = Prism \/ jtyp j = Cylindrical ->
  pose (set_forward j (negb (jfwd j))) (map Ropp x) = pose j x.
Proof.
  intro AT. unfold pose. rewrite turn_S. cbn [jtyp set_forward].
  assert (G : forall k, get (map Ropp x) k = (r <- get x k ;; Ok (- r))).
  { intro k. unfold get. rewrite nth_error_map. destruct (nth_error x k); reflexivity. }
  assert (GS : forall k, get (map (svscale (sgn true)) (jS j)) k = (s <- get (jS j) k ;; Ok (svscale (sgn true) s))).
  { intro k. unfold get. rewrite nth_error_map. destruct (nth_error (jS j) k); reflexivity. }
  destruct AT as [->|[->| ->]]; rewrite !G, !GS.
  - destruct (get x 0); cbn [bind]; auto. destruct (get (jS j) 0); cbn [bind]; auto. cbn [sang svscale]. now rewrite angleAxis_turn.
  - destruct (get x 0); cbn [bind]; auto. destruct (get (jS j) 0); cbn [bind]; auto. cbn [slin svscale]. do 2 f_equal. unfold sgn. svring.
  - destruct (get x 0); cbn [bind]; auto. destruct (get (jS j) 0); cbn [bind]; auto. destruct (get (jS j) 1); cbn [bind]; auto.
    destruct (get x 1); cbn [bind]; auto. cbn [sang slin svscale]. rewrite angleAxis_turn. do 2 f_equal. unfold sgn. svring.
Qed.
Lemma nth_turn e S a : nth a (map (svscale e) S) sv0 = svscale e (nth a S sv0).
Proof. revert a. induction S as [|s S IH]; intros [|a]; cbn [map nth]; auto; svring. Qed.
Lemma sdot_turn e s f : svdot (svscale e s) f = e * svdot s f.
Proof. svring. Qed.

Lemma tdot_turn e S f : map (fun c => svdot c f) (map (svscale e) S) = map (Rmult e) (map (fun c => svdot c f) S).
Proof. rewrite !map_map. apply map_ext. intro c. apply sdot_turn. Qed.

Lemma bil_turn I e d u v : svdot (rbim I (svscale e u)) (svscale d v) = e * d * svdot (rbim I u) v.
Proof. svring. Qed.

Section Turn.
Variables (t : nat -> bool) (mb mb' : MultiBody) (m0 m m0' m' : MBC).
Hypothesis T : same_tree mb mb'.
Hypothesis W : wf_mb mb. Hypothesis W' : wf_mb mb'.
Hypothesis K : mbc_ok mb m0. Hypothesis K' : mbc_ok mb' m0'.
Hypothesis A : after_kinematics mb m0 m. Hypothesis A' : after_kinematics mb' m0' m'.
Hypothesis H : turned_state t mb m0 mb' m0'.

Lemma tu_n : nrBodies mb' = nrBodies mb.
Proof. unfold nrBodies. now rewrite (st_bodies _ _ T). Qed.
Lemma tu_par i : par mb' i = par mb i.
Proof. unfold par. now rewrite (st_pred _ _ T). Qed.
Lemma tu_par_fun : par mb' = par mb.
Proof. unfold par. now rewrite (st_pred _ _ T). Qed.
Lemma tu_Ib : Ib mb' = Ib mb.
Proof. unfold Ib. now rewrite (st_bodies _ _ T). Qed.

Lemma tu_joint i : (i < nrBodies mb)%nat -> jS (nth i (mb_joints mb') jd) = map (svscale (sgn (t i))) (jS (nth i (mb_joints mb) jd)) /\
  jdof (nth i (mb_joints mb') jd) = jdof (nth i (mb_joints mb) jd).
Proof.
  intro Hi. destruct (proj2 (proj2 H) i Hi) as [Et E1 _ _ _|Et _ E1 _ _ _]; rewrite Et, E1.
  - split; auto. symmetry. apply map_id_ext. intros x _. unfold sgn. svring.
  - split; [apply turn_S|reflexivity].
Qed.
Lemma tu_dof i : (i < nrBodies mb)%nat -> dofi mb' i = dofi mb i.
Proof. intro Hi. unfold dofi. exact (proj2 (tu_joint i Hi)). Qed.
Lemma tu_jc i : (i < nrBodies mb)%nat -> pose (nth i (mb_joints mb') jd) (nth i (q m0') []) = pose (nth i (mb_joints mb) jd) (nth i (q m0) []).
Proof.
  intro Hi. destruct (proj2 (proj2 H) i Hi) as [_ E1 E2 _ _|_ AT E1 E2 _ _]; rewrite E1, E2; [reflexivity|]. now apply turn_pose.
Qed.
Lemma tu_kin : exists m1 m1', fk_post mb m0 m1 /\ fk_post mb' m0' m1' /\ mbc_ok mb m1 /\ mbc_ok mb' m1' /\ fv_post mb m1 m /\ fv_post mb' m1' m' /\
  bodyPosW m = bodyPosW m1 /\ bodyPosW m' = bodyPosW m1' /\ parentToSon m = parentToSon m1 /\ parentToSon m' = parentToSon m1' /\
  motionSubspace m = motionSubspace m1 /\ motionSubspace m' = motionSubspace m1' /\ alpha m1 = alpha m0 /\ alpha m1' = alpha m0'.
Proof.
  destruct A as (m1 & E1 & E2). destruct A' as (m1' & E1' & E2').
  pose proof (FK_run mb m0 m1 W K E1) as F. pose proof (FK_run mb' m0' m1' W' K' E1') as F'.
  pose proof (FK_mbc_ok _ _ _ W K F) as K1. pose proof (FK_mbc_ok _ _ _ W' K' F') as K1'.
  pose proof (FV_run mb m1 m W K1 E2) as V. pose proof (FV_run mb' m1' m' W' K1' E2') as V'.
  exists m1, m1'. do 6 (split; [assumption|]).
  rewrite (fv_frame _ _ _ V), (fv_frame _ _ _ V').
  split; [reflexivity|]. split; [reflexivity|]. split; [reflexivity|]. split; [reflexivity|]. split; [reflexivity|]. split; [reflexivity|].
  rewrite (fk_frame _ _ _ F), (fk_frame _ _ _ F'). split; reflexivity.
Qed.
Lemma tu_pts i : (i < nrBodies mb)%nat -> ptsn m' i = ptsn m i.
Proof.
  intro Hi. destruct tu_kin as (m1 & m1' & F & F' & _ & _ & _ & _ & _ & _ & Ep & Ep' & _). cbv beta. rewrite Ep, Ep'.
  rewrite (fk_pts _ _ _ F i), (fk_pts _ _ _ F' i) by (rewrite ?tu_n; auto). rewrite (st_Xt _ _ T). f_equal.
  pose proof (fk_jc _ _ _ F i Hi) as J. pose proof (fk_jc _ _ _ F' i ltac:(rewrite tu_n; auto)) as J'.
  rewrite tu_jc in J' by auto. congruence.
Qed.
Lemma tu_pos i : (i < nrBodies mb)%nat -> nth i (bodyPosW m') ptid = nth i (bodyPosW m) ptid.
Proof.
  destruct tu_kin as (m1 & m1' & F & F' & _ & _ & _ & _ & Eb & Eb' & Ep & Ep' & _). rewrite Eb, Eb'.
  induction i as [i IH] using lt_wf_ind. intro Hi.
  rewrite (fk_bp _ _ _ F i), (fk_bp _ _ _ F' i) by (rewrite ?tu_n; auto). rewrite tu_par.
  pose proof (tu_pts i Hi) as HP. cbv beta in HP. rewrite Ep, Ep' in HP. rewrite HP.
  destruct (par mb i) eqn:P; auto. pose proof (par_lt mb i n W Hi P). now rewrite IH by lia.
Qed.
Lemma tu_lens : length (bodyPosW m) = nrBodies mb /\ length (bodyPosW m') = nrBodies mb /\ length (bodyVelB m) = nrBodies mb /\
  length (bodyVelB m') = nrBodies mb /\ length (bodyVelW m) = nrBodies mb /\ length (bodyVelW m') = nrBodies mb.
Proof.
  destruct tu_kin as (m1 & m1' & _ & _ & K1 & K1' & V & V' & _).
  pose proof (FV_mbc_ok _ _ _ K1 V) as K2. pose proof (FV_mbc_ok _ _ _ K1' V') as K2'.
  rewrite (ok_bodyPosW _ _ K2), (ok_bodyPosW _ _ K2'), (ok_bodyVelB _ _ K2), (ok_bodyVelB _ _ K2'), (ok_bodyVelW _ _ K2), (ok_bodyVelW _ _ K2'), tu_n.
  repeat split.
Qed.
Lemma tu_posW : bodyPosW m' = bodyPosW m.
Proof.
  destruct tu_lens as (L & L' & _). apply (nth_ext _ _ ptid ptid); [congruence|]. intros i Hi. apply tu_pos. congruence.
Qed.
Lemma tu_vj i : (i < nrBodies mb)%nat -> vj m' i = vj m i.
Proof.
  intro Hi. destruct tu_kin as (m1 & m1' & F & F' & _ & _ & V & V' & _ & _ & _ & _ & _ & _ & Ea & Ea'). unfold vj.
  rewrite (fv_jv _ _ _ V i), (fv_jv _ _ _ V' i) by (rewrite ?tu_n; auto). rewrite Ea, Ea'.
  destruct (proj2 (proj2 H) i Hi) as [_ E1 _ E3 _|_ _ E1 _ E3 _]; rewrite E1, E3; [reflexivity|]. rewrite turn_S. apply smul_turn.
Qed.
Lemma tu_vb i : (i < nrBodies mb)%nat -> vb m' i = vb m i.
Proof.
  destruct tu_kin as (m1 & m1' & F & F' & _ & _ & V & V' & _ & _ & Ep & Ep' & _). unfold vb.
  induction i as [i IH] using lt_wf_ind. intro Hi.
  rewrite (fv_vb _ _ _ V i), (fv_vb _ _ _ V' i) by (rewrite ?tu_n; auto). rewrite tu_par.
  pose proof (tu_vj i Hi) as HV. unfold vj in HV. rewrite HV.
  pose proof (tu_pts i Hi) as HP. cbv beta in HP. rewrite Ep, Ep' in HP. rewrite HP.
  destruct (par mb i) eqn:P; auto. pose proof (par_lt mb i n W Hi P). now rewrite IH by lia.
Qed.
Lemma tu_velB : bodyVelB m' = bodyVelB m.
Proof.
  destruct tu_lens as (_ & _ & L & L' & _). apply (nth_ext _ _ sv0 sv0); [congruence|]. intros i Hi. apply tu_vb. congruence.
Qed.
Lemma tu_velW : bodyVelW m' = bodyVelW m.
Proof.
  destruct tu_lens as (_ & _ & _ & _ & L & L'). apply (nth_ext _ _ sv0 sv0); [congruence|]. intros i Hi. rewrite L' in Hi.
  destruct tu_kin as (m1 & m1' & F & F' & _ & _ & V & V' & Eb & Eb' & _).
  rewrite (fv_vw _ _ _ V i), (fv_vw _ _ _ V' i) by (rewrite ?tu_n; auto). rewrite <- Eb, <- Eb', tu_pos by auto.
  pose proof (tu_vb i Hi) as HV. unfold vb in HV. now rewrite HV.
Qed.
Lemma tu_ok : mbc_ok mb m /\ mbc_ok mb' m'.
Proof.
  destruct tu_kin as (m1 & m1' & _ & _ & K1 & K1' & V & V' & _).
  split; [exact (FV_mbc_ok _ _ _ K1 V)|exact (FV_mbc_ok _ _ _ K1' V')].
Qed.
Lemma tu_tan i : (i < nrBodies mb)%nat -> smul (jS (nth i (mb_joints mb') jd)) (nth i (alphaD m') []) = smul (jS (nth i (mb_joints mb) jd)) (nth i (alphaD m) []).
Proof.
  intro Hi. destruct (kin_keeps mb m0 m W K A) as (_ & _ & Ed & _). destruct (kin_keeps mb' m0' m' W' K' A') as (_ & _ & Ed' & _).
  rewrite Ed, Ed'. destruct (proj2 (proj2 H) i Hi) as [_ E1 _ _ E3|_ _ E1 _ _ E3]; rewrite E1, E3; [reflexivity|]. rewrite turn_S. apply smul_turn.
Qed.
Lemma tu_ms i : (i < nrBodies mb)%nat -> nth i (motionSubspace m) [] = jS (nth i (mb_joints mb) jd) /\ nth i (motionSubspace m') [] = jS (nth i (mb_joints mb') jd).
Proof.
  intro Hi. destruct tu_kin as (m1 & m1' & F & F' & _ & _ & _ & _ & _ & _ & _ & _ & Em & Em' & _). rewrite Em, Em'.
  split; [exact (fk_ms _ _ _ F i Hi)|apply (fk_ms _ _ _ F' i); now rewrite tu_n].
Qed.
Lemma tu_axis i a : (i < nrBodies mb)%nat -> axis m' i a = svscale (sgn (t i)) (axis m i a).
Proof.
  intro Hi. unfold axis. destruct (tu_ms i Hi) as [M M']. rewrite M, M', (proj1 (tu_joint i Hi)). apply nth_turn.
Qed.
Lemma tu_FA A0 n n' : forwardAcceleration mb m A0 = Ok n -> forwardAcceleration mb' m' A0 = Ok n' -> bodyAccB n' = bodyAccB n.
Proof.
  intros E E'. destruct tu_ok as [K1 K1'].
  destruct (FA_total mb m A0 W K1) as (x & Ex & P). rewrite E in Ex. injection Ex as <-.
  destruct (FA_total mb' m' A0 W' K1') as (x & Ex & P'). rewrite E' in Ex. injection Ex as <-.
  pose proof (fa_len _ _ _ _ P) as L. pose proof (fa_len _ _ _ _ P') as L'. rewrite (ok_bodyAccB _ _ K1) in L. rewrite (ok_bodyAccB _ _ K1'), tu_n in L'.
  apply (nth_ext _ _ sv0 sv0); [congruence|]. rewrite L'. intro i. induction i as [i IH] using lt_wf_ind. intro Hi.
  rewrite (fa_acc _ _ _ _ P i), (fa_acc _ _ _ _ P' i) by (rewrite ?tu_n; auto). rewrite tu_par.
  pose proof (tu_vj i Hi) as HV. pose proof (tu_vb i Hi) as HB. unfold vj in HV. unfold vb in HB. rewrite HV, HB, tu_tan by auto.
  pose proof (tu_pts i Hi) as HP. cbv beta in HP. rewrite HP.
  destruct (par mb i) eqn:Q; auto. pose proof (par_lt mb i n0 W Hi Q). now rewrite IH by lia.
Qed.
Lemma tu_grav : gravity m' = gravity m /\ force m' = force m.
Proof.
  destruct (kin_keeps mb m0 m W K A) as (_ & _ & _ & Ef & Eg & _). destruct (kin_keeps mb' m0' m' W' K' A') as (_ & _ & _ & Ef' & Eg' & _).
  destruct H as (Hg & Hf & _). split; congruence.
Qed.
Lemma tu_force B B' : (forall i, (i < nrBodies mb)%nat -> B' i = B i) ->
  forall i, (i < nrBodies mb)%nat -> local_force mb' m' B' i = local_force mb m B i.
Proof. intros E i Hi. unfold local_force, fext. rewrite tu_Ib, tu_vb, E, tu_pos, (proj2 tu_grav) by auto. reflexivity. Qed.
(** Recursions over the tree with transforms that agree. *)
Lemma tu_fwd A0 s B : fwd (nrBodies mb) (par mb) (ptsn m') A0 s B -> fwd (nrBodies mb) (par mb) (ptsn m) A0 s B.
Proof. intros F i Hi. rewrite (F i Hi). rewrite (tu_pts i Hi). reflexivity. Qed.
Lemma tu_acc f F : acc (nrBodies mb) (par mb) (ptsn m') f F -> acc (nrBodies mb) (par mb) (ptsn m) f F.
Proof.
  intros F0 i Hi u. rewrite (F0 i Hi). f_equal. apply rsum_ext. intros c Hc. destruct (is_par (par mb) c i); auto.
  rewrite (tu_pts c Hc). reflexivity.
Qed.
Lemma tu_ID f f' g g' n n' : length f = nrBodies mb -> length f' = nrBodies mb ->
  inverseDynamics mb f m = Ok (g, n) -> inverseDynamics mb' f' m' = Ok (g', n') ->
  bodyAccB n' = bodyAccB n /\ g' = g /\
  forall i, (i < nrBodies mb)%nat -> nth i (jointTorque n') [] = map (Rmult (sgn (t i))) (nth i (jointTorque n) []).
Proof.
  intros L L' E E'. destruct tu_ok as [K1 K1'].
  pose proof (ID_run mb m f g n W K1 L E) as P. pose proof (ID_run mb' m' f' g' n' W' K1' ltac:(rewrite tu_n; auto) E') as P'.
  pose proof (ip_acc _ _ _ _ P) as HB. pose proof (ip_acc _ _ _ _ P') as HB'. pose proof (ip_F _ _ _ _ P') as HF'.
  rewrite tu_par_fun, tu_n, (proj1 tu_grav) in HB'. rewrite tu_par_fun, tu_n in HF'.
  assert (EB : forall i, (i < nrBodies mb)%nat -> nth i (bodyAccB n') sv0 = nth i (bodyAccB n) sv0).
  { intros i Hi.
    apply (fwd_unique (nrBodies mb) (par mb) (parlt mb W) (ptsn m) (mkSV v0 (gravity m)) (fun i => svadd (smul (jS (nth i (mb_joints mb) jd)) (nth i (alphaD m) [])) (scross (vb m i) (vj m i)))
      (fun i => nth i (bodyAccB n') sv0) (fun i => nth i (bodyAccB n) sv0)); auto.
    apply tu_fwd. eapply fwd_ext; [apply (parlt mb W)| | |exact HB']; [|auto]. intros k Hk. cbv beta.
    now rewrite (tu_vb k Hk), (tu_vj k Hk), (tu_tan k Hk). }
  assert (EF : forall i, (i < nrBodies mb)%nat -> nth i g' sv0 = nth i g sv0).
  { intros i Hi. apply (acc_unique (nrBodies mb) (par mb) (parlt mb W) (ptsn m) (local_force mb m (fun i => nth i (bodyAccB n) sv0))
      (fun i => nth i g' sv0) (fun i => nth i g sv0)); auto; [|exact (ip_F _ _ _ _ P)].
    apply tu_acc. eapply acc_ext; [|exact HF']. intros k Hk. apply tu_force; auto. }
  pose proof (ok_bodyAccB _ _ (ip_ok _ _ _ _ P)) as L1. pose proof (ok_bodyAccB _ _ (ip_ok _ _ _ _ P')) as L1'. rewrite tu_n in L1'.
  pose proof (ip_f _ _ _ _ P) as L2. pose proof (ip_f _ _ _ _ P') as L2'. rewrite tu_n in L2'.
  split; [apply (nth_ext _ _ sv0 sv0); [congruence|]; intros i Hi; apply EB; congruence|].
  split; [apply (nth_ext _ _ sv0 sv0); [congruence|]; intros i Hi; apply EF; congruence|].
  intros i Hi. rewrite (ip_t _ _ _ _ P), (ip_t _ _ _ _ P') by (rewrite ?tu_n; auto).
  destruct (tu_ms i Hi) as [M M']. rewrite M, M', (proj1 (tu_joint i Hi)), EF by auto. apply tdot_turn.
Qed.
Lemma tu_C s s' c c' : fd_ok mb s -> fd_ok mb' s' -> computeC mb m s = Ok c -> computeC mb' m' s' = Ok c' ->
  forall i a, (i < nrBodies mb)%nat -> (a < dofi mb i)%nat ->
    nth (pos mb' i + a) (fd_C c') 0 = sgn (t i) * nth (pos mb i + a) (fd_C c) 0.
Proof.
  intros O1 O2 E E'. destruct tu_ok as [K1 K1'].
  destruct (C_ok mb m s W K1 O1) as (c1 & E1 & P1). rewrite E in E1. injection E1 as <-.
  destruct (C_ok mb' m' s' W' K1' O2) as (c2 & E2 & P2). rewrite E' in E2. injection E2 as <-.
  destruct (cp_C _ _ _ _ P1) as (B & f & F & HB & Hf & HF & HC). destruct (cp_C _ _ _ _ P2) as (B' & f' & F' & HB' & Hf' & HF' & HC').
  rewrite tu_par_fun, tu_n, (proj1 tu_grav) in HB'. rewrite tu_par_fun, tu_n in HF'.
  assert (EB : forall i, (i < nrBodies mb)%nat -> B' i = B i).
  { intros i Hi. apply (fwd_unique (nrBodies mb) (par mb) (parlt mb W) (ptsn m) (mkSV v0 (gravity m)) (fun i => scross (vb m i) (vj m i))); auto.
    apply tu_fwd. eapply fwd_ext; [apply (parlt mb W)| | |exact HB']; [|auto]. intros k Hk. cbv beta. now rewrite (tu_vb k Hk), (tu_vj k Hk). }
  assert (EF : forall i, (i < nrBodies mb)%nat -> F' i = F i).
  { intros i Hi. apply (acc_unique (nrBodies mb) (par mb) (parlt mb W) (ptsn m) f); auto.
    apply tu_acc. eapply acc_ext; [|exact HF']. intros k Hk. rewrite Hf by auto. rewrite Hf' by (rewrite tu_n; auto). now apply tu_force. }
  intros i a Hi La. rewrite HC by auto. rewrite HC' by (rewrite ?tu_n, ?tu_dof; auto).
  fold (axis m' i a). fold (axis m i a). rewrite tu_axis, EF by auto. apply sdot_turn.
Qed.
Hypothesis RM : rigid_mb mb. Hypothesis RM' : rigid_mb mb'.
Hypothesis C : config_ok mb m0.
Lemma tu_config : config_ok mb' m0'.
Proof.
  intros i j qi Ej Eq. pose proof (wf_nrJoints mb' W') as NJ.
  assert (Hi : (i < nrBodies mb)%nat) by (rewrite <- tu_n, <- NJ; apply nth_error_Some; congruence).
  pose proof (sized_nth mb' jparams (q m0') i (ok_q _ _ K') ltac:(rewrite NJ, tu_n; auto)) as LQ.
  pose proof (proj2 (proj2 H) i Hi) as HK. rewrite (nth_error_nth _ _ jd Ej), (nth_error_nth _ _ [] Eq) in *.
  pose proof (wf_nrJoints mb W) as NJ0. 
  destruct HK as [_ E1 E2 _ _|_ AT E1 _ _ _].
  - apply (C i); rewrite ?E1, ?E2; apply nth_error_nth'.
    + unfold nrJoints in NJ0. lia.
    + rewrite (sized_length _ _ _ (ok_q _ _ K)). lia.
  - split; [exact LQ|]. rewrite E1. cbn [jtyp set_forward]. destruct AT as [->|[->| ->]]; exact Logic.I.
Qed.
Lemma tu_H s s' h h' : fd_ok mb s -> fd_ok mb' s' -> computeH mb m s = Ok h -> computeH mb' m' s' = Ok h' ->
  forall i j a b, (i < nrBodies mb)%nat -> (j < nrBodies mb)%nat ->
    (a < dofi mb i)%nat -> (b < dofi mb j)%nat ->
    ment (fd_H h') (pos mb' i + a) (pos mb' j + b) = sgn (t i) * sgn (t j) * ment (fd_H h) (pos mb i + a) (pos mb j + b).
Proof.
  intros FO FO' E E' i j a b Li Lj La Lb.
  destruct (H_run mb m0 m s h W RM K C A FO E) as [D P]. destruct (H_run mb' m0' m' s' h' W' RM' K' tu_config A' FO' E') as [D' P'].
  rewrite (hp_H _ _ _ _ P) by auto. rewrite (hp_H _ _ _ _ P') by (rewrite ?tu_n, ?tu_dof; auto).
  unfold Msp, Fu. rewrite tu_n, tu_par_fun, tu_Ib.
  rewrite !(unit_bilin (nrBodies mb) (par mb) (parlt mb W)) by auto. rewrite <- rsum_scal. apply rsum_ext. intros k Hk.
  assert (EA : forall i v, unitA (par mb) (ptsn m') i v k = unitA (par mb) (ptsn m) i v k).
  { intros i' v. apply (fwd_unique (nrBodies mb) (par mb) (parlt mb W) (ptsn m) sv0 (at_ i' v)); auto.
    - apply tu_fwd. apply unitA_fwd. apply (parlt mb W).
    - apply unitA_fwd. apply (parlt mb W). }
  assert (ES : forall e i v, unitA (par mb) (ptsn m) i (svscale e v) k = svscale e (unitA (par mb) (ptsn m) i v k)).
  { intros e i' v. apply (fwd_unique (nrBodies mb) (par mb) (parlt mb W) (ptsn m) sv0 (at_ i' (svscale e v)) _ (fun k => svscale e (unitA (par mb) (ptsn m) i' v k))); auto.
    - apply unitA_fwd. apply (parlt mb W).
    - pose proof (fwd_scale (nrBodies mb) (par mb) (ptsn m) e _ _ _ (unitA_fwd (nrBodies mb) (par mb) (parlt mb W) (ptsn m) i' v)) as FS.
      replace (svscale e sv0) with sv0 in FS by svring. eapply fwd_ext; [apply (parlt mb W)| | |exact FS]; [|auto].
      intros x Hx. unfold at_. destruct (Nat.eqb x i'); [auto|svring]. }
  rewrite !EA, (tu_axis i a), (tu_axis j b), !ES by auto. apply bil_turn.
Qed.
End Turn.
