(** Jacobians with turned joints. *)
From Coq Require Import Reals String ZArith Bool Arith List Lia Lra.
From Verif Require Import Res ResP SMap Vec VecP Sva SvaP Mat JointM MultiBodyM KinM DynM JacM Spec SpecDyn SpecJac SpecHold SpecTurn
  JointP JointFinP KinP KinPathP MbP TreeP DynP DynFinP KinFinP BaseP DerivTreeP JacP JacFinP JacFin2P JacTopP TurnP TurnTopP.
Import ListNotations.
Open Scope R_scope.

Lemma combine_app {X Y} (a b : list X) (c d : list Y) : length a = length c -> combine (a ++ b) (c ++ d) = combine a c ++ combine b d.
Proof. revert c. induction a as [|x a IH]; intros [|y c] L; try discriminate; auto. cbn [app combine]. f_equal. apply IH. now injection L. Qed.
Lemma combine_repeat {X Y} (x : X) (l : list Y) : combine (repeat x (length l)) l = map (fun y => (x, y)) l.
Proof. induction l; cbn [length repeat combine map]; congruence. Qed.
Lemma concat_signs {Y} (op : R -> Y -> Y) (e : nat -> R) (n : nat -> nat) (f f' : nat -> list Y) l :
  (forall k, In k l -> length (f k) = n k /\ f' k = map (op (e k)) (f k)) ->
  concat (map f' l) = map (fun x => op (fst x) (snd x)) (combine (concat (map (fun k => repeat (e k) (n k)) l)) (concat (map f l))).
Proof.
  induction l as [|k l IH]; intro E; [reflexivity|]. destruct (E k (or_introl eq_refl)) as [L F]. cbn [map concat].
  rewrite combine_app by (rewrite repeat_length; auto). rewrite map_app, <- IH by (intros; apply E; now right). f_equal.
  rewrite F, <- L, combine_repeat, map_map. reflexivity.
Qed.
Lemma smul_signs s : (forall e, In e s -> e * e = 1) -> forall D x, (length D <= length s)%nat ->
  smul (columns_times s D) (map (fun e => fst e * snd e) (combine s x)) = smul D x.
Proof.
  unfold columns_times. induction s as [|e s IH]; intros Q D x L.
  - destruct D; [|cbn in L; lia]. reflexivity.
  - destruct D as [|c D]; [reflexivity|]. destruct x as [|k x]; [reflexivity|]. cbn [combine map smul fst snd]. cbn [length] in L.
    rewrite IH by (auto with arith; intros; apply Q; now right). f_equal. pose proof (Q e (or_introl eq_refl)) as E.
    replace (svscale (e * k) (svscale e c)) with (svscale (e * e * k) c) by svring. now rewrite E, Rmult_1_l.
Qed.

Lemma turned_path mb mb' i l : same_tree mb mb' -> root_path mb i l -> root_path mb' i l.
Proof.
  intros T P. induction P as [k E|k q l E P IH].
  - apply rp_root. now rewrite (st_pred _ _ T).
  - apply (rp_step mb' k q); auto. now rewrite (st_pred _ _ T).
Qed.
Lemma scross_scale v e c : scross v (svscale e c) = svscale e (scross v c).
Proof. destruct v, c. svring. Qed.
Lemma dcb_scale Y v e c : dcol_body Y v (svscale e c) = svscale e (dcol_body Y v c).
Proof. unfold dcol_body. now rewrite ptm_scale, scross_scale. Qed.
Lemma dcw_scale m i Y v e c : dcol_world m i Y v (svscale e c) = svscale e (dcol_world m i Y v c).
Proof. unfold dcol_world. now rewrite !ptm_scale, !scross_scale, ptm_scale, svscale_add. Qed.
Section TurnJac.
Variables (t : nat -> bool) (mb mb' : MultiBody) (m0 m m0' m' : MBC).
Hypothesis W : wf_mb mb. Hypothesis W' : wf_mb mb'. Hypothesis RM : rigid_mb mb. Hypothesis T : same_tree mb mb'.
Hypothesis K : mbc_ok mb m0. Hypothesis C : config_ok mb m0. Hypothesis K' : mbc_ok mb' m0'.
Hypothesis S : turned_state t mb m0 mb' m0'.
Hypothesis A : after_kinematics mb m0 m. Hypothesis A' : after_kinematics mb' m0' m'.
Variables (i : nat) (p : V3) (J J' : Jac).
Hypothesis H : jacobian_of mb i p J. Hypothesis H' : jacobian_of mb' i p J'.

Let RM' := turned_rigid t mb mb' m0 m0' W W' T S RM.
Let C' := tu_config t mb mb' m0 m0' T W W' K K' S C.
Let R := kin_run mb m0 m W RM K C A.
Let R' := kin_run mb' m0' m' W' RM' K' C' A'.
Lemma tj_i : (i < nrBodies mb)%nat. Proof. exact (proj1 (root_path_lt _ _ _ W (jo_path _ _ _ _ H))). Qed.
Lemma tj_path : jc_path J' = jc_path J.
Proof.
  apply (root_path_unique mb' i _ _ W' (jo_path _ _ _ _ H')). exact (turned_path mb mb' i _ T (jo_path _ _ _ _ H)).
Qed.
Lemma tj_in k : In k (jc_path J) -> (k < nrBodies mb)%nat.
Proof. intro I. eapply root_path_in; eauto. exact (jo_path _ _ _ _ H). Qed.
Let EX := tu_pos t mb mb' m0 m m0' m' T W W' K K' A A' S.
Let EV := tu_vb t mb mb' m0 m m0' m' T W W' K K' A A' S.
Let EW := tu_velW t mb mb' m0 m m0' m' T W W' K K' A A' S.
Let EM := tu_ms mb mb' m0 m m0' m' T W W' K K' A A'.
Let EJ := tu_joint t mb mb' m0 m0' S.
Lemma tj_S k : (k < nrBodies mb)%nat -> length (jS (nth k (mb_joints mb) jd)) = jdof (nth k (mb_joints mb) jd).
Proof. intro Hk. destruct (sizes _ (wf_joint_nth mb k W Hk)) as (_ & _ & L). exact L. Qed.
Lemma tj_fcols X : concat (map (fcols mb' m' X) (jc_path J')) = columns_times (path_signs t mb (jc_path J)) (concat (map (fcols mb m X) (jc_path J))).
Proof.
  rewrite tj_path. apply (concat_signs svscale). intros k Hk. apply tj_in in Hk. unfold fcols.
  split; [rewrite map_length; now apply tj_S|]. pose proof (EX k Hk) as EXk. rewrite EXk, (proj1 (EJ k Hk)), !map_map.
  apply map_ext. intro c. apply ptm_scale.
Qed.
Lemma tj_dcols col X V : (forall Y v e c, col Y v (svscale e c) = svscale e (col Y v c)) ->
  concat (map (dcols m' col X V) (jc_path J')) = columns_times (path_signs t mb (jc_path J)) (concat (map (dcols m col X V) (jc_path J))).
Proof.
  intro Q. rewrite tj_path. apply (concat_signs svscale). intros k Hk. apply tj_in in Hk. unfold dcols. cbv zeta.
  pose proof (EX k Hk) as EXk. destruct (EM k Hk) as [M M'].
  split; [rewrite map_length, M; now apply tj_S|]. rewrite EXk, (EV k Hk), M, M', (proj1 (EJ k Hk)), !map_map.
  apply map_ext. intro c. apply Q.
Qed.
Lemma tj_alpha : on_path (jc_path J') (alpha m') = map (fun e => fst e * snd e) (combine (path_signs t mb (jc_path J)) (on_path (jc_path J) (alpha m))).
Proof.
  destruct (kin_keeps mb m0 m W K A) as (_ & Ea & _). destruct (kin_keeps mb' m0' m' W' K' A') as (_ & Ea' & _).
  rewrite tj_path. unfold on_path. apply (concat_signs Rmult). intros k Hk. apply tj_in in Hk. rewrite Ea, Ea'.
  split; [apply (sized_nth mb jdof (alpha m0) k (ok_alpha _ _ K)); rewrite (wf_nrJoints mb W); auto|].
  destruct (proj2 (proj2 S) k Hk) as [Et _ _ E3 _|Et _ _ _ E3 _]; rewrite Et, E3.
  - symmetry. apply map_id_ext. intros x _. unfold sgn. ring.
  - apply map_ext. intro x. unfold sgn. ring.
Qed.
Lemma tj_signs e : In e (path_signs t mb (jc_path J)) -> e * e = 1.
Proof.
  intro I. apply in_concat in I as (l & Hl & I). apply in_map_iff in Hl as (k & <- & _). apply repeat_spec in I. subst e.
  unfold sgn. destruct (t k); ring.
Qed.
Lemma tj_smul col X V : 
  smul (columns_times (path_signs t mb (jc_path J)) (concat (map (dcols m col X V) (jc_path J)))) (on_path (jc_path J') (alpha m')) =
  smul (concat (map (dcols m col X V) (jc_path J))) (on_path (jc_path J) (alpha m)).
Proof.
  rewrite tj_alpha. apply smul_signs; [exact tj_signs|]. apply Nat.eq_le_incl. unfold path_signs.
  assert (Q : forall k, In k (jc_path J) -> length (dcols m col X V k) = jdof (nth k (mb_joints mb) jd)).
  { intros k Hk. apply tj_in in Hk. unfold dcols. cbv zeta. rewrite map_length. destruct (EM k Hk) as [M _]. rewrite M. now apply tj_S. }
  induction (jc_path J) as [|k l IH]; [reflexivity|]. cbn [map concat]. rewrite !app_length, repeat_length, Q by now left.
  f_equal. apply IH. intros; apply Q; now right.
Qed.
Lemma turned_jacobian : jc_path J' = jc_path J /\
  velocity m' J' = velocity m J /\ bodyVelocity m' J' = bodyVelocity m J /\
  normalAcceleration m' J' = normalAcceleration m J /\ bodyNormalAcceleration m' J' = bodyNormalAcceleration m J /\
  exists J1 J1' J2 J2' J3 J3' J4 J4',
    jacobian mb m J = Ok J1 /\ jacobian mb' m' J' = Ok J1' /\ jc_jac J1' = columns_times (path_signs t mb (jc_path J)) (jc_jac J1) /\
    bodyJacobian mb m J = Ok J2 /\ bodyJacobian mb' m' J' = Ok J2' /\ jc_jac J2' = columns_times (path_signs t mb (jc_path J)) (jc_jac J2) /\
    jacobianDot mb m J = Ok J3 /\ jacobianDot mb' m' J' = Ok J3' /\ jc_dot J3' = columns_times (path_signs t mb (jc_path J)) (jc_dot J3) /\
    bodyJacobianDot mb m J = Ok J4 /\ bodyJacobianDot mb' m' J' = Ok J4' /\ jc_dot J4' = columns_times (path_signs t mb (jc_path J)) (jc_dot J4).
Proof.
  pose proof tj_i as Hi. split; [exact tj_path|].
  destruct (top_velocity mb m0 m W RM K C A i p J H) as (X & V & _ & _ & GX & GV & _ & _ & _ & _ & _ & _ & EV1 & EV2).
  destruct (top_velocity mb' m0' m' W' RM' K' C' A' i p J' H') as (X' & V' & _ & _ & GX' & GV' & _ & _ & _ & _ & _ & _ & EV1' & EV2').
  assert (X' = X) as -> by (rewrite <- (nth_error_nth _ _ ptid GX), <- (nth_error_nth _ _ ptid GX'); now apply EX).
  assert (V' = V) as -> by (rewrite <- (nth_error_nth _ _ sv0 GV), <- (nth_error_nth _ _ sv0 GV'); now apply EV).
  split; [congruence|]. split; [congruence|].
  pose proof (jacobianDot_run mb m0 m W R i p J H) as E3. pose proof (bodyJacobianDot_run mb m0 m W R i p J H) as E4.
  pose proof (jacobianDot_run mb' m0' m' W' R' i p J' H') as E3'. pose proof (bodyJacobianDot_run mb' m0' m' W' R' i p J' H') as E4'.
  assert (EP : posW m' i = posW m i) by (exact (EX i Hi)).
  assert (ED : dcol_world m' i = dcol_world m i).
  { unfold dcol_world, wN. rewrite EP, EW. reflexivity. }
  rewrite ED in E3'. rewrite EP, (EV i Hi) in E3', E4'.
  rewrite tj_dcols in E3' by (intros; apply dcw_scale).
  rewrite tj_dcols in E4' by (intros; apply dcb_scale).
  destruct (top_dot mb m0 m W RM K C A i p J H) as (D1 & D2 & N1 & N2 & F1 & _ & F2 & _ & F3 & F4 & F5 & F6).
  destruct (top_dot mb' m0' m' W' RM' K' C' A' i p J' H') as (D1' & D2' & N1' & N2' & F1' & _ & F2' & _ & F3' & F4' & F5' & F6').
  rewrite E3 in F1. rewrite E4 in F2. rewrite E3' in F1'. rewrite E4' in F2'. injection F1 as <-. injection F2 as <-. injection F1' as <-. injection F2' as <-.
  cbn [jc_dot with_dot] in F5, F6, F5', F6'. rewrite tj_smul in F5', F6'.
  split; [congruence|]. split; [congruence|].
  do 8 eexists. split; [exact (jacobian_run mb m0 m W R i p J H)|]. split; [exact (jacobian_run mb' m0' m' W' R' i p J' H')|].
  split; [cbn [jc_jac with_jac]; rewrite tj_fcols; now rewrite EP|].
  split; [exact (bodyJacobian_run mb m0 m W R i p J H)|]. split; [exact (bodyJacobian_run mb' m0' m' W' R' i p J' H')|].
  split; [cbn [jc_jac with_jac]; rewrite tj_fcols; now rewrite EP|].
  split; [exact E3|]. split; [exact E3'|]. split; [reflexivity|]. split; [exact E4|]. split; [exact E4'|]. reflexivity.
Qed.
End TurnJac.
