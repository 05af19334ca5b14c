(** Proofs about whole robots: YAML. *)
From Coq Require Import Reals String ZArith Bool Arith List Lia.
From Verif Require Import Res ResP SMap Vec VecP Sva SvaP JointM JointP MultiBodyM KinM GraphM ParserM YamlM Spec SpecGraph SpecParser SpecDoc DynP GraphP GraphWalkP GraphTreeP GraphUseP GraphTopP GraphSimP MbP DocGraphP DocP ParserRotP ParserRtP ParserBodyP ParserJointP.
Import ListNotations.
Open Scope nat_scope.

Lemma for_seq {S} (f : nat -> S -> res S) (st : nat -> S) n : forall a, (forall i, a <= i < a + n -> f i (st i) = Ok (st (Datatypes.S i))) -> for_each (seq a n) f (st a) = Ok (st (a + n)).
Proof.
  induction n as [|n IH]; intros a H; cbn [seq for_each]; [now rewrite Nat.add_0_r|]. rewrite H by lia. cbn [bind]. rewrite IH by (intros; apply H; lia). f_equal. f_equal. lia.
Qed.
Lemma map_nth_seq {A} (l : list A) d : map (fun i => nth i l d) (seq 0 (List.length l)) = l.
Proof. apply (list_ext_nth _ _ d); [now rewrite map_length, seq_length|]. intros i Hi. rewrite map_length, seq_length in Hi. now rewrite (nth_map_seq (fun i => nth i l d)) by auto. Qed.
Lemma map_tail {A} (f g : nat -> A) N : f 0 = g 0 -> (forall i, 0 < i < N -> f i = g i) -> map f (seq 0 N) = map g (seq 0 N).
Proof. intros H0 H. apply map_ext_in. intros i Hi. apply in_seq in Hi. destruct i; auto. apply H. lia. Qed.
Lemma same_joint_eq j j' : same_joint j j' -> jfwd j = jfwd j' -> j = j'.
Proof. destruct j, j'. unfold same_joint. cbn. intros (-> & -> & -> & -> & -> & -> & -> & -> & ->) ->. reflexivity. Qed.

(** One joint. *)
Lemma mkJ_same a j ax : built a j -> jfwd j = true -> jmimic j = false -> map (svscale 1) (baseS (jtyp j) ax) = jS j -> mkJ (jtyp j) ax true (jname j) = j.
Proof.
  intros BU F M E. pose proof (built_shape a j BU) as (_ & BP & BD). destruct (built_mimic_fields a j BU M) as (M1 & M2 & M3).
  apply same_joint_eq; [|symmetry; exact F]. unfold same_joint, mkJ. cbn [jtyp jS jparams jdof jname jmimic jmimicName jmimicMul jmimicOff dirR].
  rewrite E, BP, BD, M, M1, M2, M3. repeat (split; [reflexivity|]). reflexivity.
Qed.
Lemma yaml_axis a j : built a j -> vdot a a = 1%R -> jfwd j = true -> jmimic j = false -> (jtyp j = Rev \/ jtyp j = Prism \/ jtyp j = Fixed) ->
  exists ax ax', axis_of j = Ok ax /\ parseJointAxis (if isZero3 ax then None else Some (yw_vec3d ax)) = Ok ax' /\ mkJ (jtyp j) ax' true (jname j) = j.
Proof.
  intros BU U F M T. pose proof (axis_of_spec a j BU U) as AS. pose proof (jS_1 a j BU U) as JS.
  assert (K : forall ax, parseJointAxis (Some (yw_vec3d ax)) = Ok ax). { intro ax. unfold parseJointAxis, yw_vec3d. cbn [as_vec elems three bind]. now rewrite v3_eta. }
  destruct T as [T|[T|T]]; rewrite T in AS, JS.
  - destruct AS as (v & E & V & S). exists v, v. rewrite (unit_not_zero _ V). split; [exact E|]. split; [apply K|]. apply (mkJ_same a); auto. rewrite T, S, map_one. reflexivity.
  - destruct AS as (v & E & V & S). exists v, v. rewrite (unit_not_zero _ V). split; [exact E|]. split; [apply K|]. apply (mkJ_same a); auto. rewrite T, S, map_one. reflexivity.
  - destruct AS as (v & E & -> & _). exists v0, unitZ. rewrite isZero_v0. split; [exact E|]. split; [reflexivity|]. apply (mkJ_same a); auto. rewrite T, JS. reflexivity.
Qed.
Definition ylim (l : Limits) (n : string) : YLimits :=
  mkYLim (yw_limit (l_lower l) n) (yw_limit (l_upper l) n) (yw_limit (l_torque l) n) (yw_limit (l_velocity l) n) None.
Lemma yaml_type suf l j : yaml_able_limits l j -> jdof j = tdof (jtyp j) ->
  exists ty wl (c : bool), type_name l j = Ok ty /\ write_limits l j = Ok wl /\ parseJointType suf (Some ty) (jname j) false = Ok (jtyp j, c) /\
  exists lo up ve to_, limits_at l (jname j) lo up ve to_ /\ parseJointLimits false (if wl : bool then Some (ylim l (jname j)) else None) j c = Ok (lo, up, to_, ve).
Proof.
  intros H DOF. unfold yaml_able_limits in H. unfold type_name, write_limits, has_limits, is_continuous. destruct (jtyp j) eqn:T; try contradiction.
  - destruct H as (lo & up & ve & to_ & (E1 & E2 & E3 & E4) & C). rewrite E1, E2, E3, E4. cbn [andb get nth_error bind].
    assert (D1 : jdof j = 1) by (rewrite DOF; reflexivity).
    assert (LIM : parseJointLimits false (Some (ylim l (jname j))) j false = Ok ([lo], [up], [to_], [ve])).
    { unfold ylim, yw_limit. rewrite E1, E2, E3, E4. exact (limits_1 false None (Some lo) (Some up) (Some to_) (Some ve) j false D1). }
    assert (PT : forall c : bool, parseJointType suf (Some (if c then "continuous" else "revolute")%string) (jname j) false = Ok (Rev, c)) by (intros [|]; reflexivity).
    destruct (match up with PInf => false | _ => true end) eqn:CU; cbn [bind].
    + exists "revolute"%string, true, false. do 2 (split; [reflexivity|]). split; [exact (PT false)|]. exists [lo], [up], [ve], [to_]. split; [now repeat split|exact LIM].
    + destruct (match lo with MInf => false | _ => true end) eqn:CL; cbn [bind negb].
      * exists "revolute"%string, true, false. do 2 (split; [reflexivity|]). split; [exact (PT false)|]. exists [lo], [up], [ve], [to_]. split; [now repeat split|exact LIM].
      * destruct up; try discriminate. destruct lo; try discriminate. destruct (C eq_refl eq_refl) as (-> & ->).
        exists "continuous"%string, false, true. do 2 (split; [reflexivity|]). split; [exact (PT true)|]. exists [MInf], [PInf], [PInf], [PInf]. split; [now repeat split|].
        unfold parseJointLimits. rewrite D1. reflexivity.
  - destruct H as (lo & up & ve & to_ & (E1 & E2 & E3 & E4)). rewrite E1, E2, E3, E4. cbn [andb].
    exists "prismatic"%string, true, false. do 3 (split; [reflexivity|]). exists [lo], [up], [ve], [to_]. split; [now repeat split|].
    assert (D1 : jdof j = 1) by (rewrite DOF; reflexivity). unfold ylim, yw_limit. rewrite E1, E2, E3, E4. exact (limits_1 false None (Some lo) (Some up) (Some to_) (Some ve) j false D1).
  - destruct H as (E1 & E2 & E3 & E4). rewrite E1. cbn [andb].
    exists "fixed"%string, false, false. do 3 (split; [reflexivity|]). exists [], [], [], []. split; [now repeat split|].
    unfold parseJointLimits. rewrite DOF. reflexivity.
Qed.
Lemma yaml_body_all b : yaml_able_body b -> parseInertial false true (bname b) (yw_inertial (binertia b)) = Ok b.
Proof.
  intros [E|(H1 & H2 & H3)]; [|now apply yaml_body]. rewrite E, yaml_zero. f_equal. destruct b. cbn in *. now subst.
Qed.
Definition lims (l : Limits) (J : nat -> Joint) (m : nat) : Limits :=
  let at_ (f : Limits -> smap (list dbl)) := fold_left (fun mp i => mset mp (jname (J (S i))) (match mfind (f l) (jname (J (S i))) with Some v => v | None => [] end)) (seq 0 m) [] in
  mkLim (at_ l_lower) (at_ l_upper) (at_ l_velocity) (at_ l_torque).
Lemma lims_S l J m lo up ve to_ : limits_at l (jname (J (S m))) lo up ve to_ -> lim_set (lims l J m) (jname (J (S m))) lo up ve to_ = lims l J (S m).
Proof. intros (E1 & E2 & E3 & E4). unfold lims, lim_set. rewrite (seq_S m 0), !fold_left_app. cbn [fold_left Nat.add l_lower l_upper l_velocity l_torque]. rewrite E1, E2, E3, E4. reflexivity. Qed.
Lemma lims_at l J N i lo up ve to_ : (forall i k, 0 < i < N -> 0 < k < N -> jname (J i) = jname (J k) -> i = k) -> 0 < i < N -> limits_at l (jname (J i)) lo up ve to_ ->
  limits_at (lims l J (N - 1)) (jname (J i)) lo up ve to_.
Proof.
  intros NJ Hi (E1 & E2 & E3 & E4). destruct i as [|i]; [lia|].
  assert (G : forall (f : Limits -> smap (list dbl)) (v : list dbl), mfind (f l) (jname (J (S i))) = Some v ->
    mfind (fold_left (fun mp i => mset mp (jname (J (S i))) (match mfind (f l) (jname (J (S i))) with Some v => v | None => [] end)) (seq 0 (N - 1)) []) (jname (J (S i))) = Some v).
  { intros f v E. pose proof (mfind_fold_in (fun i => jname (J (S i))) (fun i => match mfind (f l) (jname (J (S i))) with Some v => v | None => @nil dbl end) (seq 0 (N - 1)) [] i) as Q. cbv beta in Q.
    rewrite Q; [now rewrite E|apply in_seq; lia|]. intros b Hb HE. apply in_seq in Hb. apply NJ in HE; lia. }
  unfold limits_at, lims. cbn [l_lower l_upper l_velocity l_torque]. now rewrite (G l_lower lo E1), (G l_upper up E2), (G l_velocity ve E3), (G l_torque to_ E4).
Qed.

Lemma yaml_round euler g p r : euler_ok euler -> plain p -> tree_robot g (pp_fixed p) r -> named r ->
  (forall b, In b (mb_bodies (pr_mb r)) -> yaml_able_body b) ->
  (forall i j, 0 < i -> nth_error (mb_joints (pr_mb r)) i = Some j -> yaml_able_joint (pr_limits r) j) ->
  (forall i X, 0 < i -> nth_error (mb_Xt (pr_mb r)) i = Some X -> yaml_able_frame euler X) ->
  exists d, to_yaml euler r = Ok d /\ forall fuel, nrBodies (pr_mb r) <= fuel ->
  exists r', from_yaml fuel g d p = Ok r' /\ pr_mb r' = pr_mb r /\ pr_mbc r' = pr_mbc r /\ pr_name r' = pr_name r /\
    forall i j, 0 < i -> nth_error (mb_joints (pr_mb r)) i = Some j -> same_limits (pr_limits r) (pr_limits r') (jname j).
Proof.
  intros EO (PF & PT & PV & PB) TR NM YB YJ YX.
  pose proof (robot_view g (pp_fixed p) r TR NM) as RV. cbv zeta in RV.
  set (mb := pr_mb r) in *. set (N := List.length (mb_bodies mb)) in *. set (P := par_of mb) in *.
  set (B := fun i => nth i (mb_bodies mb) bd) in *. set (J := fun i => nth i (mb_joints mb) jd) in *. set (X := fun i => nth i (mb_Xt mb) ptid) in *. set (l := pr_limits r) in *.
  assert (JL : List.length (mb_joints mb) = N).
  { exact (robot_len g (pp_fixed p) r TR). }
  assert (YJ' : forall i, 0 < i < N -> yaml_able_joint l (J i)). { intros i Hi. apply (YJ i); [lia|]. apply nth_error_nth'. lia. }
  destruct RV as (N0 & _ & LX & ZM & LP & NB & NJ & J0 & X0 & EC & (h & tr & j0 & Xa & Xb & U & SZ & HP) & JI & WR). { intros i Hi. apply (YJ' i Hi). }
  fold P in LP, EC, HP, WR. fold mb in ZM, EC, JI, WR. fold N in EC, SZ, WR.
  assert (YX' : forall i, 0 < i < N -> yaml_able_frame euler (X i)). { intros i Hi. apply (YX i); [lia|]. apply nth_error_nth'. lia. }
  assert (YB' : forall i, i < N -> yaml_able_body (B i)). { intros i Hi. apply YB. now apply nth_In. }
  assert (NJ' : forall i k, 0 < i < N -> 0 < k < N -> jname (J i) = jname (J k) -> i = k) by (intros; apply NJ; auto; lia).
  (* one joint of the document *)
  assert (ONE : forall i, 0 < i < N -> exists u, yw_joint euler r (J i) = Ok (Some u) /\
     forall s, parseJoint p false [] [] u (i, s, lims l J (i - 1)) = (g1 <- grun (addJoint (J i)) s ;; g2 <- grun (linkBodies (bname (B (P i))) (X i) (bname (B i)) ptid (jname (J i)) true) g1 ;; Ok (S i, g2, lims l J i))).
  { intros i Hi. destruct (YJ' i Hi) as ((a & UA & BA) & FW & MI & YL). destruct (WR i Hi) as (EN & nd & e & W1 & W2 & W3).
    pose proof (built_shape a (J i) BA) as (_ & _ & BD).
    destruct (yaml_type (pp_suffix p) l (J i) YL BD) as (ty & wl & c & T1 & T2 & T3 & lo & up & ve & to_ & LA & T4).
    assert (TY : jtyp (J i) = Rev \/ jtyp (J i) = Prism \/ jtyp (J i) = Fixed) by (unfold yaml_able_limits in YL; destruct (jtyp (J i)); tauto).
    destruct (yaml_axis a (J i) BA UA FW MI TY) as (ax & ax' & A1 & A2 & A3).
    unfold yw_joint. fold mb. rewrite JI by lia. cbn [bind]. destruct (Z.eqb_spec (Z.of_nat i) 0); [lia|]. fold l. rewrite T1. cbn [bind]. rewrite EN. cbn [bind fst snd]. fold (B (P i)).
    rewrite W1. cbn [bind]. rewrite A1. cbn [bind]. rewrite T2. cbn [bind]. eexists. split; [reflexivity|]. intro s.
    unfold parseJoint. cbn [yj_name yj_parent yj_child yj_type yj_axis yj_frame yj_limits as_or in_names existsb orb].
    rewrite T3. cbn [bind]. rewrite A2. cbn [bind]. rewrite W2. cbn [first_some]. rewrite W3. fold (X i).
    destruct (YX' i Hi) as (X1 & X2 & X3). pose proof (yaml_frame_rt euler (X i) EO X1 X2 X3) as YF. unfold yaml_pt in YF.
    assert (FS : match yw_frame euler (X i) with Some b => Some b | None => None end = yw_frame euler (X i)) by (destruct (yw_frame euler (X i)); reflexivity).
    rewrite FS. destruct (parseFrame false (yw_frame euler (X i))) as [(xyz & rpy)| | |]; cbn [bind fst snd] in YF |- *; try discriminate.
    rewrite A3. fold (ylim l (jname (J i))). rewrite T4. cbn [bind]. f_equal. f_equal.
    injection YF as YF. rewrite YF. destruct i as [|i]; [lia|]. replace (S i - 1) with i by lia. rewrite (lims_S l J i lo up ve to_ LA). reflexivity. }
  set (UJ := fun i => match yw_joint euler r (J i) with Ok (Some u) => u | _ => mkYJ None None None None None None None end).
  assert (ONE1 : forall i, 0 < i < N -> yw_joint euler r (J i) = Ok (Some (UJ i))). { intros i Hi. unfold UJ. destruct (ONE i Hi) as (u & -> & _). reflexivity. }
  assert (ONE2 : forall i, 0 < i < N -> forall s, parseJoint p false [] [] (UJ i) (i, s, lims l J (i - 1)) = (g1 <- grun (addJoint (J i)) s ;; g2 <- grun (linkBodies (bname (B (P i))) (X i) (bname (B i)) ptid (jname (J i)) true) g1 ;; Ok (S i, g2, lims l J i))).
  { intros i Hi. unfold UJ. destruct (ONE i Hi) as (u & -> & H). exact H. }
  clear ONE. exists (Some (mkYR (Some (pr_name r)) (Some false) (Some (map yw_link (mb_bodies mb))) (Some (map UJ (seq 1 (N - 1)))))). split.
  { unfold to_yaml. fold mb. rewrite <- (map_nth_seq (mb_joints mb) jd) at 1. rewrite JL. rewrite for_each_map. rewrite seq_cons by auto. cbn [for_each].
    fold (J 0). assert (Z0 : yw_joint euler r (J 0) = Ok None). { unfold yw_joint. fold mb. rewrite JI by lia. reflexivity. }
    rewrite Z0. cbn [bind]. rewrite (for_each_snoc (fun i => yw_joint euler r (J i)) UJ) by (intros i Hi; apply in_seq in Hi; apply ONE1; lia). reflexivity. }
  intros fuel HF. unfold from_yaml, parse_yaml. cbn [yr_name yr_links yr_deg yr_joints].
  (* links *)
  assert (LK : for_each (map yw_link (mb_bodies mb)) (parseLink p false) (mkYS empty_graph EmptyString 1 [] []) = Ok (mkYS (bst B N) (bname (B 0)) (S N) [] [])).
  { rewrite <- (map_nth_seq (mb_bodies mb) bd). rewrite map_map. fold N. rewrite for_each_map.
    pose (st := fun k => mkYS (bst B k) (match k with O => EmptyString | _ => bname (B 0) end) (S k) [] []).
    pose proof (for_seq (fun a => parseLink p false (yw_link (nth a (mb_bodies mb) bd))) st N 0) as FS. cbn [Nat.add] in FS. change (st 0) with (mkYS empty_graph EmptyString 1 [] []) in FS.
    rewrite FS; [unfold st; f_equal; destruct N; [lia|reflexivity]|]. intros i Hi. unfold st at 1. fold (B i). unfold parseLink, yw_link. cbn [yl_name yl_inertial ys_link ys_g ys_base ys_fixed ys_removed as_or].
    rewrite PV, PF. cbn [andb in_names existsb]. rewrite PT. rewrite yaml_body_all by (apply YB'; lia). cbn [bind].
    rewrite (bst_S N B NB i) by lia. cbn [bind]. unfold st. f_equal. f_equal. destruct i as [|i]; [reflexivity|]. destruct NM as (_ & NE).
    destruct (String.eqb_spec (bname (B 0)) "") as [E|]; [|reflexivity]. exfalso. apply NE. exact E. }
  rewrite LK. cbn [bind ys_fixed ys_removed ys_g ys_base].
  (* joints *)
  assert (JS : for_each (map UJ (seq 1 (N - 1))) (parseJoint p false [] []) (1, bst B N, lim0) = Ok (N, dst N B J P X (N - 1), lims l J (N - 1))).
  { rewrite for_each_map. pose (st := fun i => (i, dst N B J P X (i - 1), lims l J (i - 1))).
    pose proof (for_seq (fun a => parseJoint p false [] [] (UJ a)) st (N - 1) 1) as FS.
    assert (S1 : st 1 = (1, bst B N, lim0)). { unfold st. cbn [Nat.sub]. rewrite bst_all. reflexivity. }
    rewrite S1 in FS. rewrite FS; [unfold st; do 2 f_equal; [f_equal|]; try lia; do 2 f_equal; lia|]. intros i Hi. unfold st at 1. rewrite ONE2 by lia.
    destruct i as [|i]; [lia|]. replace (S i - 1) with i by lia.
    pose proof (dst_S N B J P X NB NJ' LP ltac:(intros k Hk; apply (YJ' k Hk)) i ltac:(lia)) as DS.
    destruct (grun (addJoint (J (S i))) (dst N B J P X i)) as [g1| | |]; cbn [bind] in DS |- *; try discriminate. rewrite DS. cbn [bind]. unfold st. replace (S (S i) - 1) with (S i) by lia. reflexivity. }
  rewrite JS. cbn [bind]. rewrite PB. cbn [String.eqb].
  assert (MK : makeMultiBody_fixed fuel (bname (B 0)) (pp_fixed p) ptid ptid (dst N B J P X (N - 1)) = Ok mb).
  { rewrite (rebuild N B J P X NB LP h tr j0 Xa Xb fuel (pp_fixed p) N0 U SZ HF HP). rewrite <- EC. f_equal.
    - apply map_nth_seq.
    - fold (rootj (pp_fixed p)). rewrite <- (map_nth_seq (mb_joints mb) jd). rewrite JL. apply map_tail; [symmetry; exact J0|]. intros i Hi. destruct i; [lia|reflexivity].
    - rewrite <- (map_nth_seq (mb_Xt mb) ptid). rewrite LX. apply map_tail; [symmetry; exact X0|]. intros i Hi. destruct i; [lia|reflexivity]. }
  rewrite (make_result_zero _ _ _ _ _ _ _ _ MK). rewrite ZM. cbn [bind]. eexists. split; [reflexivity|]. cbn [pr_mb pr_mbc pr_name pr_limits]. do 3 (split; [reflexivity|]).
  intros i j Hi Hj. assert (Li : i < N) by (rewrite <- JL; apply nth_error_Some; congruence). assert (EJ : J i = j) by (apply nth_error_nth; exact Hj). rewrite <- EJ.
  destruct (YJ' i ltac:(lia)) as ((a & UA & BA) & FW & MI & YL). pose proof (built_shape a (J i) BA) as (_ & _ & BD).
  destruct (yaml_type (pp_suffix p) l (J i) YL BD) as (_ & _ & _ & _ & _ & _ & lo & up & ve & to_ & LA & _).
  exists lo, up, ve, to_. split; [exact LA|]. apply (lims_at l J N i); auto.
Qed.
