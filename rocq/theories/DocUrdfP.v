(** Proofs about whole robots: URDF. *)
From Coq Require Import Reals String ZArith Bool Arith List Lia.
From Verif Require Import Res ResP SMap Vec VecP Sva SvaP JointM JointP MultiBodyM KinM GraphM ParserM YamlM Spec SpecGraph SpecParser SpecDoc DynP GraphP GraphWalkP GraphTreeP GraphUseP GraphTopP GraphSimP MbP DocGraphP DocP DocYamlP ParserRotP ParserRtP ParserBodyP ParserJointP.
Import ListNotations.
Open Scope nat_scope.

Lemma nums_fin W v : exact_text W -> (forall d, In d v -> exists x, d = Fin x) -> map Fin (nums (map (wr_tok W) v)) = v.
Proof.
  intros ET. induction v as [|d v IH]; intro H; [reflexivity|]. destruct (H d (or_introl eq_refl)) as (x & ->). cbn [map wr_tok nums]. rewrite ET, IH by (intros; apply H; now right). reflexivity.
Qed.
Lemma attr_fin W v : exact_text W -> finite v -> map Fin (attrToList (Some (map (wr_tok W) v)) []) = v.
Proof. intros ET (_ & F). cbn [attrToList]. now apply nums_fin. Qed.
Definition ulim (W : Writer) (l : Limits) (n : string) : ULimit :=
  mkULim (wr_limit W (l_lower l) n) (wr_limit W (l_upper l) n) (wr_limit W (l_torque l) n) (wr_limit W (l_velocity l) n).
Lemma urdf_type W l j : exact_text W -> urdf_able_limits l j -> jdof j = tdof (jtyp j) ->
  exists ty wl lo up ve to_, type_name l j = Ok ty /\ write_limits l j = Ok wl /\ limits_at l (jname j) lo up ve to_ /\
    read_limits j ty (if wl : bool then Some (ulim W l (jname j)) else None) = (lo, up, to_, ve).
Proof.
  intros ET H DOF. unfold urdf_able_limits in H. unfold type_name, write_limits, has_limits, is_continuous.
  assert (FIN : forall ty lo up ve to_, limits_at l (jname j) lo up ve to_ -> finite lo -> finite up -> finite ve -> finite to_ -> jtyp j <> Fixed -> String.eqb ty "continuous" = false ->
     read_limits j ty (Some (ulim W l (jname j))) = (lo, up, to_, ve)).
  { intros ty lo up ve to_ (E1 & E2 & E3 & E4) F1 F2 F3 F4 NF NC. unfold read_limits, ulim, wr_limit. rewrite E1, E2, E3, E4, NC. cbn [u_lower u_upper u_effort u_velocity].
    rewrite !(attr_fin W) by auto. destruct (jtyp j); congruence. }
  assert (CK : forall v : list dbl, finite v -> match v with [] => false | _ :: _ => true end = true). { intros [|d v] (F & _); [congruence|reflexivity]. }
  destruct (jtyp j) eqn:T; try contradiction.
  - destruct H as [LA|(lo & up & ve & to_ & LA & F1 & F2 & F3 & F4)]; pose proof LA as (E1 & E2 & E3 & E4); rewrite E1, E2, E3, E4.
    + cbn. exists "continuous"%string, false, [MInf], [PInf], [PInf], [PInf]. do 2 (split; [reflexivity|]). split; [exact LA|]. unfold read_limits. rewrite DOF. reflexivity.
    + rewrite !CK by auto. cbn [andb]. destruct up as [|d up]; [destruct F2; congruence|]. destruct (proj2 F2 d (or_introl eq_refl)) as (x & ->). cbn [get nth_error bind negb].
      exists "revolute"%string, true, lo, (Fin x :: up), ve, to_. do 2 (split; [reflexivity|]). split; [exact LA|]. apply FIN; auto. discriminate.
  - destruct H as (lo & up & ve & to_ & LA & F1 & F2 & F3 & F4). pose proof LA as (E1 & E2 & E3 & E4); rewrite E1, E2, E3, E4. rewrite !CK by auto. cbn [andb].
    exists "prismatic"%string, true, lo, up, ve, to_. do 2 (split; [reflexivity|]). split; [exact LA|]. apply FIN; auto. discriminate.
  - destruct H as (lo & up & ve & to_ & LA & F1 & F2 & F3 & F4). pose proof LA as (E1 & E2 & E3 & E4); rewrite E1, E2, E3, E4. rewrite !CK by auto. cbn [andb].
    exists "floating"%string, true, lo, up, ve, to_. do 2 (split; [reflexivity|]). split; [exact LA|]. apply FIN; auto. discriminate.
  - pose proof H as (E1 & E2 & E3 & E4). rewrite E1. cbn [andb].
    exists "fixed"%string, false, [], [], [], []. do 2 (split; [reflexivity|]). split; [exact H|]. unfold read_limits. rewrite DOF. reflexivity.
Qed.
Lemma urdf_axis_ok l j ty : type_name l j = Ok ty -> joint_unit j -> urdf_able_limits l j -> exists v, axis_of j = Ok v.
Proof.
  intros _ (a & U & BU) UL. pose proof (axis_of_spec a j BU U) as AS. unfold urdf_able_limits in UL. destruct (jtyp j); try contradiction; destruct AS as (v & E & _); eauto.
Qed.
Lemma read_joint_fields p n ty pa ch o ax mi li jr : read_joint p (mkUJ (Some n) (Some ty) (Some (Some pa)) (Some (Some ch)) o ax mi li) = Ok jr ->
  jr_type jr = ty /\ jr_parent jr = pa /\ jr_child jr = ch /\ read_origin o = Ok (jr_X jr).
Proof.
  unfold read_joint. cbn [uj_name uj_type uj_origin uj_axis uj_parent uj_child uj_mimic deref bind]. destruct (read_origin o) as [X0| | |]; cbn [bind]; try discriminate.
  match goal with |- (x <- ?m ;; _) = _ -> _ => destruct m as [jt| | |] end; cbn [bind]; try discriminate. intro E. injection E as <-. auto.
Qed.
Lemma urdf_body_all W b : exact_text W -> urdf_able_body b -> read_body true (bname b) (wr_inertial W (binertia b)) = Ok b.
Proof.
  intros ET [E|(H1 & H2 & H3)]; [|now apply urdf_body]. rewrite E, urdf_zero. f_equal. destruct b. cbn in *. now subst.
Qed.
Lemma for_each_keep {A} (F : A -> list A -> res (list A)) l : (forall a acc, In a l -> F a acc = Ok (acc ++ [a])) -> forall acc, for_each l F acc = Ok (acc ++ l).
Proof. induction l as [|a l IH]; intros H acc; cbn [for_each]; [now rewrite app_nil_r|]. rewrite H by now left. cbn [bind]. rewrite IH by (intros; apply H; now right). now rewrite <- app_assoc. Qed.

Lemma urdf_round W g p r : exact_text W -> euler_ok (w_euler W) -> plain p -> tree_robot g (pp_fixed p) r -> named r ->
  (forall b, In b (mb_bodies (pr_mb r)) -> urdf_able_body b) ->
  (forall i j, 0 < i -> nth_error (mb_joints (pr_mb r)) i = Some j -> urdf_able_joint (pp_suffix p) (pr_limits r) j) ->
  (forall i X, 0 < i -> nth_error (mb_Xt (pr_mb r)) i = Some X -> urdf_able_frame (w_euler W) X) ->
  exists d, to_urdf W r = Ok d /\ forall fuel, nrBodies (pr_mb r) <= fuel ->
  exists r', from_urdf fuel g d p = Ok r' /\ pr_mb r' = pr_mb r /\ pr_mbc r' = pr_mbc r /\ pr_name r' = pr_name r /\
    forall i j, 0 < i -> nth_error (mb_joints (pr_mb r)) i = Some j -> same_limits (pr_limits r) (pr_limits r') (jname j).
Proof.
  intros ET EO (PF & PT & PV & PB) TR NM YB YJ YX.
  pose proof (robot_view g (pp_fixed p) r TR NM) as RV. cbv zeta in RV.
  set (mb := pr_mb r) in *. set (N := List.length (mb_bodies mb)) in *. set (P := par_of mb) in *.
  set (B := fun i => nth i (mb_bodies mb) bd) in *. set (J := fun i => nth i (mb_joints mb) jd) in *. set (X := fun i => nth i (mb_Xt mb) ptid) in *. set (l := pr_limits r) in *.
  assert (JL : List.length (mb_joints mb) = N). { exact (robot_len g (pp_fixed p) r TR). }
  assert (YJ' : forall i, 0 < i < N -> urdf_able_joint (pp_suffix p) l (J i)). { intros i Hi. apply (YJ i); [lia|]. apply nth_error_nth'. lia. }
  destruct RV as (N0 & _ & LX & ZM & LP & NB & NJ & J0 & X0 & EC & (h & tr & j0 & Xa & Xb & U & SZ & HP) & JI & WR). { intros i Hi. apply (YJ' i Hi). }
  fold P in LP, EC, HP, WR. fold mb in ZM, EC, JI, WR. fold N in EC, SZ, WR.
  assert (YX' : forall i, 0 < i < N -> urdf_able_frame (w_euler W) (X i)). { intros i Hi. apply (YX i); [lia|]. apply nth_error_nth'. lia. }
  assert (YB' : forall i, i < N -> urdf_able_body (B i)). { intros i Hi. apply YB. now apply nth_In. }
  assert (NJ' : forall i k, 0 < i < N -> 0 < k < N -> jname (J i) = jname (J k) -> i = k) by (intros; apply NJ; auto; lia).
  assert (ONE : forall i, 0 < i < N -> exists u, wr_joint W r (J i) = Ok (Some u) /\ (forall acc, extract_joint [] [] u acc = Ok (acc ++ [u])) /\
     forall s, do_joint p u (s, lims l J (i - 1)) = (g1 <- grun (addJoint (J i)) s ;; g2 <- grun (linkBodies (bname (B (P i))) (X i) (bname (B i)) ptid (jname (J i)) true) g1 ;; Ok (g2, lims l J i))).
  { intros i Hi. destruct (YJ' i Hi) as (JU & FW & UJ & UL). destruct (WR i Hi) as (EN & nd & e & W1 & W2 & W3).
    pose proof JU as (a & UA & BA). pose proof (built_shape a (J i) BA) as (_ & _ & BD).
    destruct (urdf_type W l (J i) ET UL BD) as (ty & wl & lo & up & ve & to_ & T1 & T2 & LA & T4).
    destruct (urdf_axis_ok l (J i) ty T1 JU UL) as (ax & A1).
    assert (WJ : exists u, wr_joint W r (J i) = Ok (Some u) /\ u = mkUJ (Some (jname (J i))) (Some ty) (Some (Some (bname (B (P i))))) (Some (Some (bname (B i)))) (wr_origin W (X i))
                   (if isZero3 ax then None else Some (wr_vec3d W ax))
                   (if jmimic (J i) then Some (mkUM (Some (jmimicName (J i))) (wr_double W (jmimicMul (J i))) (wr_double W (jmimicOff (J i)))) else None)
                   (if wl : bool then Some (ulim W l (jname (J i))) else None)).
    { unfold wr_joint. fold mb. rewrite JI by lia. cbn [bind]. destruct (Z.eqb_spec (Z.of_nat i) 0); [lia|]. fold l. rewrite T1. cbn [bind]. rewrite EN. cbn [bind fst snd]. fold (B (P i)).
      rewrite W1. cbn [bind]. rewrite A1. cbn [bind]. rewrite T2. cbn [bind]. eexists. split; [reflexivity|]. rewrite W2. cbn [first_some]. rewrite W3. fold (X i).
      assert (FS : match wr_origin W (X i) with Some b => Some b | None => None end = wr_origin W (X i)) by (destruct (wr_origin W (X i)); reflexivity). rewrite FS. reflexivity. }
    destruct WJ as (u & WJ & Eu). exists u. split; [exact WJ|]. split.
    { intro acc. rewrite Eu. reflexivity. }
    intro s. destruct (joint_back W p r (J i) u ET JU UJ WJ) as (jr & RJ & SJ & FJ).
    assert (EJ : jr_joint jr = J i) by (apply same_joint_eq; [exact SJ|congruence]).
    pose proof RJ as RF. rewrite Eu in RF. apply read_joint_fields in RF. destruct RF as (R1 & R2 & R3 & R4).
    destruct (YX' i Hi) as (X1 & X2 & X3 & X4). cbv zeta in X4. rewrite (proj2 (urdf_frame_iff W (X i) ET EO X1 X2 X3) X4) in R4. injection R4 as R4.
    unfold do_joint. rewrite RJ. cbn [bind fst snd]. rewrite EJ, R1, R2, R3, <- R4. rewrite Eu. cbn [uj_limit]. rewrite T4.
    destruct i as [|i]; [lia|]. replace (S i - 1) with i by lia. rewrite (lims_S l J i lo up ve to_ LA). reflexivity. }
  set (UJ := fun i => match wr_joint W r (J i) with Ok (Some u) => u | _ => mkUJ None None None None None None None None end).
  assert (ONE1 : forall i, 0 < i < N -> wr_joint W r (J i) = Ok (Some (UJ i))). { intros i Hi. unfold UJ. destruct (ONE i Hi) as (u & -> & _). reflexivity. }
  assert (ONE3 : forall i, 0 < i < N -> forall acc, extract_joint [] [] (UJ i) acc = Ok (acc ++ [UJ i])). { intros i Hi. unfold UJ. destruct (ONE i Hi) as (u & -> & H & _). exact H. }
  assert (ONE2 : forall i, 0 < i < N -> forall s, do_joint p (UJ i) (s, lims l J (i - 1)) = (g1 <- grun (addJoint (J i)) s ;; g2 <- grun (linkBodies (bname (B (P i))) (X i) (bname (B i)) ptid (jname (J i)) true) g1 ;; Ok (g2, lims l J i))).
  { intros i Hi. unfold UJ. destruct (ONE i Hi) as (u & -> & _ & H). exact H. }
  clear ONE. exists (Some (mkUR (Some (pr_name r)) (map (wr_link W) (mb_bodies mb)) (map UJ (seq 1 (N - 1))))). split.
  { unfold to_urdf. fold mb. rewrite <- (map_nth_seq (mb_joints mb) jd) at 1. rewrite JL. rewrite for_each_map. rewrite seq_cons by auto. cbn [for_each].
    fold (J 0). assert (Z0 : wr_joint W r (J 0) = Ok None). { unfold wr_joint. fold mb. rewrite JI by lia. reflexivity. }
    rewrite Z0. cbn [bind]. rewrite (for_each_snoc (fun i => wr_joint W r (J i)) UJ) by (intros i Hi; apply in_seq in Hi; apply ONE1; lia). reflexivity. }
  intros fuel HF. unfold from_urdf, parse_urdf. cbn [ur_name ur_links ur_joints].
  assert (SEL : forall bs acc, for_each (map (wr_link W) bs) (handle_link p) (mkLS acc [] []) = Ok (mkLS (acc ++ map (fun b => (bname b, wr_inertial W (binertia b))) bs) [] [])).
  { induction bs as [|b bs IH]; intro acc; cbn [map for_each]; [now rewrite app_nil_r|]. unfold handle_link at 1. cbn [wr_link ul_name deref bind ul_inertial ls_links ls_fixed ls_removed].
    rewrite PV, PF. replace (match wr_inertial W (binertia b) with Some _ => false | None => false end) with false by (destruct (wr_inertial W (binertia b)); reflexivity).
    cbn [in_names existsb bind]. rewrite IH. now rewrite <- app_assoc. }
  rewrite SEL. cbn [bind ls_links ls_fixed ls_removed app].
  assert (EB : mb_bodies mb = map B (seq 0 N)) by (symmetry; apply map_nth_seq).
  assert (HD : map (fun b => (bname b, wr_inertial W (binertia b))) (mb_bodies mb) = (bname (B 0), wr_inertial W (binertia (B 0))) :: map (fun b => (bname b, wr_inertial W (binertia b))) (map B (seq 1 (N - 1)))).
  { rewrite EB at 1. rewrite seq_cons by auto. reflexivity. }
  rewrite HD. rewrite <- HD. rewrite PB. cbn [String.eqb].
  assert (LK : for_each (map (fun b => (bname b, wr_inertial W (binertia b))) (mb_bodies mb)) (fun l g => b <- read_body (pp_transform p) (fst l) (snd l) ;; grun (addBody b) g) empty_graph = Ok (bst B N)).
  { rewrite EB, map_map, for_each_map.
    pose proof (for_seq (fun a g => b <- read_body (pp_transform p) (fst (bname (B a), wr_inertial W (binertia (B a)))) (snd (bname (B a), wr_inertial W (binertia (B a)))) ;; grun (addBody b) g) (bst B) N 0) as FS.
    cbn [Nat.add] in FS. rewrite bst_0 in FS. apply FS. intros i Hi. cbn [fst snd]. rewrite PT, urdf_body_all by (auto; apply YB'; lia). cbn [bind]. apply (bst_S N B NB i). lia. }
  rewrite LK. cbn [bind].
  rewrite (for_each_keep (extract_joint [] []) (map UJ (seq 1 (N - 1)))).
  2: { intros u acc Hu. apply in_map_iff in Hu. destruct Hu as (i & <- & Hi). apply in_seq in Hi. apply ONE3. lia. }
  cbn [bind app].
  assert (JS : for_each (map UJ (seq 1 (N - 1))) (do_joint p) (bst B N, lim0) = Ok (dst N B J P X (N - 1), lims l J (N - 1))).
  { rewrite for_each_map. pose (st := fun i => (dst N B J P X (i - 1), lims l J (i - 1))).
    pose proof (for_seq (fun a => do_joint p (UJ a)) st (N - 1) 1) as FS.
    assert (S1 : st 1 = (bst B N, lim0)). { unfold st. cbn [Nat.sub]. rewrite bst_all. reflexivity. }
    rewrite S1 in FS. rewrite FS; [unfold st; replace (1 + (N - 1)) with N by lia; reflexivity|]. intros i Hi. unfold st at 1. rewrite ONE2 by lia.
    destruct i as [|i]; [lia|]. replace (S i - 1) with i by lia.
    pose proof (dst_S N B J P X NB NJ' LP ltac:(intros k Hk; apply (YJ' k Hk)) i ltac:(lia)) as DS.
    destruct (grun (addJoint (J (S i))) (dst N B J P X i)) as [g1| | |]; cbn [bind] in DS |- *; try discriminate. rewrite DS. cbn [bind]. unfold st. replace (S (S i) - 1) with (S i) by lia. reflexivity. }
  rewrite JS. cbn [bind fst snd].
  assert (MK : makeMultiBody_fixed fuel (bname (B 0)) (pp_fixed p) ptid ptid (dst N B J P X (N - 1)) = Ok mb).
  { rewrite (rebuild N B J P X NB LP h tr j0 Xa Xb fuel (pp_fixed p) N0 U SZ HF HP). rewrite <- EC. f_equal.
    - apply map_nth_seq.
    - fold (rootj (pp_fixed p)). rewrite <- (map_nth_seq (mb_joints mb) jd). rewrite JL. apply map_tail; [symmetry; exact J0|]. intros i Hi. destruct i; [lia|reflexivity].
    - rewrite <- (map_nth_seq (mb_Xt mb) ptid). rewrite LX. apply map_tail; [symmetry; exact X0|]. intros i Hi. destruct i; [lia|reflexivity]. }
  rewrite (make_result_zero _ _ _ _ _ _ _ _ MK). rewrite ZM. cbn [bind]. eexists. split; [reflexivity|]. cbn [pr_mb pr_mbc pr_name pr_limits]. do 3 (split; [reflexivity|]).
  intros i j Hi Hj. assert (Li : i < N) by (rewrite <- JL; apply nth_error_Some; congruence). assert (EJ : J i = j) by (apply nth_error_nth; exact Hj). rewrite <- EJ.
  destruct (YJ' i ltac:(lia)) as ((a & UA & BA) & FW & UJ' & UL). pose proof (built_shape a (J i) BA) as (_ & _ & BD).
  destruct (urdf_type W l (J i) ET UL BD) as (_ & _ & lo & up & ve & to_ & _ & _ & LA & _).
  exists lo, up, ve, to_. split; [exact LA|]. apply (lims_at l J N i); auto.
Qed.
