(** Proofs about documents read with another base link. *)
From Coq Require Import Reals String ZArith Bool Arith List Lia Permutation Relations.
From Verif Require Import Res ResP SMap Vec VecP Sva SvaP JointM JointP MultiBodyM KinM GraphM ParserM YamlM Spec SpecCoM SpecGraph SpecGraphOp SpecParser SpecGeom SpecDoc SpecIne SpecElem SpecReroot DynP GraphP GraphWalkP GraphTreeP GraphUseP GraphTopP GraphHistP GraphLegalP GraphPoseP MbP KinP KinFinP DynFinP ConfFinP ParserRotP DocGraphP DocP DocReadP DocYamlP DocWholeP ElemP.
Import ListNotations.
Open Scope nat_scope.

Section MbGraph.
Variables (s : GSt) (r : nat) (j0 : Joint) (X0 Xb : PT) (ord : list nat) (base : list PT) (mb : MultiBody).
Hypotheses (G : graph_ok s) (M : mb_of_graph s r j0 X0 Xb ord base mb) (VV : forall b, In b ord -> In b (gNodes (snd s))).
Lemma mg_names : map bname (mb_bodies mb) = map (fun a => bname (body_at (fst s) a)) ord.
Proof.
  apply (list_ext_nth _ _ EmptyString); rewrite !map_length; [apply (mg_bodies_len _ _ _ _ _ _ _ _ M)|].
  intros i Hi. rewrite (mg_bodies_len _ _ _ _ _ _ _ _ M) in Hi.
  rewrite (nth_map_lt bname _ _ bd), (nth_map_lt _ ord _ 0) by (rewrite ?(mg_bodies_len _ _ _ _ _ _ _ _ M); auto). now rewrite (mg_bodies _ _ _ _ _ _ _ _ M).
Qed.
Lemma ord_inj i k : i < List.length ord -> k < List.length ord -> nth i ord 0 = nth k ord 0 -> i = k.
Proof. intros. apply (proj1 (NoDup_nth ord 0) (mg_once _ _ _ _ _ _ _ _ M)); auto. Qed.
Lemma mg_joint_inj i k : 0 < i < List.length ord -> 0 < k < List.length ord -> jname (nth i (mb_joints mb) jd) = jname (nth k (mb_joints mb) jd) -> i = k.
Proof.
  intros Hi Hk E. destruct (mg_next _ _ _ _ _ _ _ _ M i Hi) as (p & e & _ & Lp & _ & I1 & I2 & _ & _ & I3 & _). destruct (mg_next _ _ _ _ _ _ _ _ M k Hk) as (q & f & _ & Lq & _ & K1 & K2 & _ & _ & K3 & _).
  rewrite I3, K3 in E. change (ajn e = ajn f) in E.
  assert (Vp : In (nth p ord 0) (gNodes (snd s))) by (apply VV, nth_In; lia). assert (Vq : In (nth q ord 0) (gNodes (snd s))) by (apply VV, nth_In; lia).
  destruct (Nat.eq_dec (nth p ord 0) (nth q ord 0)) as [EQ|NE].
  - rewrite <- EQ in K1. pose proof (gk_once _ G _ Vp) as ND. apply (In_nth _ _ e) in I1, K1. destruct I1 as (x & Lx & Ex), K1 as (y & Ly & Ey).
    assert (x = y). { apply (proj1 (NoDup_nth _ (ajn e)) ND); rewrite ?map_length; auto. rewrite !map_nth. congruence. }
    apply ord_inj; try lia. congruence.
  - destruct (gk_link _ G _ _ _ _ Vp Vq NE I1 K1 E) as (N1 & N2). rewrite N1 in I2. rewrite N2 in K2. apply ord_inj in I2, K2; lia.
Qed.
Lemma mg_joints_nodup : NoDup (tl (map jname (mb_joints mb))).
Proof.
  pose proof (mg_joints_len _ _ _ _ _ _ _ _ M) as L. pose proof mg_joint_inj as J. destruct (mb_joints mb) as [|j js]; [constructor|]. cbn [map tl] in *. cbn in L.
  apply (NoDup_nth _ (jname jd)). rewrite map_length. intros i k Hi Hk E. rewrite !map_nth in E. assert (S i = S k); [|lia]. apply J; cbn [nth]; auto; lia.
Qed.
End MbGraph.

Definition rigid_links (links : list DLink) : Prop := forall k, In k links -> SO3 (rotE (dl_X k)).
Definition unit_links (links : list DLink) : Prop := forall k, In k links -> joint_unit (dl_joint k).
Lemma short_links bodies links : tree_doc bodies links -> List.length links < List.length bodies.
Proof.
  intros (NE & NB & NJ & NC & CH & EN & rank & RK). destruct bodies as [|b0 bs]; [congruence|]. cbn [List.length tl] in *.
  assert (F : ~ In (bname b0) (map dl_child links)).
  { intro H. assert (D : forall r n, rank n < r -> In n (map bname (b0 :: bs)) -> False).
    { induction r as [|r IH]; intros n L Hn; [lia|]. assert (Hc : In n (map dl_child links)). { destruct Hn as [<-|Hn]; [exact H|]. apply in_map_iff in Hn. destruct Hn as (b & <- & Hb). now apply CH. }
      apply in_map_iff in Hc. destruct Hc as (k & <- & Hk). apply (IH (dl_parent k)); [pose proof (RK k Hk); lia|apply EN, Hk]. }
    apply (D (S (rank (bname b0))) (bname b0)); [lia|now left]. }
  rewrite <- (map_length dl_child links), <- (map_length bname bs). apply Nat.lt_succ_r. apply NoDup_incl_length; [exact NC|].
  intros n Hn. pose proof Hn as Hn'. apply in_map_iff in Hn. destruct Hn as (k & <- & Hk). destruct (EN k Hk) as (_ & [E|H]); [|exact H]. exfalso. apply F. now rewrite E.
Qed.
Lemma make_result_ok fuel g base fixed s l n a : graph_ok s -> cycle_free (fst s) (snd s) -> link_joints joint_ok s -> mfind (gBody (snd s)) base = Some a -> List.length (gNodes (snd s)) <= fuel ->
  exists r, make_result fuel g base fixed s l n = Ok r /\ pr_mbg r = s /\ pr_limits r = l /\ pr_name r = n /\ makeMultiBody fuel base (if fixed then Fixed else Free) unitZ ptid ptid s = Ok (pr_mb r) /\ wf_mb (pr_mb r).
Proof.
  intros G CF LJ RT HF. destruct (graph_all s base a (if fixed then Fixed else Free) unitZ ptid ptid fuel G CF RT HF) as (mb & ord & bs & _ & _ & _ & EM & MG & VV & EC & _).
  destruct (graph_mb_wf s a _ ptid ptid ord bs mb G MG EC VV) as (W & _); [eexists; constructor|exact LJ|].
  destruct (fresh_ok g mb) as (K0 & _); [unfold nrJoints; rewrite (wf_joints _ W); reflexivity|].
  destruct (zero_ok mb _ W K0) as (m1 & E1 & K1 & _). destruct (FK_total mb m1 W K1) as (m2 & E2 & F2). destruct (FV_total mb m2 W (FK_mbc_ok _ _ _ W K1 F2)) as (m3 & E3 & _).
  exists (mkPR mb m3 s l n). split; [|auto 10]. unfold make_result. change (makeMultiBody_fixed fuel base fixed ptid ptid s) with (makeMultiBody fuel base (if fixed then Fixed else Free) unitZ ptid ptid s).
  rewrite EM. cbn [bind]. rewrite E1. cbn [bind]. rewrite E2. cbn [bind]. rewrite E3. reflexivity.
Qed.
Lemma reroot g fuel fixed bodies links lims name b : tree_doc bodies links -> (forall k, In k links -> jfwd (dl_joint k) = true /\ joint_ok (dl_joint k)) -> List.length bodies <= fuel ->
  In b (map bname bodies) ->
  exists s r0 r, for_each links put (bst (fun i => nth i bodies bd) (List.length bodies)) = Ok s /\
    make_result fuel g (bname (nth 0 bodies bd)) fixed s lims name = Ok r0 /\ pr_mbg r0 = s /\ pr_limits r0 = lims /\ pr_name r0 = name /\
    robot_of bodies links (mkJ (if fixed then Fixed else Free) unitZ true "Root") (pr_mb r0) /\
    make_result fuel g b fixed s lims name = Ok r /\ (rigid_links links -> unit_links links -> rerooted fuel b r0 r).
Proof.
  intros TD FW HF Hb. destruct (read_tree g fuel fixed bodies links lims name TD FW HF) as (s & r0 & E & MR0 & GS & GL & GN & TR & RO).
  pose proof (short_links bodies links TD) as SL. pose proof TD as (NE & NB & NJ & NC & CH & EN & rank & RK).
  destruct (inv_all bodies NB rank links [] _ _ (inv_0 bodies NB rank)) as (s' & top & E' & I).
  { intros k Hk. destruct (FW k Hk). destruct (EN k Hk). do 3 (split; auto). }
  { exact NJ. }
  { exact NC. }
  rewrite E in E'. injection E' as <-. cbn [app] in I. set (N := List.length bodies) in *. set (B := fun i => nth i bodies bd) in *.
  assert (N0 : 0 < N) by lia.
  pose proof (iv_gok _ _ _ _ _ I) as (G & CF). pose proof (iv_find _ _ _ _ _ I 0 N0) as RT. fold (B 0) in RT. pose proof (iv_nodes _ _ _ _ _ I) as GNO. fold N in GNO.
  assert (HF' : List.length (gNodes (snd s)) <= fuel) by (rewrite GNO, seq_length; auto).
  destruct (B_name bodies b Hb) as (ib & Lb & Eb). fold N in Lb. assert (RB : mfind (gBody (snd s)) b = Some ib) by (rewrite <- Eb; exact (iv_find _ _ _ _ _ I ib Lb)).
  assert (LJ : link_joints joint_ok s).
  { intros a e Ha He. rewrite GNO in Ha. apply in_seq in Ha. destruct (iv_arc _ _ _ _ _ I a e ltac:(lia) He) as (_ & k & Hk & [(_ & _ & _ & ->)|(_ & _ & _ & ->)]); [apply FW; auto|]. apply fwd_ok. apply FW; auto. }
  destruct (make_result_ok fuel g b fixed s lims name ib G CF LJ RB HF') as (r & MR & GS1 & GL1 & GN1 & EM1 & W1).
  destruct (make_result_ok fuel g (bname (B 0)) fixed s lims name 0 G CF LJ RT HF') as (r0' & MR0' & _ & _ & _ & EM0 & W0). unfold B in MR0'. rewrite MR0 in MR0'. injection MR0' as <-. 
  exists s, r0, r. do 7 (split; [assumption|]). intros RL UL.
  set (t := if fixed then Fixed else Free) in *.
  destruct (graph_all s (bname (B 0)) 0 t unitZ ptid ptid fuel G CF RT HF') as (mb0 & ord0 & base0 & tm0 & pm0 & sm0 & EM0' & MG0 & VV0 & _ & TM0 & _ & _ & Z0 & Y0).
  rewrite EM0 in EM0'. injection EM0' as <-.
  destruct (graph_all s b ib t unitZ ptid ptid fuel G CF RB HF') as (mb1 & ord1 & base1 & tm1 & pm1 & sm1 & EM1' & MG1 & VV1 & _ & TM1 & _ & _ & Z1 & Y1).
  rewrite EM1 in EM1'. injection EM1' as <-.
  pose proof (mg_names _ _ _ _ _ _ _ _ MG0) as MN0. pose proof (mg_names _ _ _ _ _ _ _ _ MG1) as MN1.
  pose proof RO as (_ & PB & _ & _ & _ & _ & NX).
  assert (LO0 : List.length ord0 = N) by (rewrite <- (mg_bodies_len _ _ _ _ _ _ _ _ MG0); apply Permutation_length, PB).
  assert (C0 : conn (fst s) 0 ib).
  { apply (mg_all _ _ _ _ _ _ _ _ MG0). assert (H : In b (map bname (mb_bodies (pr_mb r0)))) by (eapply Permutation_in; [apply Permutation_map, Permutation_sym, PB|exact Hb]).
    rewrite MN0 in H. apply in_map_iff in H. destruct H as (a & Ea & Ha). assert (mfind (gBody (snd s)) b = Some a) by (apply (ng_body _ (gk_names _ G)); split; auto). congruence. }
  assert (V0 : In 0 (gNodes (snd s))) by (rewrite GNO; apply in_seq; lia).
  assert (PO : Permutation ord1 ord0).
  { apply NoDup_Permutation; [apply (mg_once _ _ _ _ _ _ _ _ MG1)|apply (mg_once _ _ _ _ _ _ _ _ MG0)|]. intro x. rewrite (mg_all _ _ _ _ _ _ _ _ MG1), (mg_all _ _ _ _ _ _ _ _ MG0). split; intro C.
    - eapply rt_trans; eauto.
    - destruct (conn_sym' s 0 ib G V0 C0) as (CS & _). eapply rt_trans; eauto. }
  assert (LO1 : List.length ord1 = N) by (rewrite (Permutation_length PO); exact LO0).
  assert (JN : forall x ord base mb, mb_of_graph s x (mkJ t unitZ true (gRoot (snd s))) ptid ptid ord base mb -> (forall b, In b ord -> In b (gNodes (snd s))) -> List.length ord = N ->
     Permutation (tl (map jname (mb_joints mb))) (map (fun k => jname (dl_joint k)) links)).
  { intros x ord base mb MG VV LO. apply NoDup_Permutation_bis.
    - exact (mg_joints_nodup s x _ _ _ ord base mb G MG VV).
    - pose proof (mg_joints_len _ _ _ _ _ _ _ _ MG) as L. rewrite map_length. destruct (mb_joints mb); cbn in *; [lia|]. rewrite map_length. lia.
    - intros n Hn. pose proof (mg_joints_len _ _ _ _ _ _ _ _ MG) as L. pose proof (mg_next _ _ _ _ _ _ _ _ MG) as NXT. destruct (mb_joints mb) as [|j js]; [destruct Hn|]. cbn [map tl] in Hn. apply in_map_iff in Hn. destruct Hn as (j' & <- & Hj). apply (In_nth _ _ jd) in Hj. destruct Hj as (i & Li & Ei). cbn in L.
      destruct (NXT (S i) ltac:(lia)) as (p & e & _ & Lp & _ & I1 & _ & _ & _ & I3 & _). cbn [nth] in I3. rewrite Ei in I3. rewrite I3.
      assert (Vp : In (nth p ord 0) (gNodes (snd s))) by (apply VV, nth_In; lia). rewrite GNO in Vp. apply in_seq in Vp.
      apply in_map_iff. destruct (iv_arc _ _ _ _ _ I (nth p ord 0) e ltac:(fold N; lia) I1) as (_ & k & Hk & [(_ & _ & _ & ->)|(_ & _ & _ & ->)]); exists k; split; auto. }
  assert (GR : graph_rigid s).
  { intros a e Ha He. rewrite GNO in Ha. apply in_seq in Ha. destruct (iv_arc _ _ _ _ _ I a e ltac:(lia) He) as (_ & k & Hk & [(_ & _ & -> & _)|(_ & _ & -> & _)]); [now apply RL|exact SO3_id]. }
  assert (LU : link_joints joint_unit s).
  { intros a e Ha He. rewrite GNO in Ha. apply in_seq in Ha. destruct (iv_arc _ _ _ _ _ I a e ltac:(lia) He) as (_ & k & Hk & [(_ & _ & _ & ->)|(_ & _ & _ & ->)]); [now apply UL|]. destruct (UL k Hk) as (x & U & BU). exists x. split; [exact U|]. now constructor. }
  (* from the first link, frames are those of the document *)
  assert (ID : forall n X, mfind tm0 n = Some X -> X = ptid).
  { intros n X HX. destruct (in_dec String.string_dec n (map bname (mb_bodies (pr_mb r0)))) as [Hn|Hn]; [|destruct (Y0 n Hn) as (Y & _); congruence].
    apply in_map_iff in Hn. destruct Hn as (bb & <- & Hbb). apply (In_nth _ _ bd) in Hbb. destruct Hbb as (i & Li & <-). rewrite (mg_bodies_len _ _ _ _ _ _ _ _ MG0) in Li.
    destruct (Z0 i Li) as (ZX & _). rewrite ZX in HX. injection HX as <-. replace (nth i base0 ptid) with ptid; [apply ptinv_id|].
    destruct (Nat.eq_dec i 0) as [->|Ni]; [symmetry; apply (mg_first _ _ _ _ _ _ _ _ MG0)|].
    destruct (mg_next _ _ _ _ _ _ _ _ MG0 i ltac:(lia)) as (p & e & e' & Lp & _ & I1 & I2 & I3 & I4 & I5 & _ & I7). rewrite I7.
    destruct (NX i ltac:(fold N; lia)) as (k & _ & Hk & _ & JK & _). rewrite I5 in JK.
    assert (Vp : nth p ord0 0 < N). { assert (H : In (nth p ord0 0) (gNodes (snd s))) by (apply VV0, nth_In; lia). rewrite GNO in H. apply in_seq in H. lia. }
    assert (Vi : nth i ord0 0 < N). { assert (H : In (nth i ord0 0) (gNodes (snd s))) by (apply VV0, nth_In; lia). rewrite GNO in H. apply in_seq in H. lia. }
    destruct (iv_arc _ _ _ _ _ I _ e Vp I1) as (_ & k1 & Hk1 & [(A1 & A2 & _ & _)|(_ & _ & _ & AJ)]); [|exfalso; rewrite AJ in JK; pose proof (proj1 (FW k Hk)) as F; rewrite <- JK in F; discriminate].
    destruct (iv_arc _ _ _ _ _ I _ e' Vi I3) as (_ & k2 & Hk2 & [(B1 & B2 & _ & _)|(_ & _ & -> & _)]); [|reflexivity].
    exfalso. rewrite I2 in A2. rewrite I4 in B2. pose proof (RK k1 Hk1) as R1. pose proof (RK k2 Hk2) as R2. rewrite <- A1, <- A2 in R1. rewrite <- B1, <- B2 in R2. lia. }
  constructor.
  - congruence.
  - congruence.
  - congruence.
  - exact W1.
  - rewrite MN0, MN1. now apply Permutation_map.
  - pose proof (mg_root _ _ _ _ _ _ _ _ MG1) as H. destruct ord1 as [|a ord1]; [discriminate|]. injection H as ->. destruct (mb_bodies (pr_mb r)) as [|b1 bs1]; [discriminate|]. cbn [map] in MN1. injection MN1 as HB _. cbn [hd_error option_map]. f_equal. rewrite HB.
    apply (ng_body _ (gk_names _ G)) in RB. apply RB.
  - rewrite (JN _ _ _ _ MG1 VV1 LO1), (JN _ _ _ _ MG0 VV0 LO0). reflexivity.
  - pose proof (mg_joints_len _ _ _ _ _ _ _ _ MG1) as L1. pose proof (mg_joints_len _ _ _ _ _ _ _ _ MG0) as L0. destruct (mg_first _ _ _ _ _ _ _ _ MG1) as (F1 & _). destruct (mg_first _ _ _ _ _ _ _ _ MG0) as (F0 & _).
    destruct (mb_joints (pr_mb r)); [cbn in L1; lia|]. destruct (mb_joints (pr_mb r0)); [cbn in L0; lia|]. cbn in F1, F0 |- *. congruence.
  - exists tm1. rewrite GS1. split; [exact TM1|]. intros m0 m m0' m' qn a c A0 C0' A C O0 O1 C1 C2 J0 J1 F0 F1 Ha Hc PA0 PC0 PA PC. symmetry.
    assert (BP : forall n X, In n (map bname (mb_bodies (pr_mb r0))) -> world_pose (pr_mb r0) m0' n X -> body_pose (pr_mb r0) m0' tm0 n X).
    { intros n X Hn (i & S1 & S2). assert (exists Y, mfind tm0 n = Some Y) as (Y & HY). { apply in_map_iff in Hn. destruct Hn as (bb & <- & Hbb). apply (In_nth _ _ bd) in Hbb. destruct Hbb as (x & Lx & <-). rewrite (mg_bodies_len _ _ _ _ _ _ _ _ MG0) in Lx. destruct (Z0 x Lx) as (ZX & _). eauto. }
      exists i, X, Y. split; [exact S1|]. split; [exact S2|]. split; [exact HY|]. rewrite (ID n Y HY). now rewrite ptmul_id_l. }
    apply (relative_poses s (bname (B 0)) b t t unitZ unitZ ptid ptid ptid ptid fuel (pr_mb r0) (pr_mb r) tm0 tm1 m0 m m0' m' qn a c); auto using uZ; try exact SO3_id.
Qed.

Lemma unknown_root g fuel fixed bodies links lims name b : tree_doc bodies links -> (forall k, In k links -> jfwd (dl_joint k) = true /\ joint_ok (dl_joint k)) -> List.length bodies <= fuel ->
  ~ In b (map bname bodies) ->
  exists s r0, for_each links put (bst (fun i => nth i bodies bd) (List.length bodies)) = Ok s /\
    make_result fuel g (bname (nth 0 bodies bd)) fixed s lims name = Ok r0 /\ pr_mbg r0 = s /\ pr_limits r0 = lims /\ pr_name r0 = name /\
    make_result fuel g b fixed s lims name = Throw OutOfRange.
Proof.
  intros TD FW HF Hb. destruct (read_tree g fuel fixed bodies links lims name TD FW HF) as (s & r0 & E & MR0 & GS & GL & GN & _).
  pose proof TD as (NE & NB & NJ & NC & CH & EN & rank & RK).
  destruct (inv_all bodies NB rank links [] _ _ (inv_0 bodies NB rank)) as (s' & top & E' & I).
  { intros k Hk. destruct (FW k Hk). destruct (EN k Hk). do 3 (split; auto). }
  { exact NJ. }
  { exact NC. }
  rewrite E in E'. injection E' as <-. cbn [app] in I. exists s, r0. do 5 (split; [assumption|]).
  assert (NF : mfind (gBody (snd s)) b = None).
  { destruct (mfind (gBody (snd s)) b) as [a|] eqn:F; [|reflexivity]. exfalso. apply Hb. pose proof (iv_gok _ _ _ _ _ I) as (G & _). apply (ng_body _ (gk_names _ G)) in F. destruct F as (F1 & <-).
    rewrite (iv_nodes _ _ _ _ _ I) in F1. apply in_seq in F1. rewrite (iv_body _ _ _ _ _ I a) by lia. apply in_map, nth_In. lia. }
  unfold make_result, makeMultiBody_fixed, makeMultiBody_type, makeMultiBody, mat_. destruct s as (h, gr). cbn [snd] in NF |- *. rewrite NF. reflexivity.
Qed.

(** ** Documents. *)
Lemma make_result_fields fuel g base fixed s l n r : make_result fuel g base fixed s l n = Ok r -> pr_mbg r = s /\ pr_limits r = l /\ pr_name r = n.
Proof.
  unfold make_result. destruct (makeMultiBody_fixed fuel base fixed ptid ptid s); cbn [bind]; try discriminate. destruct (MBC_zero _ _); cbn [bind]; try discriminate.
  destruct (forwardKinematics _ _); cbn [bind]; try discriminate. destruct (forwardVelocity _ _); cbn [bind]; try discriminate. intro H. injection H as <-. auto.
Qed.
Lemma parse_urdf_base rb p b x n s l : b <> EmptyString -> parse_urdf (Some rb) (from_base p EmptyString) = Ok (x, n, s, l) -> parse_urdf (Some rb) (from_base p b) = Ok (b, n, s, l).
Proof.
  intros NB. unfold parse_urdf. change (handle_link (from_base p b)) with (handle_link (from_base p EmptyString)). change (do_joint (from_base p b)) with (do_joint (from_base p EmptyString)).
  change (pp_base (from_base p b)) with b. change (pp_base (from_base p EmptyString)) with EmptyString. change (pp_transform (from_base p b)) with (pp_transform (from_base p EmptyString)).
  destruct (ur_name rb); [|discriminate]. destruct (for_each (ur_links rb) _ _) as [sel| | |]; cbn [bind]; try discriminate. destruct (ls_links sel) as [|(first, i) rest]; [discriminate|].
  replace (String.eqb b "") with false by (symmetry; now apply String.eqb_neq). cbv zeta.
  destruct (for_each ((first, i) :: rest) _ _); cbn [bind]; try discriminate. destruct (for_each (ur_joints rb) _ _); cbn [bind]; try discriminate. destruct (for_each _ (do_joint _) _); cbn [bind]; try discriminate.
  intro H. injection H as _ <- <- <-. reflexivity.
Qed.
Lemma parse_yaml_base rb p b x n s l : b <> EmptyString -> parse_yaml (Some rb) (from_base p EmptyString) = Ok (x, n, s, l) -> parse_yaml (Some rb) (from_base p b) = Ok (b, n, s, l).
Proof.
  intros NB. unfold parse_yaml. destruct (yr_name rb); [|discriminate]. destruct (yr_links rb) as [ls|]; [|discriminate]. destruct (yr_deg rb) as [deg|]; [|discriminate].
  change (parseLink (from_base p b) deg) with (parseLink (from_base p EmptyString) deg). destruct (for_each ls _ _) as [y| | |]; cbn [bind]; try discriminate.
  destruct (yr_joints rb) as [js|]; [|discriminate]. change (parseJoint (from_base p b) deg (ys_fixed y) (ys_removed y)) with (parseJoint (from_base p EmptyString) deg (ys_fixed y) (ys_removed y)).
  destruct (for_each js _ _) as [((i, g), l0)| | |]; cbn [bind]; try discriminate. change (pp_base (from_base p b)) with b. replace (String.eqb b "") with false by (symmetry; now apply String.eqb_neq).
  intro H. injection H as _ <- <- <-. reflexivity.
Qed.
Lemma urdf_base fuel g rb p b r0 : b <> EmptyString -> from_urdf fuel g (Some rb) (from_base p EmptyString) = Ok r0 ->
  from_urdf fuel g (Some rb) (from_base p b) = make_result fuel g b (pp_fixed p) (pr_mbg r0) (pr_limits r0) (pr_name r0).
Proof.
  intros NB. unfold from_urdf. destruct (parse_urdf (Some rb) (from_base p EmptyString)) as [(((x, n), s), l)| | |] eqn:E; cbn [bind]; try discriminate. intro H. apply make_result_fields in H. destruct H as (-> & -> & ->).
  rewrite (parse_urdf_base rb p b _ _ _ _ NB E). reflexivity.
Qed.
Lemma yaml_base fuel g rb p b r0 : b <> EmptyString -> from_yaml fuel g (Some rb) (from_base p EmptyString) = Ok r0 ->
  from_yaml fuel g (Some rb) (from_base p b) = make_result fuel g b (pp_fixed p) (pr_mbg r0) (pr_limits r0) (pr_name r0).
Proof.
  intros NB. unfold from_yaml. destruct (parse_yaml (Some rb) (from_base p EmptyString)) as [(((x, n), s), l)| | |] eqn:E; cbn [bind]; try discriminate. intro H. apply make_result_fields in H. destruct H as (-> & -> & ->).
  rewrite (parse_yaml_base rb p b _ _ _ _ NB E). reflexivity.
Qed.
Definition reroots fuel g fixed b (r0 : PResult) (links : list DLink) : Prop :=
  rigid_links links -> unit_links links -> exists r, make_result fuel g b fixed (pr_mbg r0) (pr_limits r0) (pr_name r0) = Ok r /\ rerooted fuel b r0 r.
Lemma graph_reads_reroot fuel g fixed name ns js b : tree_names ns js -> List.length ns <= fuel -> In b ns ->
  graph_reads fuel g fixed name ns js (fun r _ links => reroots fuel g fixed b r links).
Proof.
  intros TN HF Hb bodies links lims EB EL GL. assert (LB : List.length bodies = List.length ns) by (rewrite <- EB; now rewrite map_length). rewrite <- EB in Hb.
  destruct (reroot g fuel fixed bodies links lims name b (tree_doc_of bodies links _ _ TN EB EL) GL ltac:(lia) Hb) as (s & r0 & r & H1 & H2 & H3 & H4 & H5 & _ & H6 & H7).
  exists s, r0. do 2 (split; [assumption|]). do 2 (split; [assumption|]). intros RL UL. exists r. rewrite H3, H4, H5. auto.
Qed.
Lemma matched_in {A B} (Q : nat -> A -> B -> Prop) : forall l l' i b, matched Q i l l' -> In b l' -> exists k a, In a l /\ Q k a b.
Proof.
  induction l as [|a l IH]; intros [|b' l'] i b M Hb; cbn [matched] in M; try contradiction. destruct M as (M1 & M2). destruct Hb as [<-|Hb]; [exists i, a; split; [now left|exact M1]|].
  destruct (IH l' (S i) b M2 Hb) as (k & x & Hx & HQ). exists k, x. split; [now right|exact HQ].
Qed.
Lemma SO3_euler_zyx r p y : SO3 (euler_zyx r p y).
Proof. unfold euler_zyx. auto using SO3_mul, SO3_angleAxis, uX, uY, uZ. Qed.
Theorem urdf_reroot fuel g p rb name b : keeps_all (from_base p EmptyString) -> ur_name rb = Some name ->
  (forall l, In l (ur_links rb) -> ulink_ok l) -> (forall u, In u (ur_joints rb) -> ujoint_ok u /\ ~ urdf_axis (uj_axis u) v0) ->
  tree_names (map ulink_name (ur_links rb)) (map ujoint_names (ur_joints rb)) -> List.length (ur_links rb) <= fuel ->
  In b (map ulink_name (ur_links rb)) -> b <> EmptyString ->
  exists r0 r, from_urdf fuel g (Some rb) (from_base p EmptyString) = Ok r0 /\ from_urdf fuel g (Some rb) (from_base p b) = Ok r /\ rerooted fuel b r0 r.
Proof.
  intros KA NM LO JO TN HF Hb NB. pose proof TN as (NE & ND & NJ & _).
  destruct (urdf_reads_as fuel g (from_base p EmptyString) rb name (fun r _ links => reroots fuel g (pp_fixed p) b r links)) as (r0 & bs & ks & R1 & R2 & R3 & R4 & R5); auto.
  { intros u Hu. apply JO, Hu. }
  { intro E. rewrite E in NE. now apply NE. }
  { apply graph_reads_reroot; auto. now rewrite map_length. }
  assert (S4 : forall k, In k ks -> exists u, In u (ur_joints rb) /\ urdf_joint_says p (pr_limits r0) u k).
  { intros k Hk. destruct (matched_in _ _ _ _ k R4 Hk) as (i & u & Hu & HQ). exists u. split; [exact Hu|]. now apply (urdf_link_says_so p). }
  destruct R5 as (r & MR & RR).
  { intros k Hk. destruct (S4 k Hk) as (u & Hu & HS). inversion HS as [n ty pa ch t a j X lo up ve ef _ _ _ _ _ _ _ HO _ _]; subst. cbn [dl_X]. inversion HO; subst; [exact SO3_id|]. cbn [rotE]. apply SO3_tr, SO3_euler_zyx. }
  { intros k Hk. destruct (S4 k Hk) as (u & Hu & HS). destruct (JO u Hu) as (_ & NA). inversion HS as [n ty pa ch t a j X lo up ve ef _ _ _ _ _ HA HM _ _ _]; subst. cbn [dl_joint].
    assert (UA : vdot a a = 1%R). { inversion HA as [E1|a0 V E1|a0 v c V1 V2 V3 E1]; subst; [apply uZ| |exact V1]. exfalso. apply NA. rewrite <- E1. now constructor. }
    exists a. split; [exact UA|]. inversion HM; subst; constructor; constructor. }
  exists r0, r. split; [exact R1|]. split; [|exact RR]. rewrite (urdf_base fuel g rb p b r0 NB R1). exact MR.
Qed.
Theorem yaml_reroot fuel g p rb name deg ls js b : keeps_all (from_base p EmptyString) ->
  yr_name rb = Some name -> yr_deg rb = Some deg -> yr_links rb = Some ls -> yr_joints rb = Some js ->
  (forall l, In l ls -> SpecDoc.ylink_ok l) -> (forall i j, nth_error js i = Some j -> yjoint_ok p (fst (yjoint_names (S i) j)) j /\ forall v, SpecElem.yaml_axis (yj_axis j) v -> vdot v v = 1%R) ->
  tree_names (numbered ylink_name 1 ls) (numbered yjoint_names 1 js) -> hd EmptyString (numbered ylink_name 1 ls) <> EmptyString -> List.length ls <= fuel ->
  In b (numbered ylink_name 1 ls) -> b <> EmptyString ->
  exists r0 r, from_yaml fuel g (Some rb) (from_base p EmptyString) = Ok r0 /\ from_yaml fuel g (Some rb) (from_base p b) = Ok r /\ rerooted fuel b r0 r.
Proof.
  intros KA NM DG LS JS LO JO TN HD HF Hb NB. pose proof TN as (NE & ND & NJ & _).
  destruct (yaml_reads_as fuel g (from_base p EmptyString) rb name deg ls js (fun r _ links => reroots fuel g (pp_fixed p) b r links)) as (r0 & bs & ks & R1 & R2 & R3 & R4 & R5); auto.
  { intros i j Hj. apply JO, Hj. }
  { intro E. rewrite E in NE. now apply NE. }
  { apply graph_reads_reroot; auto. now rewrite numbered_len. }
  assert (S4 : forall k, In k ks -> exists i u, nth_error js i = Some u /\ yaml_joint_says p deg (pr_limits r0) (yjoint_names (S i) u) u k).
  { assert (R4' : matched (fun i j k => exists x, nth_error js x = Some j /\ yaml_joint_says p deg (pr_limits r0) (yjoint_names (S x) j) j k) 1 js ks).
    { eapply matched_at; [|exact R4]. intros k j b0 E H. exists k. split; [exact E|]. apply (yaml_link_says_so p); [now apply JO|exact H]. }
    intros k Hk. destruct (matched_in _ _ _ _ k R4' Hk) as (_ & u & _ & x & Hx & HQ). eauto. }
  destruct R5 as (r & MR & RR).
  { intros k Hk. destruct (S4 k Hk) as (i & u & Hu & HS). inversion HS as [t c a X lo up ve ef _ _ HO _ _]; subst. cbn [dl_X]. inversion HO; subst; [exact SO3_id|]. cbn [rotE]. apply SO3_tr, SO3_euler_xyz. }
  { intros k Hk. destruct (S4 k Hk) as (i & u & Hu & HS). destruct (JO i u Hu) as (_ & NA). inversion HS as [t c a X lo up ve ef _ HA _ _ _]; subst. cbn [dl_joint]. exists a. split; [now apply NA|constructor]. }
  exists r0, r. split; [exact R1|]. split; [|exact RR]. rewrite (yaml_base fuel g rb p b r0 NB R1). exact MR.
Qed.
Lemma graph_reads_unknown fuel g fixed name ns js b : tree_names ns js -> List.length ns <= fuel -> ~ In b ns ->
  graph_reads fuel g fixed name ns js (fun r0 _ _ => make_result fuel g b fixed (pr_mbg r0) (pr_limits r0) (pr_name r0) = Throw OutOfRange).
Proof.
  intros TN HF Hb bodies links lims EB EL GL. assert (LB : List.length bodies = List.length ns) by (rewrite <- EB; now rewrite map_length). rewrite <- EB in Hb.
  destruct (unknown_root g fuel fixed bodies links lims name b (tree_doc_of bodies links _ _ TN EB EL) GL ltac:(lia) Hb) as (s & r0 & H1 & H2 & H3 & H4 & H5 & H6).
  exists s, r0. do 4 (split; [assumption|]). now rewrite H3, H4, H5.
Qed.
Theorem urdf_unknown fuel g p rb name b : keeps_all (from_base p EmptyString) -> ur_name rb = Some name ->
  (forall l, In l (ur_links rb) -> ulink_ok l) -> (forall u, In u (ur_joints rb) -> ujoint_ok u) ->
  tree_names (map ulink_name (ur_links rb)) (map ujoint_names (ur_joints rb)) -> List.length (ur_links rb) <= fuel ->
  ~ In b (map ulink_name (ur_links rb)) -> b <> EmptyString -> from_urdf fuel g (Some rb) (from_base p b) = Throw OutOfRange.
Proof.
  intros KA NM LO JO TN HF Hb NB. pose proof TN as (NE & ND & NJ & _).
  destruct (urdf_reads_as fuel g (from_base p EmptyString) rb name (fun r0 _ _ => make_result fuel g b (pp_fixed p) (pr_mbg r0) (pr_limits r0) (pr_name r0) = Throw OutOfRange)) as (r0 & bs & ks & R1 & R2 & R3 & R4 & R5); auto.
  { intro E. rewrite E in NE. now apply NE. }
  { apply graph_reads_unknown; auto. now rewrite map_length. }
  rewrite (urdf_base fuel g rb p b r0 NB R1). exact R5.
Qed.
Theorem yaml_unknown fuel g p rb name deg ls js b : keeps_all (from_base p EmptyString) ->
  yr_name rb = Some name -> yr_deg rb = Some deg -> yr_links rb = Some ls -> yr_joints rb = Some js ->
  (forall l, In l ls -> SpecDoc.ylink_ok l) -> (forall i j, nth_error js i = Some j -> yjoint_ok p (fst (yjoint_names (S i) j)) j) ->
  tree_names (numbered ylink_name 1 ls) (numbered yjoint_names 1 js) -> hd EmptyString (numbered ylink_name 1 ls) <> EmptyString -> List.length ls <= fuel ->
  ~ In b (numbered ylink_name 1 ls) -> b <> EmptyString -> from_yaml fuel g (Some rb) (from_base p b) = Throw OutOfRange.
Proof.
  intros KA NM DG LS JS LO JO TN HD HF Hb NB. pose proof TN as (NE & ND & NJ & _).
  destruct (yaml_reads_as fuel g (from_base p EmptyString) rb name deg ls js (fun r0 _ _ => make_result fuel g b (pp_fixed p) (pr_mbg r0) (pr_limits r0) (pr_name r0) = Throw OutOfRange)) as (r0 & bs & ks & R1 & R2 & R3 & R4 & R5); auto.
  { intro E. rewrite E in NE. now apply NE. }
  { apply graph_reads_unknown; auto. now rewrite numbered_len. }
  rewrite (yaml_base fuel g rb p b r0 NB R1). exact R5.
Qed.
