(** Proofs about documents of which only a part is reached from the root. *)
From Coq Require Import Reals String ZArith Bool Arith List Lia Relations Permutation.
From Verif Require Import Res ResP SMap Vec VecP Sva SvaP JointM JointP MultiBodyM KinM GraphM ParserM YamlM Spec SpecGraph SpecGraphOp SpecParser SpecDoc SpecFilter DynP GraphP GraphWalkP GraphTreeP GraphUseP GraphTopP GraphSimP GraphHistP GraphLegalP MbP KinP KinFinP DynFinP ConfFinP DocGraphP DocP DocReadP.
Import ListNotations.
Open Scope nat_scope.

Definition forest_doc (bodies : list Body) (links : list DLink) : Prop :=
  bodies <> [] /\ NoDup (map bname bodies) /\ NoDup (map (fun k => jname (dl_joint k)) links) /\ NoDup (map dl_child links) /\
  ~ In (bname (nth 0 bodies bd)) (map dl_child links) /\
  (forall k, In k links -> In (dl_parent k) (map bname bodies) /\ In (dl_child k) (map bname bodies)) /\
  exists rank : string -> nat, forall k, In k links -> (rank (dl_parent k) < rank (dl_child k))%nat.
Lemma filter_map_in {A B} (f : A -> B) (P : A -> bool) (Q : B -> bool) l : (forall x, In x l -> Q (f x) = P x) -> map f (filter P l) = filter Q (map f l).
Proof. induction l as [|x l IH]; intro H; cbn; [reflexivity|]. rewrite (H x (or_introl eq_refl)). rewrite <- IH by (intros; apply H; now right). now destruct (P x). Qed.
Lemma filter_hd {A} (P : A -> bool) l d : l <> [] -> P (nth 0 l d) = true -> nth 0 (filter P l) d = nth 0 l d.
Proof. destruct l as [|x l]; [congruence|]. cbn. intros _ ->. reflexivity. Qed.
Lemma read_forest g fuel fixed bodies links lims name : forest_doc bodies links -> (forall k, In k links -> jfwd (dl_joint k) = true /\ joint_ok (dl_joint k)) -> List.length bodies <= fuel ->
  exists s r, for_each links put (bst (fun i => nth i bodies bd) (List.length bodies)) = Ok s /\
    make_result fuel g (bname (nth 0 bodies bd)) fixed s lims name = Ok r /\ pr_mbg r = s /\ pr_limits r = lims /\ pr_name r = name /\
    tree_robot g fixed r /\ exists keep, robot_of (filter keep bodies) links (mkJ (if fixed then Fixed else Free) unitZ true "Root") (pr_mb r) /\
      forall b, In b bodies -> (keep b = true <-> doc_reached links (bname (nth 0 bodies bd)) (bname b)).
Proof.
  intros (NE & NB & NJ & NC & NR0 & EN & rank & RK) FW HF.
  destruct (inv_all bodies NB rank links [] _ _ (inv_0 bodies NB rank)) as (s & top & E & I).
  { intros k Hk. destruct (FW k Hk). destruct (EN k Hk). do 3 (split; auto). }
  { exact NJ. }
  { exact NC. }
  cbn [app] in I. set (N := List.length bodies) in *. set (B := fun i => nth i bodies bd) in *.
  assert (N0 : 0 < N) by (unfold N; destruct bodies; [congruence|cbn; lia]).
  pose proof (iv_gok _ _ _ _ _ I) as (G & CF). pose proof (iv_find _ _ _ _ _ I 0 N0) as RT. fold (B 0) in RT.
  pose proof (iv_nodes _ _ _ _ _ I) as GN. fold N in GN.
  set (t := if fixed then Fixed else Free) in *.
  assert (HF' : List.length (gNodes (snd s)) <= fuel) by (rewrite GN, seq_length; auto).
  destruct (graph_all s (bname (B 0)) 0 t unitZ ptid ptid fuel G CF RT HF') as (mb & ord & base & _ & _ & _ & EM & MG & VV & EC & _).
  rewrite (iv_root _ _ _ _ _ I) in MG.
  assert (LJ : link_joints joint_ok s).
  { intros a e Ha He. rewrite GN in Ha. apply in_seq in Ha. destruct (iv_arc _ _ _ _ _ I a e ltac:(lia) He) as (_ & k & Hk & [(_ & _ & _ & ->)|(_ & _ & _ & ->)]); [apply FW; auto|]. apply fwd_ok. apply FW; auto. }
  destruct (graph_mb_wf s 0 _ ptid ptid ord base mb G MG EC VV) as (W & _); [eexists; constructor|exact LJ|].
  assert (ZR : exists m, zero_mbc g mb = Ok m).
  { unfold zero_mbc. destruct (fresh_ok g mb) as (K0 & _); [unfold nrJoints; rewrite (wf_joints _ W); reflexivity|].
    destruct (zero_ok mb _ W K0) as (m1 & E1 & K1 & _). rewrite E1. cbn [bind]. destruct (FK_total mb m1 W K1) as (m2 & E2 & F2). rewrite E2. cbn [bind].
    destruct (FV_total mb m2 W (FK_mbc_ok _ _ _ W K1 F2)) as (m3 & E3 & _). eauto. }
  destruct ZR as (m & ZM).
  assert (MK : makeMultiBody_fixed fuel (bname (B 0)) fixed ptid ptid s = Ok mb) by exact EM.
  exists s, (mkPR mb m s lims name). split; [exact E|].
  assert (MR : make_result fuel g (bname (B 0)) fixed s lims name = Ok (mkPR mb m s lims name)).
  { rewrite (make_result_zero _ _ _ _ _ _ _ _ MK), ZM. reflexivity. }
  split; [exact MR|]. cbn [pr_mbg pr_limits pr_name pr_mb]. do 3 (split; [reflexivity|]).
  assert (RV : forall a e, In a (gNodes (snd s)) -> In e (arcs_at (fst s) a) -> jfwd (aJoint e) = false -> aX e = ptid).
  { intros a e Ha He FE. rewrite GN in Ha. apply in_seq in Ha. destruct (iv_arc _ _ _ _ _ I a e ltac:(lia) He) as (_ & k & Hk & [(_ & _ & _ & EJ)|(_ & _ & EX & _)]); auto. rewrite EJ in FE. rewrite (proj1 (FW k Hk)) in FE. discriminate. }
  split.
  { split; [exact G|]. split; [exact CF|]. split; [apply (iv_root _ _ _ _ _ I)|]. split; [exact RV|]. exists fuel, (bname (B 0)). split; [exact HF'|exact MR]. }
  pose proof (mg_root _ _ _ _ _ _ _ _ MG) as M1. pose proof (mg_once _ _ _ _ _ _ _ _ MG) as M2. pose proof (mg_all _ _ _ _ _ _ _ _ MG) as M3.
  set (M := List.length ord) in *.
  assert (ON : forall i, In i ord -> i < N). { intros i H. apply VV in H. rewrite GN in H. apply in_seq in H. lia. }
  assert (OL : forall i, i < M -> nth i ord 0 < N). { intros i Hi. apply ON. now apply nth_In. }
  assert (NR : forall k, In k links -> dl_child k <> bname (B 0)). { intros k Hk E0. apply NR0. fold (B 0). rewrite <- E0. apply (in_map dl_child). exact Hk. }
  assert (O0 : nth 0 ord 0 = 0) by (destruct ord; [discriminate|]; cbn in M1 |- *; congruence).
  assert (UC : forall k k', In k links -> In k' links -> dl_child k = dl_child k' -> k = k').
  { intros k k' H1 H2 EQ. apply (in_nth links (mkDL jd EmptyString EmptyString ptid)) in H1, H2. destruct H1 as (i1 & L1 & <-). destruct H2 as (i2 & L2 & <-). f_equal.
    apply (proj1 (NoDup_nth (map dl_child links) EmptyString) NC); rewrite ?map_length; auto.
    change EmptyString with (dl_child (mkDL jd EmptyString EmptyString ptid)). now rewrite !map_nth. }
  (* from the root on, links are met from parent to child *)
  assert (DIR : forall i, 0 < i < M -> exists p e e' k, p < i /\ nth i (mb_parent mb) 0%Z = Z.of_nat p /\ In k links /\
     bname (B (nth p ord 0)) = dl_parent k /\ bname (B (nth i ord 0)) = dl_child k /\ nth i (mb_joints mb) jd = dl_joint k /\ aX e = dl_X k /\
     nth i (mb_Xt mb) ptid = ptmul (aX e) (ptinv (nth p base ptid)) /\ nth i base ptid = aX e' /\ aX e' = ptid).
  { intro i. induction i as [i IH] using lt_wf_ind. intro Hi. destruct (mg_next _ _ _ _ _ _ _ _ MG i ltac:(lia)) as (p & e & e' & Lp & E0 & E1 & E2 & E3 & E4 & E5 & E6 & E7).
    assert (Hp : nth p ord 0 < N) by (apply OL; lia). assert (Hi' : nth i ord 0 < N) by (apply OL; lia).
    destruct (iv_arc _ _ _ _ _ I (nth p ord 0) e Hp E1) as (_ & k & Hk & DJ). rewrite E2 in DJ. fold (B (nth p ord 0)) (B (nth i ord 0)) in DJ.
    destruct DJ as [(Q1 & Q2 & Q3 & Q4)|(Q1 & Q2 & _)].
    - exists p, e, e', k. do 3 (split; auto). do 2 (split; auto). split; [congruence|]. do 3 (split; auto).
      destruct (iv_arc _ _ _ _ _ I (nth i ord 0) e' Hi' E3) as (_ & k' & Hk' & DJ). rewrite E4 in DJ. fold (B (nth p ord 0)) (B (nth i ord 0)) in DJ.
      destruct DJ as [(S1 & S2 & _)|(_ & _ & S3 & _)]; auto. exfalso. pose proof (RK k Hk) as R1. pose proof (RK k' Hk') as R2. rewrite <- Q1, <- Q2 in R1. rewrite <- S1, <- S2 in R2. lia.
    - exfalso. destruct p as [|p]; [rewrite O0 in Q1; symmetry in Q1; now apply (NR k Hk)|].
      destruct (IH (S p) ltac:(lia) ltac:(lia)) as (pp & f & f' & k' & Lpp & _ & Hk' & T1 & T2 & _). assert (k = k') by (apply UC; auto; congruence). subst k'.
      assert (EQ : nth i ord 0 = nth pp ord 0). { apply (B_inj bodies NB); [exact Hi'|apply OL; lia|]. fold (B (nth i ord 0)) (B (nth pp ord 0)). congruence. }
      apply (proj1 (NoDup_nth ord 0) M2) in EQ; [lia|unfold M in *; lia|unfold M in *; lia]. }
  assert (BI : forall i, i < M -> nth i base ptid = ptid).
  { intros i Hi. destruct i as [|i]; [apply (mg_first _ _ _ _ _ _ _ _ MG)|]. destruct (DIR (S i) ltac:(lia)) as (p & e & e' & k & _ & _ & _ & _ & _ & _ & _ & _ & D1 & D2). congruence. }
  assert (BB : forall i, i < M -> nth i (mb_bodies mb) bd = B (nth i ord 0)).
  { intros i Hi. rewrite (mg_bodies _ _ _ _ _ _ _ _ MG i) by exact Hi. rewrite BI, ptdualI_id by auto. pose proof (iv_body _ _ _ _ _ I (nth i ord 0) (OL i Hi)) as EB. fold (B (nth i ord 0)) in EB. rewrite EB. assert (BE : forall b, mkBody (binertia b) (bname b) = b) by (now intros []). exact (BE _). }
  assert (EB : mb_bodies mb = map B ord).
  { apply (list_ext_nth _ _ bd); [rewrite map_length; apply (mg_bodies_len _ _ _ _ _ _ _ _ MG)|]. intros i Hi. rewrite (mg_bodies_len _ _ _ _ _ _ _ _ MG) in Hi. fold M in Hi.
    rewrite BB by auto. rewrite (nth_indep _ bd (B 0)) by (rewrite map_length; exact Hi). now rewrite (map_nth B). }
  set (keepi := fun i => existsb (Nat.eqb i) ord).
  assert (KI : forall i, keepi i = true <-> In i ord). { intro i. unfold keepi. rewrite existsb_exists. split; [intros (x & H1 & H2); apply Nat.eqb_eq in H2; now subst|intro H; exists i; split; [exact H|apply Nat.eqb_refl]]. }
  set (keep := fun b => existsb (fun i => String.eqb (bname (B i)) (bname b)) ord).
  assert (KB : forall i, i < N -> keep (B i) = keepi i).
  { intros i Hi. apply eq_true_iff_eq. rewrite KI. unfold keep. rewrite existsb_exists. split.
    - intros (x & H1 & H2). apply String.eqb_eq in H2. assert (x = i) by (apply (B_inj bodies NB); [now apply ON|exact Hi|exact H2]). now subst.
    - intro H. exists i. split; [exact H|apply String.eqb_refl]. }
  assert (SB : map B (seq 0 N) = bodies) by (unfold B, N; apply map_nth_seq).
  assert (PA : map B (filter keepi (seq 0 N)) = filter keep bodies).
  { transitivity (filter keep (map B (seq 0 N))); [|now rewrite SB]. apply filter_map_in. intros x Hx. apply in_seq in Hx. apply KB. lia. }
  assert (PO : Permutation ord (filter keepi (seq 0 N))).
  { apply NoDup_Permutation; [exact M2|apply NoDup_filter, seq_NoDup|]. intro i. rewrite filter_In, KI, in_seq. split; [intro H; split; [apply ON in H; lia|exact H]|tauto]. }
  assert (LO : List.length (filter keep bodies) = M) by (rewrite <- PA, map_length, <- (Permutation_length PO); reflexivity).
  assert (M0 : 0 < M) by (unfold M; destruct ord; [discriminate|cbn; lia]).
  exists keep. split.
  - split; [exact W|]. split; [rewrite EB, <- PA; now apply Permutation_map|]. split.
    { rewrite BB, O0 by exact M0. assert (K0 : keep (B 0) = true) by (rewrite KB by exact N0; apply KI; rewrite <- O0; now apply nth_In).
      symmetry. apply (filter_hd keep bodies bd NE K0). }
    pose proof (mg_first _ _ _ _ _ _ _ _ MG) as (F1 & F2 & F3 & _). do 3 (split; [assumption|]).
    intros i Hi. rewrite LO in Hi. destruct (DIR i Hi) as (p & e & e' & k & D1 & D2 & D3 & D4 & D5 & D6 & D7 & D8 & _). exists k, p. split; auto. split; auto. split; auto. split.
    { rewrite D8, BI by lia. now rewrite ptmul_idinv. }
    rewrite !BB by lia. auto.
  - assert (RD : forall i, i < M -> doc_reached links (bname (B 0)) (bname (B (nth i ord 0)))).
    { intro i. induction i as [i IH] using lt_wf_ind. intro Hi. destruct i as [|i]; [rewrite O0; constructor|].
      destruct (DIR (S i) ltac:(lia)) as (p & e & e' & k & D1 & D2 & D3 & D4 & D5 & _). rewrite D5. apply doc_next; [exact D3|]. rewrite <- D4. apply IH; lia. }
    assert (DR : forall n, doc_reached links (bname (B 0)) n -> exists i, i < N /\ bname (B i) = n /\ In i ord).
    { intros n H. induction H as [|k Hk H (i & L1 & L2 & L3)]; [exists 0; split; [exact N0|]; split; [reflexivity|]; rewrite <- O0; now apply nth_In|].
      destruct (EN k Hk) as (_ & CI). destruct (B_name bodies _ CI) as (c & Lc & Ec). exists c. split; [exact Lc|]. split; [exact Ec|]. apply M3. apply M3 in L3. eapply rt_trans; [exact L3|]. apply rt_step. apply (iv_all _ _ _ _ _ I k i c Hk L1 Lc L2 Ec). }
    intros b Hb. apply (in_nth bodies bd) in Hb. destruct Hb as (i & Li & <-). fold (B i) (B 0). fold N in Li. rewrite KB, KI by exact Li. split.
    + intro H. apply (in_nth ord 0) in H. destruct H as (q & Lq & <-). now apply RD.
    + intro H. destruct (DR _ H) as (q & L1 & L2 & L3). assert (EQ : q = i) by (apply (B_inj bodies NB); auto). rewrite <- EQ. exact L3.
Qed.
