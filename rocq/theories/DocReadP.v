(** Proofs about whole documents: a document that describes a tree is read as that tree. *)
From Coq Require Import Reals String ZArith Bool Arith List Lia Relations Permutation.
From Verif Require Import Res ResP SMap Vec VecP Sva SvaP JointM JointP MultiBodyM KinM GraphM ParserM YamlM Spec SpecGraph SpecGraphOp SpecParser SpecDoc DynP GraphP GraphWalkP GraphTreeP GraphUseP GraphTopP GraphSimP GraphHistP GraphLegalP MbP KinP KinFinP DynFinP ConfFinP DocGraphP DocP.
Import ListNotations.
Open Scope nat_scope.

Lemma in_nth {A} (l : list A) d x : In x l -> exists i, i < List.length l /\ nth i l d = x.
Proof. intro H. apply (In_nth l x d) in H. destruct H as (i & L & E). eauto. Qed.

Lemma map_nth_seq {A} (l : list A) d : map (fun i => nth i l d) (seq 0 (List.length l)) = l.
Proof. apply (list_ext_nth _ _ d); [now rewrite map_length, seq_length|]. intros i Hi. rewrite map_length, seq_length in Hi. now rewrite (nth_map_seq (fun i => nth i l d)) by auto. Qed.

(** The same, of the bodies and joints that are read. *)
Definition tree_doc (bodies : list Body) (links : list DLink) : Prop :=
  bodies <> [] /\ NoDup (map bname bodies) /\ NoDup (map (fun k => jname (dl_joint k)) links) /\ NoDup (map dl_child links) /\
  (forall b, In b (tl bodies) -> In (bname b) (map dl_child links)) /\
  (forall k, In k links -> In (dl_parent k) (map bname bodies) /\ In (dl_child k) (map bname bodies)) /\
  exists rank : string -> nat, forall k, In k links -> (rank (dl_parent k) < rank (dl_child k))%nat.
Definition names_k (k : DLink) := (jname (dl_joint k), (dl_parent k, dl_child k)).
Lemma tree_doc_of bodies links ns js : tree_names ns js -> map bname bodies = ns -> map names_k links = js -> tree_doc bodies links.
Proof.
  intros (NE & N1 & N2 & N3 & CH & EN & rank & RK) <- <-. rewrite map_map in N2, N3, CH. cbn [names_k fst snd] in N2, N3, CH.
  split; [intros ->; now apply NE|]. do 3 (split; [assumption|]). split; [|split].
  - intros b Hb. apply CH. destruct bodies as [|b0 bs]; [destruct Hb|]. cbn [map tl] in *. now apply in_map.
  - intros k Hk. apply (EN (names_k k)). now apply in_map.
  - exists rank. intros k Hk. apply (RK (names_k k)). now apply in_map.
Qed.

Section Read.
Variable bodies : list Body.
Let N := List.length bodies.
Let B i := nth i bodies bd.
Hypothesis NDB : NoDup (map bname bodies).
Lemma B_inj i k : i < N -> k < N -> bname (B i) = bname (B k) -> i = k.
Proof.
  intros Li Lk E. apply (proj1 (NoDup_nth (map bname bodies) (bname bd)) NDB); rewrite ?map_length; auto. now rewrite !map_nth.
Qed.
Lemma B_name n : In n (map bname bodies) -> exists i, i < N /\ bname (B i) = n.
Proof. intro H. apply in_map_iff in H. destruct H as (b & <- & Hb). apply (in_nth bodies bd) in Hb. destruct Hb as (i & L & <-). eauto. Qed.
Lemma gok_bst k : k <= N -> gok (bst B k).
Proof.
  induction k as [|k IH]; intro L; [apply gok_empty|]. pose proof (bst_S N B B_inj k ltac:(lia)) as E. unfold grun in E.
  destruct (addBody (B k) (bst B k)) as [[] s'| | |] eqn:EB; try discriminate. injection E as <-. eapply gok_addBody; [apply IH; lia|exact EB].
Qed.
Variable rank : string -> nat.
(** One joint of the document. *)
Definition put (k : DLink) (s : GSt) : res GSt :=
  g <- grun (addJoint (dl_joint k)) s ;; grun (linkBodies (dl_parent k) (dl_X k) (dl_child k) ptid (jname (dl_joint k)) true) g.
Definition good_link (k : DLink) : Prop :=
  jfwd (dl_joint k) = true /\ In (dl_parent k) (map bname bodies) /\ In (dl_child k) (map bname bodies) /\ rank (dl_parent k) < rank (dl_child k).
Record Inv (done : list DLink) (s : GSt) (top : nat -> nat) : Prop := {
  iv_gok : gok s;
  iv_root : gRoot (snd s) = "Root"%string;
  iv_nodes : gNodes (snd s) = seq 0 N;
  iv_find : forall i, i < N -> mfind (gBody (snd s)) (bname (B i)) = Some i;
  iv_body : forall i, i < N -> body_at (fst s) i = B i;
  iv_jnt : forall n p, mfind (gJoint (snd s)) n = Some p -> In n (map (fun k => jname (dl_joint k)) done);
  iv_arc : forall a e, a < N -> In e (arcs_at (fst s) a) -> aNext e < N /\ exists k, In k done /\
     ((bname (B a) = dl_parent k /\ bname (B (aNext e)) = dl_child k /\ aX e = dl_X k /\ aJoint e = dl_joint k) \/
      (bname (B a) = dl_child k /\ bname (B (aNext e)) = dl_parent k /\ aX e = ptid /\ aJoint e = set_forward (dl_joint k) false));
  iv_all : forall k a b, In k done -> a < N -> b < N -> bname (B a) = dl_parent k -> bname (B b) = dl_child k -> adj (fst s) a b;
  iv_top : forall a e, a < N -> In e (arcs_at (fst s) a) -> top a = top (aNext e);
  iv_self : forall i, i < N -> ~ In (bname (B i)) (map dl_child done) -> top i = i;
  iv_rank : forall i, i < N -> top i < N /\ rank (bname (B (top i))) <= rank (bname (B i)) }.
Lemma inv_0 : Inv [] (bst B N) (fun i => i).
Proof.
  assert (NA : forall a, arcs_at (fst (bst B N)) a = []).
  { intro a. unfold arcs_at, bst. cbn [fst hNodes]. rewrite nth_error_map. destruct (nth_error (seq 0 N) a); reflexivity. }
  constructor; auto.
  - apply gok_bst. lia.
  - intros i Hi. apply (bmap_find N B B_inj i Hi).
  - intros i Hi. unfold body_at, bst. cbn [fst hNodes]. rewrite nth_error_map, (nth_error_nth' _ 0) by (now rewrite seq_length). rewrite seq_nth by auto. reflexivity.
  - cbn. discriminate.
  - intros a e _ H. rewrite NA in H. destruct H.
  - intros k a b [].
  - intros a e _ H. rewrite NA in H. destruct H.
Qed.
Lemma conn_top done s top : Inv done s top -> forall a b, conn (fst s) a b -> a < N -> b < N /\ top a = top b.
Proof.
  intros I a b C. induction C as [a b (e & He & <-)|a|a b c C1 IH1 C2 IH2]; intro L; auto.
  - split; [apply (iv_arc _ _ _ I a e L He)|apply (iv_top _ _ _ I a e L He)].
  - destruct (IH1 L) as (L1 & E1). destruct (IH2 L1) as (L2 & E2). split; congruence.
Qed.
Lemma inv_S done s top k : Inv done s top -> good_link k -> ~ In (jname (dl_joint k)) (map (fun k => jname (dl_joint k)) done) -> ~ In (dl_child k) (map dl_child done) ->
  exists s' top', put k s = Ok s' /\ Inv (done ++ [k]) s' top'.
Proof.
  intros I (FW & PI & CI & RK) NJ NC. destruct (B_name _ PI) as (ia & La & Ea). destruct (B_name _ CI) as (ib & Lb & Eb).
  set (jn := jname (dl_joint k)) in *. pose proof (iv_gok _ _ _ I) as G. pose proof (gk_names _ (proj1 G)) as NG.
  assert (FJ : mfind (gJoint (snd s)) jn = None). { destruct (mfind (gJoint (snd s)) jn) as [p|] eqn:E; auto. exfalso. apply NJ. exact (iv_jnt _ _ _ I jn p E). }
  destruct (addJoint (dl_joint k) s) as [[] s1| | |] eqn:E1; try (destruct s as (h & g); unfold addJoint in E1; cbn [snd] in FJ; fold jn in E1; rewrite FJ in E1; discriminate).
  assert (A1 : (forall a, arcs_at (fst s1) a = arcs_at (fst s) a) /\ (forall a, body_at (fst s1) a = body_at (fst s) a) /\ gRoot (snd s1) = gRoot (snd s) /\ gNodes (snd s1) = gNodes (snd s) /\ gBody (snd s1) = gBody (snd s) /\
     gJoint (snd s1) = mset (gJoint (snd s)) jn (List.length (hJoints (fst s))) /\ hJoints (fst s1) = hJoints (fst s) ++ [dl_joint k]).
  { destruct s as (h & g). unfold addJoint in E1. cbn [snd] in FJ. fold jn in E1. rewrite FJ in E1. injection E1 as <-. repeat split; reflexivity. }
  destruct A1 as (AA & AB & AR & AN & AG & AJ & AH).
  assert (G1 : gok s1) by (eapply gok_addJoint; eauto). pose proof (gk_names _ (proj1 G1)) as NG1.
  assert (F1 : mfind (gBody (snd s1)) (dl_parent k) = Some ia) by (rewrite AG, <- Ea; apply (iv_find _ _ _ I); auto).
  assert (F2 : mfind (gBody (snd s1)) (dl_child k) = Some ib) by (rewrite AG, <- Eb; apply (iv_find _ _ _ I); auto).
  assert (F3 : mfind (gJoint (snd s1)) jn = Some (List.length (hJoints (fst s)))) by (rewrite AJ; apply mfind_mset_eq).
  assert (TB : top ib = ib) by (apply (iv_self _ _ _ I); auto; rewrite Eb; auto).
  assert (TA : top ia <> ib). { intro E. pose proof (proj2 (iv_rank _ _ _ I ia La)) as R1. rewrite E, Ea, Eb in R1. lia. }
  assert (CN : forall a b, conn (fst s1) a b -> conn (fst s) a b).
  { intros a b C. induction C as [a b (e & He & <-)|a|a b c C1 IH1 C2 IH2]; [|apply rt_refl|eapply rt_trans; eauto]. apply rt_step. exists e. split; auto. now rewrite <- AA. }
  assert (NCN : ~ conn (fst s1) ia ib). { intro C. apply CN in C. destruct (conn_top _ _ _ I _ _ C La) as (_ & E). congruence. }
  assert (NN : ia <> ib) by (intros ->; apply NCN, rt_refl).
  assert (NL : ~ linked s1 jn).
  { intros (a & e & Ha & He & En). rewrite AN, (iv_nodes _ _ _ I) in Ha. apply in_seq in Ha. rewrite AA in He. destruct (iv_arc _ _ _ I a e ltac:(lia) He) as (_ & k' & Hk & [(_ & _ & _ & EJ)|(_ & _ & _ & EJ)]);
    apply NJ; rewrite <- En; unfold ajn; rewrite EJ; apply in_map_iff; exists k'; split; auto. }
  destruct (link_runs (dl_parent k) (dl_X k) (dl_child k) ptid jn true ia ib _ s1 NG1 F1 F2 F3) as (s2 & E2).
  pose proof (gok_link _ _ _ _ _ _ ia ib s1 s2 G1 F1 F2 NCN NL E2) as G2.
  destruct (link_effect _ _ _ _ _ _ ia ib s1 s2 NG1 F1 F2 NN E2) as (p & j & P1 & P2 & P3 & P4 & P5 & P6 & P7).
  assert (j = dl_joint k). { rewrite F3 in P1. injection P1 as <-. rewrite AH in P2. apply get_Ok in P2. rewrite nth_error_app2 in P2 by lia. rewrite Nat.sub_diag in P2. cbn in P2. congruence. }
  subst j. rewrite FW in P7. cbn [negb] in P7. rewrite (set_fwd_same _ FW) in P7.
  exists s2, (fun i => if top i =? ib then top ia else top i). split.
  { unfold put, grun. rewrite E1. cbn [bind]. fold jn. now rewrite E2. }
  assert (INA : forall a e, a < N -> In e (arcs_at (fst s2) a) -> In e (arcs_at (fst s) a) \/ (a = ia /\ e = mkArc (dl_X k) (dl_joint k) ib) \/ (a = ib /\ e = mkArc ptid (set_forward (dl_joint k) false) ia)).
  { intros a e L H. rewrite P7, AA in H. apply in_app_iff in H. destruct H as [H|H]; auto. destruct (Nat.eqb_spec a ia) as [->|]; [destruct H as [<-|[]]; auto|]. destruct (Nat.eqb_spec a ib) as [->|]; [destruct H as [<-|[]]; auto|destruct H]. }
  constructor.
  - exact G2.
  - rewrite P4, AR. apply (iv_root _ _ _ I).
  - rewrite P4, AN. apply (iv_nodes _ _ _ I).
  - intros i Hi. rewrite P4, AG. now apply (iv_find _ _ _ I).
  - intros i Hi. rewrite P6, AB. now apply (iv_body _ _ _ I).
  - intros n p0 Hn. rewrite P4, AJ in Hn. rewrite map_app. apply in_app_iff. destruct (String.eqb_spec n jn) as [->|NE]; [right; now left|]. rewrite mfind_mset_neq in Hn by auto. left. exact (iv_jnt _ _ _ I n p0 Hn).
  - intros a e L H. destruct (INA a e L H) as [H0|[(-> & ->)|(-> & ->)]].
    + destruct (iv_arc _ _ _ I a e L H0) as (Ln & k' & Hk & D0). split; auto. exists k'. split; auto. apply in_app_iff. auto.
    + cbn [aNext aX aJoint]. split; auto. exists k. split; [apply in_app_iff; right; now left|]. left. auto.
    + cbn [aNext aX aJoint]. split; auto. exists k. split; [apply in_app_iff; right; now left|]. right. auto.
  - intros k' a b Hk L1 L2 N1 N2. apply in_app_iff in Hk. destruct Hk as [Hk|[<-|[]]].
    + destruct (iv_all _ _ _ I k' a b Hk L1 L2 N1 N2) as (e & He & En). exists e. split; auto. rewrite P7, AA. apply in_app_iff. auto.
    + assert (a = ia) by (apply B_inj; auto; congruence). assert (b = ib) by (apply B_inj; auto; congruence). subst. exists (mkArc (dl_X k) (dl_joint k) ib). split; auto.
      rewrite P7. apply in_app_iff. right. rewrite Nat.eqb_refl. now left.
  - intros a e L H. destruct (INA a e L H) as [H0|[(-> & ->)|(-> & ->)]].
    + now rewrite (iv_top _ _ _ I a e L H0).
    + cbn [aNext]. rewrite TB, Nat.eqb_refl. destruct (Nat.eqb_spec (top ia) ib); [contradiction|reflexivity].
    + cbn [aNext]. rewrite TB, Nat.eqb_refl. destruct (Nat.eqb_spec (top ia) ib); [contradiction|reflexivity].
  - intros i Hi H. rewrite map_app, in_app_iff in H. assert (T0 : top i = i) by (apply (iv_self _ _ _ I); auto). rewrite T0. destruct (Nat.eqb_spec i ib) as [->|]; auto. exfalso. apply H. right. left. auto.
  - intros i Hi. destruct (iv_rank _ _ _ I i Hi) as (T1 & R1). destruct (Nat.eqb_spec (top i) ib) as [E|]; auto. destruct (iv_rank _ _ _ I ia La) as (T2 & R2). split; auto. rewrite E in R1. rewrite Ea in R2. rewrite Eb in R1. lia.
Qed.
Lemma inv_all todo : forall done s top, Inv done s top -> (forall k, In k todo -> good_link k) ->
  NoDup (map (fun k => jname (dl_joint k)) (done ++ todo)) -> NoDup (map dl_child (done ++ todo)) ->
  exists s' top', for_each todo put s = Ok s' /\ Inv (done ++ todo) s' top'.
Proof.
  induction todo as [|k todo IH]; intros done s top I GL N1 N2; cbn [for_each]; [rewrite app_nil_r; eauto|].
  destruct (inv_S done s top k I) as (s1 & top1 & E & I1).
  - apply GL. now left.
  - rewrite map_app in N1. cbn [map] in N1. apply NoDup_remove_2 in N1. intro H. apply N1. apply in_app_iff. auto.
  - rewrite map_app in N2. cbn [map] in N2. apply NoDup_remove_2 in N2. intro H. apply N2. apply in_app_iff. auto.
  - rewrite E. cbn [bind]. destruct (IH (done ++ [k]) s1 top1 I1) as (s2 & top2 & E2 & I2).
    + intros k' H. apply GL. now right.
    + now rewrite <- app_assoc.
    + now rewrite <- app_assoc.
    + exists s2, top2. split; auto. now rewrite <- app_assoc in I2.
Qed.
End Read.

(** The multibody of the graph. *)
Lemma ptmul_idinv X : ptmul X (ptinv ptid) = X.
Proof. rewrite ptinv_id. apply ptmul_id_r. Qed.
Lemma read_tree g fuel fixed bodies links lims name : tree_doc bodies links -> (forall k, In k links -> jfwd (dl_joint k) = true /\ joint_ok (dl_joint k)) -> List.length bodies <= fuel ->
  exists s r, for_each links put (bst (fun i => nth i bodies bd) (List.length bodies)) = Ok s /\
    make_result fuel g (bname (nth 0 bodies bd)) fixed s lims name = Ok r /\ pr_mbg r = s /\ pr_limits r = lims /\ pr_name r = name /\
    tree_robot g fixed r /\ robot_of bodies links (mkJ (if fixed then Fixed else Free) unitZ true "Root") (pr_mb r).
Proof.
  intros (NE & NB & NJ & NC & CH & EN & rank & RK) FW HF.
  destruct (inv_all bodies NB rank links [] _ _ (inv_0 bodies NB rank)) as (s & top & E & I).
  { intros k Hk. destruct (FW k Hk). destruct (EN k Hk). do 3 (split; auto). }
  { exact NJ. }
  { exact NC. }
  cbn [app] in I. set (N := List.length bodies) in *. set (B := fun i => nth i bodies bd) in *.
  assert (N0 : 0 < N) by (unfold N; destruct bodies; [congruence|cbn; lia]).
  pose proof (iv_gok _ _ _ _ _ I) as (G & CF). pose proof (iv_find _ _ _ _ _ I 0 N0) as RT. fold (B 0) in RT.
  pose proof (iv_nodes _ _ _ _ _ I) as GN. fold N in GN.
  set (t := if fixed then Fixed else Free) in *.
  assert (HF' : List.length (gNodes (snd s)) <= fuel) by (rewrite GN, seq_length; auto).
  destruct (graph_all s (bname (B 0)) 0 t unitZ ptid ptid fuel G CF RT HF') as (mb & ord & base & _ & _ & _ & EM & MG & VV & EC & _).
  rewrite (iv_root _ _ _ _ _ I) in MG.
  assert (LJ : link_joints joint_ok s).
  { intros a e Ha He. rewrite GN in Ha. apply in_seq in Ha. destruct (iv_arc _ _ _ _ _ I a e ltac:(lia) He) as (_ & k & Hk & [(_ & _ & _ & ->)|(_ & _ & _ & ->)]); [apply FW; auto|]. apply fwd_ok. apply FW; auto. }
  destruct (graph_mb_wf s 0 _ ptid ptid ord base mb G MG EC VV) as (W & _); [eexists; constructor|exact LJ|].
  assert (ZR : exists m, zero_mbc g mb = Ok m).
  { unfold zero_mbc. destruct (fresh_ok g mb) as (K0 & _); [unfold nrJoints; rewrite (wf_joints _ W); reflexivity|].
    destruct (zero_ok mb _ W K0) as (m1 & E1 & K1 & _). rewrite E1. cbn [bind]. destruct (FK_total mb m1 W K1) as (m2 & E2 & F2). rewrite E2. cbn [bind].
    destruct (FV_total mb m2 W (FK_mbc_ok _ _ _ W K1 F2)) as (m3 & E3 & _). eauto. }
  destruct ZR as (m & ZM).
  assert (MK : makeMultiBody_fixed fuel (bname (B 0)) fixed ptid ptid s = Ok mb) by exact EM.
  exists s, (mkPR mb m s lims name). split; [exact E|].
  assert (MR : make_result fuel g (bname (B 0)) fixed s lims name = Ok (mkPR mb m s lims name)).
  { rewrite (make_result_zero _ _ _ _ _ _ _ _ MK), ZM. reflexivity. }
  split; [exact MR|]. cbn [pr_mbg pr_limits pr_name pr_mb]. do 3 (split; [reflexivity|]).
  assert (RV : forall a e, In a (gNodes (snd s)) -> In e (arcs_at (fst s) a) -> jfwd (aJoint e) = false -> aX e = ptid).
  { intros a e Ha He FE. rewrite GN in Ha. apply in_seq in Ha. destruct (iv_arc _ _ _ _ _ I a e ltac:(lia) He) as (_ & k & Hk & [(_ & _ & _ & EJ)|(_ & _ & EX & _)]); auto. rewrite EJ in FE. rewrite (proj1 (FW k Hk)) in FE. discriminate. }
  split.
  { split; [exact G|]. split; [exact CF|]. split; [apply (iv_root _ _ _ _ _ I)|]. split; [exact RV|]. exists fuel, (bname (B 0)). split; [exact HF'|exact MR]. }
  (* connectedness *)
  assert (CO : forall i, i < N -> conn (fst s) 0 i).
  { assert (CR : forall r i, rank (bname (B i)) < r -> i < N -> conn (fst s) 0 i).
    { induction r as [|r IH]; intros i R1 Li; [lia|]. destruct i as [|i]; [apply rt_refl|].
      assert (HI : In (B (S i)) (tl bodies)). { unfold B. destruct bodies as [|b0 bs]; [cbn in Li; lia|]. cbn [nth tl]. apply nth_In. unfold N in Li. cbn in Li. lia. }
      apply CH in HI. apply in_map_iff in HI. destruct HI as (k & Ek & Hk). destruct (EN k Hk) as (PI & _).
      destruct (B_name bodies _ PI) as (p & Lp & Ep). fold N in Lp. fold (B p) in Ep. pose proof (RK k Hk) as R2. rewrite Ek in R2. rewrite <- Ep in R2.
      eapply rt_trans; [apply (IH p); [lia|exact Lp]|]. apply rt_step. apply (iv_all _ _ _ _ _ I k p (S i) Hk Lp Li Ep (eq_sym Ek)). }
    intros i Li. eapply CR; eauto. }
  pose proof (mg_root _ _ _ _ _ _ _ _ MG) as M1. pose proof (mg_once _ _ _ _ _ _ _ _ MG) as M2. pose proof (mg_all _ _ _ _ _ _ _ _ MG) as M3.
  assert (PO : Permutation ord (seq 0 N)).
  { apply NoDup_Permutation; auto using seq_NoDup. intro i. split.
    - intro H. apply VV in H. now rewrite GN in H.
    - intro H. apply in_seq in H. apply M3, CO. lia. }
  assert (LO : List.length ord = N) by (rewrite (Permutation_length PO); apply seq_length).
  assert (OL : forall i, i < N -> nth i ord 0 < N). { intros i Hi. assert (H : In (nth i ord 0) ord) by (apply nth_In; lia). apply (Permutation_in _ PO) in H. apply in_seq in H. lia. }
  assert (TOP : top 0 = 0).
  { destruct (iv_rank _ _ _ _ _ I 0 N0) as (T1 & R1). fold N in T1. destruct (top 0) as [|t0] eqn:ET; auto. exfalso.
    assert (HI : In (B (S t0)) (tl bodies)). { unfold B. destruct bodies as [|b0 bs]; [cbn in T1; lia|]. cbn [nth tl]. apply nth_In. unfold N in T1. cbn in T1. lia. }
    apply CH in HI. apply in_map_iff in HI. destruct HI as (k & Ek & Hk). destruct (EN k Hk) as (PI & _).
    destruct (B_name bodies _ PI) as (p & Lp & Ep). fold N in Lp. fold (B p) in Ep. pose proof (RK k Hk) as R2. rewrite Ek in R2. rewrite <- Ep in R2.
    destruct (conn_top bodies rank links s top I 0 p (CO p Lp) N0) as (_ & E1). destruct (iv_rank _ _ _ _ _ I p Lp) as (_ & R3). rewrite <- E1, ET in R3. fold (B (S t0)) in R3. fold (B p) in R3. lia. }
  assert (NR : forall k, In k links -> dl_child k <> bname (B 0)).
  { intros k Hk Ek. destruct (EN k Hk) as (PI & _). destruct (B_name bodies _ PI) as (p & Lp & Ep). fold N in Lp. fold (B p) in Ep. pose proof (RK k Hk) as R2. rewrite Ek in R2. rewrite <- Ep in R2.
    destruct (conn_top bodies rank links s top I 0 p (CO p Lp) N0) as (_ & E1). destruct (iv_rank _ _ _ _ _ I p Lp) as (_ & R3). rewrite <- E1, TOP in R3. fold (B 0) in R3. fold (B p) in R3. lia. }
  assert (O0 : nth 0 ord 0 = 0) by (destruct ord; [discriminate|]; cbn in M1 |- *; congruence).
  assert (UC : forall k k', In k links -> In k' links -> dl_child k = dl_child k' -> k = k').
  { intros k k' H1 H2 EQ. apply (in_nth links (mkDL jd EmptyString EmptyString ptid)) in H1, H2. destruct H1 as (i1 & L1 & <-). destruct H2 as (i2 & L2 & <-). f_equal.
    apply (proj1 (NoDup_nth (map dl_child links) EmptyString) NC); rewrite ?map_length; auto.
    change EmptyString with (dl_child (mkDL jd EmptyString EmptyString ptid)). now rewrite !map_nth. }
  (* from the root on, links are met from parent to child *)
  assert (DIR : forall i, 0 < i < N -> exists p e e' k, p < i /\ nth i (mb_parent mb) 0%Z = Z.of_nat p /\ In k links /\
     bname (B (nth p ord 0)) = dl_parent k /\ bname (B (nth i ord 0)) = dl_child k /\ nth i (mb_joints mb) jd = dl_joint k /\ aX e = dl_X k /\
     nth i (mb_Xt mb) ptid = ptmul (aX e) (ptinv (nth p base ptid)) /\ nth i base ptid = aX e' /\ aX e' = ptid).
  { intro i. induction i as [i IH] using lt_wf_ind. intro Hi. destruct (mg_next _ _ _ _ _ _ _ _ MG i ltac:(lia)) as (p & e & e' & Lp & E0 & E1 & E2 & E3 & E4 & E5 & E6 & E7).
    assert (Hp : nth p ord 0 < N) by (apply OL; lia). assert (Hi' : nth i ord 0 < N) by (apply OL; lia).
    destruct (iv_arc _ _ _ _ _ I (nth p ord 0) e Hp E1) as (_ & k & Hk & DJ). rewrite E2 in DJ. fold (B (nth p ord 0)) (B (nth i ord 0)) in DJ.
    destruct DJ as [(Q1 & Q2 & Q3 & Q4)|(Q1 & Q2 & _)].
    - exists p, e, e', k. do 3 (split; auto). do 2 (split; auto). split; [congruence|]. do 3 (split; auto).
      destruct (iv_arc _ _ _ _ _ I (nth i ord 0) e' Hi' E3) as (_ & k' & Hk' & DJ). rewrite E4 in DJ. fold (B (nth p ord 0)) (B (nth i ord 0)) in DJ.
      destruct DJ as [(S1 & S2 & _)|(_ & _ & S3 & _)]; auto. exfalso. pose proof (RK k Hk) as R1. pose proof (RK k' Hk') as R2. rewrite <- Q1, <- Q2 in R1. rewrite <- S1, <- S2 in R2. lia.
    - exfalso. destruct p as [|p]; [rewrite O0 in Q1; symmetry in Q1; now apply (NR k Hk)|].
      destruct (IH (S p) ltac:(lia) ltac:(lia)) as (pp & f & f' & k' & Lpp & _ & Hk' & T1 & T2 & _). assert (k = k') by (apply UC; auto; congruence). subst k'.
      assert (EQ : nth i ord 0 = nth pp ord 0). { apply (B_inj bodies NB); [exact Hi'|apply OL; lia|]. fold (B (nth i ord 0)) (B (nth pp ord 0)). congruence. }
      apply (proj1 (NoDup_nth ord 0) M2) in EQ; [lia|rewrite LO; lia|rewrite LO; lia]. }
  assert (BI : forall i, i < N -> nth i base ptid = ptid).
  { intros i Hi. destruct i as [|i]; [apply (mg_first _ _ _ _ _ _ _ _ MG)|]. destruct (DIR (S i) ltac:(lia)) as (p & e & e' & k & _ & _ & _ & _ & _ & _ & _ & _ & D1 & D2). congruence. }
  assert (BB : forall i, i < N -> nth i (mb_bodies mb) bd = B (nth i ord 0)).
  { intros i Hi. rewrite (mg_bodies _ _ _ _ _ _ _ _ MG i) by lia. rewrite BI, ptdualI_id by auto. pose proof (iv_body _ _ _ _ _ I (nth i ord 0) (OL i Hi)) as EB. fold (B (nth i ord 0)) in EB. rewrite EB. assert (BE : forall b, mkBody (binertia b) (bname b) = b) by (now intros []). exact (BE _). }
  split; [exact W|]. split.
  { assert (EB : mb_bodies mb = map B ord).
    { apply (list_ext_nth _ _ bd); [rewrite map_length; apply (mg_bodies_len _ _ _ _ _ _ _ _ MG)|]. intros i Hi. rewrite (mg_bodies_len _ _ _ _ _ _ _ _ MG), LO in Hi.
      rewrite BB by auto. rewrite (nth_indep _ bd (B 0)) by (rewrite map_length; lia). now rewrite (map_nth B). }
    rewrite EB. rewrite (Permutation_map B PO). unfold B, N. rewrite map_nth_seq. reflexivity. }
  split. { rewrite BB by auto. now rewrite O0. }
  pose proof (mg_first _ _ _ _ _ _ _ _ MG) as (F1 & F2 & F3 & _). do 3 (split; [assumption|]).
  intros i Hi. fold N in Hi. destruct (DIR i Hi) as (p & e & e' & k & D1 & D2 & D3 & D4 & D5 & D6 & D7 & D8 & _). exists k, p. split; auto. split; auto. split; auto. split.
  { rewrite D8, BI by lia. now rewrite ptmul_idinv. }
  rewrite !BB by lia. auto.
Qed.
