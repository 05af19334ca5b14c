(** Proofs about whole documents: reading, writing and reading again. *)
From Coq Require Import Reals String ZArith Bool Arith List Lia Permutation.
From Verif Require Import Res ResP SMap Vec VecP Sva SvaP JointM JointP MultiBodyM KinM GraphM ParserM YamlM Spec SpecGraph SpecGraphOp SpecParser SpecDoc DynP GraphP GraphTreeP GraphUseP MbP DocGraphP DocP DocReadP ParserBodyP DocYamlP DocUrdfP DocWholeP.
Import ListNotations.
Open Scope nat_scope.

Lemma uniq {A B} (f : A -> B) l : NoDup (map f l) -> forall a b, In a l -> In b l -> f a = f b -> a = b.
Proof.
  induction l as [|x l IH]; cbn; intros ND a b; [intros []|]. inversion_clear ND as [|? ? NI ND']. intros [<-|Ha] [<-|Hb] E; auto.
  - exfalso. apply NI. rewrite E. now apply in_map.
  - exfalso. apply NI. rewrite <- E. now apply in_map.
Qed.
Lemma robot_named bodies links root mb : tree_doc bodies links -> robot_of bodies links root mb -> (forall k, In k links -> jname (dl_joint k) <> jname root) -> NoDup (map jname (mb_joints mb)).
Proof.
  intros (_ & NB & NJ & NC & _) (W & PB & _ & R0 & _ & _ & RI) NR. apply (NoDup_nth _ (jname jd)). rewrite map_length, (wf_joints _ W). unfold nrBodies. rewrite (Permutation_length PB).
  assert (NBM : NoDup (map bname (mb_bodies mb))) by (eapply Permutation_NoDup; [|exact NB]; apply Permutation_map; now symmetry).
  assert (BL : List.length (mb_bodies mb) = List.length bodies) by (apply Permutation_length; auto).
  intros i k Li Lk E. rewrite !map_nth in E. destruct (Nat.eq_dec i k) as [|NE]; auto. exfalso.
  assert (G : forall i, 0 < i < List.length bodies -> exists l, In l links /\ nth i (mb_joints mb) jd = dl_joint l /\ bname (nth i (mb_bodies mb) bd) = dl_child l).
  { intros a Ha. destruct (RI a Ha) as (l & p & H1 & _ & H2 & _ & H3 & _). eauto. }
  destruct (Nat.eq_dec i 0) as [->|Ni]; [|destruct (Nat.eq_dec k 0) as [->|Nk]].
  - destruct (G k ltac:(lia)) as (l & H1 & H2 & _). apply (NR l H1). congruence.
  - destruct (G i ltac:(lia)) as (l & H1 & H2 & _). apply (NR l H1). congruence.
  - destruct (G i ltac:(lia)) as (l & H1 & H2 & H3). destruct (G k ltac:(lia)) as (l' & H1' & H2' & H3').
    assert (l = l') by (apply (uniq _ _ NJ); auto; congruence). subst l'.
    apply NE. apply (proj1 (NoDup_nth (map bname (mb_bodies mb)) (bname bd)) NBM); rewrite ?map_length, ?BL; auto. rewrite !map_nth. congruence.
Qed.
Lemma matched_in {A B} (Q : nat -> A -> B -> Prop) : forall l l' i, matched Q i l l' -> forall b, In b l' -> exists k a, In a l /\ Q k a b.
Proof. induction l as [|a l IH]; intros [|b l'] i; cbn; try contradiction. intros (H1 & H2) x [<-|Hx]; eauto. destruct (IH _ _ H2 x Hx) as (k & y & H3 & H4). eauto. Qed.
Lemma matched_idx {A B} (Q : nat -> A -> B -> Prop) : forall l l' i, matched Q i l l' -> forall b, In b l' -> exists k a, nth_error l k = Some a /\ Q (i + k) a b.
Proof.
  induction l as [|a l IH]; intros [|b l'] i; cbn [matched In]; try contradiction. intros (H1 & H2) x [<-|Hx]; [exists 0, a; split; auto; now rewrite Nat.add_0_r|].
  destruct (IH _ _ H2 x Hx) as (k & y & H3 & H4). exists (S k), y. split; auto. now rewrite Nat.add_succ_r.
Qed.
Lemma nth0_hd {A} (l : list A) d : nth 0 l d = hd d l. Proof. now destruct l. Qed.

Lemma urdf_reread fuel g p W rb name : exact_text W -> euler_ok (w_euler W) -> plain p -> ur_name rb = Some name ->
  (forall l, In l (ur_links rb) -> ulink_ok l /\ forall b, urdf_body_of p l b -> urdf_able_body b) ->
  (forall u, In u (ur_joints rb) -> ujoint_ok u /\ fst (ujoint_names u) <> "Root"%string /\
     forall lims k, urdf_link_of p lims u k -> urdf_able_joint (pp_suffix p) lims (dl_joint k) /\ urdf_able_frame (w_euler W) (dl_X k)) ->
  tree_names (map ulink_name (ur_links rb)) (map ujoint_names (ur_joints rb)) -> hd EmptyString (map ulink_name (ur_links rb)) <> EmptyString -> List.length (ur_links rb) <= fuel ->
  exists r d r', from_urdf fuel g (Some rb) p = Ok r /\ to_urdf W r = Ok d /\ from_urdf fuel g d p = Ok r' /\ pr_mb r' = pr_mb r /\ pr_mbc r' = pr_mbc r /\ pr_name r' = pr_name r /\
    forall i j, 0 < i -> nth_error (mb_joints (pr_mb r)) i = Some j -> same_limits (pr_limits r) (pr_limits r') (jname j).
Proof.
  intros ET EO PL NM LO JO TN NE HF. pose proof PL as (PF & PT & PV & PB).
  destruct (urdf_read fuel g p rb name) as (r & bodies & links & E & _ & MB & ML & RO & TR); auto; [now split|intros l Hl; apply LO; auto|intros u Hu; apply JO; auto|].
  assert (EB : map bname bodies = map ulink_name (ur_links rb)). { rewrite <- (numbered_map ulink_name _ 0). apply matched_map. eapply matched_impl; [|exact MB]. intros k a b _ (H & _). exact H. }
  assert (EL : map names_k links = map ujoint_names (ur_joints rb)). { rewrite <- (numbered_map ujoint_names _ 0). apply matched_map. eapply matched_impl; [|exact ML]. intros k a b _ (H & _). exact H. }
  pose proof (tree_doc_of bodies links _ _ TN EB EL) as TD. pose proof RO as (W0 & PB' & B0 & _ & _ & _ & RI).
  assert (BL : List.length (mb_bodies (pr_mb r)) = List.length bodies) by (apply Permutation_length; auto).
  destruct (urdf_round W g p r ET EO PL TR) as (d & TD' & H).
  - split.
    + eapply robot_named; eauto. intros k Hk. destruct (matched_in _ _ _ _ ML k Hk) as (_ & u & Hu & (Q1 & _)). destruct (JO u Hu) as (_ & N & _). rewrite <- Q1 in N. exact N.
    + rewrite B0, nth0_hd. intro E0. apply NE. rewrite <- EB. destruct bodies as [|b bs]; [reflexivity|]. exact E0.
  - intros b Hb. apply (Permutation_in _ PB') in Hb. destruct (matched_in _ _ _ _ MB b Hb) as (_ & l & Hl & Hb'). now apply (LO l Hl).
  - intros i j Hi Hj. assert (Li : i < List.length bodies). { rewrite <- BL. change (i < nrBodies (pr_mb r)). rewrite <- (wf_joints _ W0). apply nth_error_Some. congruence. }
    destruct (RI i ltac:(lia)) as (k & pp & Hk & _ & EJ & _). rewrite (nth_error_nth _ _ _ Hj) in EJ. subst j. destruct (matched_in _ _ _ _ ML k Hk) as (_ & u & Hu & Q). now apply (JO u Hu).
  - intros i X Hi Hj. assert (Li : i < List.length bodies). { rewrite <- BL. change (i < nrBodies (pr_mb r)). rewrite <- (wf_Xt_len _ W0). apply nth_error_Some. congruence. }
    destruct (RI i ltac:(lia)) as (k & pp & Hk & _ & _ & EX & _). rewrite (nth_error_nth _ _ _ Hj) in EX. subst X. destruct (matched_in _ _ _ _ ML k Hk) as (_ & u & Hu & Q). now apply (JO u Hu) in Q.
  - destruct (H fuel) as (r' & E' & K). { unfold nrBodies. rewrite BL, <- (matched_len _ _ _ _ MB). exact HF. } exists r, d, r'. auto.
Qed.

Lemma yaml_reread fuel g p euler rb name deg ls js : euler_ok euler -> plain p -> yr_name rb = Some name -> yr_deg rb = Some deg -> yr_links rb = Some ls -> yr_joints rb = Some js ->
  (forall i l, nth_error ls i = Some l -> ylink_ok l /\ forall b, yaml_body_of p deg (ylink_name (S i) l) l b -> yaml_able_body b) ->
  (forall i j, nth_error js i = Some j -> yjoint_ok p (fst (yjoint_names (S i) j)) j /\ fst (yjoint_names (S i) j) <> "Root"%string /\
     forall lims k, yaml_link_of p deg lims (yjoint_names (S i) j) j k -> yaml_able_joint lims (dl_joint k) /\ yaml_able_frame euler (dl_X k)) ->
  tree_names (numbered ylink_name 1 ls) (numbered yjoint_names 1 js) -> hd EmptyString (numbered ylink_name 1 ls) <> EmptyString -> List.length ls <= fuel ->
  exists r d r', from_yaml fuel g (Some rb) p = Ok r /\ to_yaml euler r = Ok d /\ from_yaml fuel g d p = Ok r' /\ pr_mb r' = pr_mb r /\ pr_mbc r' = pr_mbc r /\ pr_name r' = pr_name r /\
    forall i j, 0 < i -> nth_error (mb_joints (pr_mb r)) i = Some j -> same_limits (pr_limits r) (pr_limits r') (jname j).
Proof.
  intros EO PL NM DG LS JS LO JO TN NE HF. pose proof PL as (PF & PT & PV & PB).
  destruct (yaml_read fuel g p rb name deg ls js) as (r & bodies & links & E & _ & MB & ML & RO & TR); auto; [now split|intros l Hl; apply In_nth_error in Hl; destruct Hl as (i & Hl); eapply LO; eauto|intros i j Hj; eapply JO; eauto|].
  assert (EB : map bname bodies = numbered ylink_name 1 ls). { apply matched_map. eapply matched_impl; [|exact MB]. intros k a b _ (H & _). exact H. }
  assert (EL : map names_k links = numbered yjoint_names 1 js). { apply matched_map. eapply matched_impl; [|exact ML]. intros k a b _ (H & _). exact H. }
  pose proof (tree_doc_of bodies links _ _ TN EB EL) as TD. pose proof RO as (W0 & PB' & B0 & _ & _ & _ & RI).
  assert (BL : List.length (mb_bodies (pr_mb r)) = List.length bodies) by (apply Permutation_length; auto).
  destruct (yaml_round euler g p r EO PL TR) as (d & TD' & H).
  - split.
    + eapply robot_named; eauto. intros k Hk. destruct (matched_idx _ _ _ _ ML k Hk) as (i & u & Hu & (Q1 & _)). destruct (JO i u Hu) as (_ & N & _). cbn [Nat.add] in Q1. rewrite <- Q1 in N. exact N.
    + rewrite B0, nth0_hd. intro E0. apply NE. rewrite <- EB. destruct bodies as [|b bs]; [reflexivity|]. exact E0.
  - intros b Hb. apply (Permutation_in _ PB') in Hb. destruct (matched_idx _ _ _ _ MB b Hb) as (i & l & Hl & Hb'). apply (proj2 (LO i l Hl)). exact Hb'.
  - intros i j Hi Hj. assert (Li : i < List.length bodies). { rewrite <- BL. change (i < nrBodies (pr_mb r)). rewrite <- (wf_joints _ W0). apply nth_error_Some. congruence. }
    destruct (RI i ltac:(lia)) as (k & pp & Hk & _ & EJ & _). rewrite (nth_error_nth _ _ _ Hj) in EJ. subst j. destruct (matched_idx _ _ _ _ ML k Hk) as (i' & u & Hu & Q). apply (JO i' u Hu) in Q. apply Q.
  - intros i X Hi Hj. assert (Li : i < List.length bodies). { rewrite <- BL. change (i < nrBodies (pr_mb r)). rewrite <- (wf_Xt_len _ W0). apply nth_error_Some. congruence. }
    destruct (RI i ltac:(lia)) as (k & pp & Hk & _ & _ & EX & _). rewrite (nth_error_nth _ _ _ Hj) in EX. subst X. destruct (matched_idx _ _ _ _ ML k Hk) as (i' & u & Hu & Q). apply (JO i' u Hu) in Q. apply Q.
  - destruct (H fuel) as (r' & E' & K). { unfold nrBodies. rewrite BL, <- (matched_len _ _ _ _ MB). exact HF. } exists r, d, r'. auto.
Qed.
