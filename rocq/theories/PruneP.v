(** Proofs about filtered links: the robot that is read. *)
From Coq Require Import Reals String ZArith Bool Arith List Lia Permutation.
From Verif Require Import Res SMap Vec Sva JointM MultiBodyM KinM GraphM ParserM YamlM Spec SpecGraph SpecParser SpecDoc SpecElem SpecFilter DocGraphP DocP DocReadP DocYamlP DocWholeP ElemP FilterP ForestP.
Import ListNotations.
Open Scope nat_scope.

Definition j_parent (j : string * (string * string)) := fst (snd j).
Definition j_child (j : string * (string * string)) := snd (snd j).
Definition forest_names (ns : list string) (js : list (string * (string * string))) : Prop :=
  ns <> [] /\ NoDup ns /\ NoDup (map fst js) /\ NoDup (map j_child js) /\ ~ In (hd EmptyString ns) (map j_child js) /\
  (forall j, In j js -> In (j_parent j) ns /\ In (j_child j) ns) /\
  exists rank : string -> nat, forall j, In j js -> rank (j_parent j) < rank (j_child j).
Lemma tree_first ns js : tree_names ns js -> ~ In (hd EmptyString ns) (map j_child js).
Proof.
  intros (NE & _ & _ & _ & CH & EN & rank & RK) H.
  assert (K : forall n, In n ns -> In n (map j_child js)).
  { intros n Hn. destruct ns as [|n0 ns]; [destruct Hn|]. cbn in *. destruct Hn as [<-|Hn]; [exact H|]. now apply CH. }
  assert (D : forall r n, rank n < r -> In n ns -> False).
  { induction r as [|r IH]; intros n L Hn; [lia|]. apply K in Hn. apply in_map_iff in Hn. destruct Hn as (j & Ej & Hj). pose proof (RK j Hj) as R. apply (IH (j_parent j)); [unfold j_parent, j_child in *; rewrite Ej in R; lia|]. apply EN, Hj. }
  destruct ns as [|n0 ns]; [congruence|]. apply (D (S (rank n0)) n0); [lia|now left].
Qed.
Lemma NoDup_map_filter {A B} (f : A -> B) P l : NoDup (map f l) -> NoDup (map f (filter P l)).
Proof.
  induction l as [|x l IH]; intro H; [exact H|]. cbn in *. inversion_clear H as [|? ? N1 N2]. destruct (P x); [|auto]. cbn. constructor; [|auto]. intro K. apply N1. apply in_map_iff in K. destruct K as (y & <- & K). apply filter_In in K. now apply in_map.
Qed.
Lemma prune_names keep ns js : tree_names ns js -> keep (hd EmptyString ns) = true ->
  forest_names (filter keep ns) (filter (fun j => keep (j_parent j) && keep (j_child j)) js).
Proof.
  intros TN K. pose proof (tree_first ns js TN) as F. destruct TN as (NE & N1 & N2 & N3 & _ & EN & rank & RK).
  assert (H0 : hd EmptyString (filter keep ns) = hd EmptyString ns). { destruct ns as [|n ns]; [congruence|]. cbn in *. now rewrite K. }
  split. { intro E. destruct ns as [|n ns]; [congruence|]. cbn in *. rewrite K in E. discriminate. }
  split; [now apply NoDup_filter|]. split; [now apply NoDup_map_filter|]. split; [now apply (NoDup_map_filter j_child)|]. split.
  { rewrite H0. intro H. apply F. apply in_map_iff in H. destruct H as (j & E & Hj). apply filter_In in Hj. rewrite <- E. apply in_map, Hj. }
  split.
  - intros j Hj. apply filter_In in Hj. destruct Hj as (Hj & KJ). apply andb_prop in KJ. destruct (EN j Hj). rewrite !filter_In. unfold j_parent, j_child in *. tauto.
  - exists rank. intros j Hj. apply filter_In in Hj. apply (RK j), Hj.
Qed.
Lemma forest_doc_of bodies links ns js : forest_names ns js -> map bname bodies = ns -> map names_k links = js -> forest_doc bodies links.
Proof.
  intros (NE & N1 & N2 & N3 & NF & EN & rank & RK) <- <-. rewrite map_map in N2, N3, NF. cbn [names_k fst snd j_child] in N2, N3, NF.
  split; [intros ->; now apply NE|]. do 3 (split; [assumption|]). split; [|split].
  - destruct bodies as [|b bs]; [now destruct NE|]. exact NF.
  - intros k Hk. apply (EN (names_k k)). now apply in_map.
  - exists rank. intros k Hk. apply (RK (names_k k)). now apply in_map.
Qed.
Definition reads_part (fixed : bool) (r : PResult) (bodies : list Body) (links : list DLink) : Prop :=
  reached_part bodies links (mkJ (if fixed then Fixed else Free) unitZ true "Root") (pr_mb r).
Lemma graph_reads_forest fuel g fixed name ns js : forest_names ns js -> List.length ns <= fuel ->
  graph_reads fuel g fixed name ns js (fun r bodies links => reads_part fixed r bodies links).
Proof.
  intros TN HF bodies links lims EB EL GL. assert (LB : List.length bodies = List.length ns) by (rewrite <- EB; now rewrite map_length).
  destruct (read_forest g fuel fixed bodies links lims name (forest_doc_of bodies links _ _ TN EB EL) GL ltac:(lia)) as (s & r & H1 & H2 & _ & H3 & H4 & _ & keep & H5 & H6). exists s, r. do 4 (split; [assumption|]).
  destruct TN as (NE & _). destruct bodies as [|b bs]; [rewrite <- EB in NE; now destruct NE|]. exists b, keep. split; [reflexivity|]. split; [exact H5|exact H6].
Qed.
Lemma is_named_of {A} (nm : A -> string) Q ls l : NoDup (map nm ls) -> In l ls -> is_named nm Q ls (nm l) = Q l.
Proof.
  intros ND Hl. apply eq_true_iff_eq. unfold is_named. rewrite existsb_exists. split.
  - intros (x & Hx & E). apply andb_prop in E. destruct E as (E1 & E2). apply String.eqb_eq in E2.
    assert (x = l); [|now subst]. clear - ND Hl Hx E2. induction ls as [|y ls IH]; [destruct Hl|]. cbn in ND. inversion_clear ND as [|? ? N1 N2]. destruct Hl as [<-|Hl], Hx as [<-|Hx]; auto.
    + exfalso. apply N1. rewrite E2. now apply in_map.
    + exfalso. apply N1. rewrite <- E2. now apply in_map.
  - intro H. exists l. split; [exact Hl|]. now rewrite H, String.eqb_refl.
Qed.
Lemma map_filter_names {A B} (f : A -> B) P (Q : B -> bool) l : (forall x, In x l -> Q (f x) = P x) -> map f (filter P l) = filter Q (map f l).
Proof. apply filter_map_in. Qed.

Lemma filter_short {A} (P : A -> bool) l : List.length (filter P l) <= List.length l.
Proof. induction l as [|x l IH]; cbn; [lia|]. destruct (P x); cbn; lia. Qed.

(** ** URDF. *)
Lemma u_fix_names u : ujoint_names (u_fix u) = ujoint_names u.
Proof. reflexivity. Qed.
Lemma u_fix_ok u : ujoint_ok u -> ujoint_ok (u_fix u).
Proof. intros (H1 & H2 & H3). split; [exact H1|]. split; [discriminate|]. exact H3. Qed.
Theorem urdf_pruned fuel g p rb name : pp_base p = EmptyString -> ur_name rb = Some name ->
  (forall l, In l (ur_links rb) -> ulink_ok l) -> (forall u, In u (ur_joints rb) -> ujoint_ok u) ->
  tree_names (map ulink_name (ur_links rb)) (map ujoint_names (ur_joints rb)) ->
  (forall l, hd_error (ur_links rb) = Some l -> u_out p l = false) -> List.length (ur_links rb) <= fuel ->
  exists r bodies links, from_urdf fuel g (Some rb) p = Ok r /\ pr_name r = name /\
    matched (fun _ => urdf_link_says p) 0 (ur_links (urdf_edited p rb)) bodies /\
    matched (fun _ => urdf_joint_says p (pr_limits r)) 0 (ur_joints (urdf_edited p rb)) links /\ reads_part (pp_fixed p) r bodies links.
Proof.
  intros PB NM LO JO TN HD HF.
  assert (UN : urdf_named rb). { split; [intros l Hl; apply (LO l Hl)|]. intros u Hu. destruct (JO u Hu) as (_ & _ & H1 & H2 & _). auto. }
  set (keep := fun n => negb (is_named ulink_name (u_out p) (ur_links rb) n)).
  pose proof TN as (NE & ND & _).
  assert (EL : map ulink_name (ur_links (urdf_edited p rb)) = filter keep (map ulink_name (ur_links rb))).
  { cbn [urdf_edited ur_links]. apply map_filter_names. intros l Hl. unfold keep. now rewrite is_named_of. }
  assert (EJ : map ujoint_names (ur_joints (urdf_edited p rb)) = filter (fun j => keep (j_parent j) && keep (j_child j)) (map ujoint_names (ur_joints rb))).
  { cbn [urdf_edited ur_joints]. rewrite map_map. rewrite <- (map_filter_names ujoint_names (fun u => keep (u_parent u) && keep (u_child u))) by reflexivity.
    apply map_ext. intro u. destruct (is_named _ _ _ _); reflexivity. }
  assert (K0 : keep (hd EmptyString (map ulink_name (ur_links rb))) = true).
  { destruct (ur_links rb) as [|l ls] eqn:E; [now destruct NE|]. cbn [map hd]. unfold keep. rewrite <- E. rewrite is_named_of; [rewrite (HD l eq_refl); reflexivity|rewrite E; exact ND|rewrite E; now left]. }
  pose proof (prune_names keep _ _ TN K0) as FN. rewrite <- EL, <- EJ in FN. pose proof FN as (NE' & ND' & NJ' & _).
  destruct (urdf_reads_as fuel g (no_filter p) (urdf_edited p rb) name (reads_part (pp_fixed p))) as (r & bs & ks & R1 & R2 & R3 & R4 & R5).
  { split; [reflexivity|]. split; [reflexivity|exact PB]. }
  { exact NM. }
  { intros l Hl. cbn [urdf_edited ur_links] in Hl. apply filter_In in Hl. apply LO, Hl. }
  { intros u Hu. cbn [urdf_edited ur_joints] in Hu. apply in_map_iff in Hu. destruct Hu as (u0 & <- & Hu). apply filter_In in Hu. destruct (is_named ulink_name (u_fixed p) (ur_links rb) (u_child u0)); [apply u_fix_ok|]; apply (JO u0), Hu. }
  { intro E. rewrite E in NE'. now apply NE'. }
  { exact ND'. }
  { exact NJ'. }
  { apply graph_reads_forest; [exact FN|]. rewrite map_length. cbn [urdf_edited ur_links]. etransitivity; [apply filter_short|exact HF]. }
  exists r, bs, ks. split; [rewrite (urdf_filter fuel g p rb UN); exact R1|]. split; [exact R2|].
  split; [eapply matched_impl; [|exact R3]; intros k a b _ H; now apply (urdf_body_says p)|]. split; [|exact R5].
  eapply matched_impl; [|exact R4]. intros k a b _ H. now apply (urdf_link_says_so p).
Qed.

(** ** YAML. *)
Lemma numbered_ext {A B} (f : nat -> A -> B) (h : A -> B) : forall l i, (forall k x, In x l -> f k x = h x) -> numbered f i l = map h l.
Proof. induction l as [|x l IH]; intros i H; cbn; [reflexivity|]. rewrite H by (now left). f_equal. apply IH. intros. apply H. now right. Qed.
Lemma ylink_y i l : yl_name l <> None -> ylink_name i l = y_name l.
Proof. unfold ylink_name, y_name. destruct (yl_name l); [reflexivity|congruence]. Qed.
Lemma yjoint_y i j : yj_name j <> None -> yj_parent j <> None -> yj_child j <> None -> yjoint_names i j = y_names j.
Proof. unfold yjoint_names, y_names, y_parent, y_child. destruct (yj_name j), (yj_parent j), (yj_child j); intros; try congruence; reflexivity. Qed.
Lemma y_fix_ok p n j : yjoint_ok p n j -> yjoint_ok p n (y_fix j).
Proof. intros (H1 & H2 & _). split; [exact H1|]. split; [exact H2|]. cbn [y_fix yj_type]. right. exists 0. split; [cbn; auto 10|]. unfold ylimits_ok. destruct (yj_limits (y_fix j)); auto. Qed.
Theorem yaml_pruned fuel g p rb name deg ls js : pp_base p = EmptyString -> yr_name rb = Some name -> yr_deg rb = Some deg -> yr_links rb = Some ls -> yr_joints rb = Some js ->
  yaml_named rb -> (forall l, In l ls -> SpecDoc.ylink_ok l) -> (forall j, In j js -> yjoint_ok p (fst (y_names j)) j) ->
  tree_names (map y_name ls) (map y_names js) -> (forall l, hd_error ls = Some l -> y_out p l = false /\ y_name l <> EmptyString) -> List.length ls <= fuel ->
  exists r bodies links ls' js', yr_links (yaml_edited p rb) = Some ls' /\ yr_joints (yaml_edited p rb) = Some js' /\
    from_yaml fuel g (Some rb) p = Ok r /\ pr_name r = name /\
    matched (fun _ l => yaml_link_says p deg (y_name l) l) 1 ls' bodies /\
    matched (fun _ j => yaml_joint_says p deg (pr_limits r) (y_names j) j) 1 js' links /\ reads_part (pp_fixed p) r bodies links.
Proof.
  intros PB NM DG LS JS YN LO JO TN HD HF. pose proof YN as (YL & YJ). specialize (YL ls). specialize (YJ js).
  set (keep := fun n => negb (is_named y_name (y_out p) ls n)). pose proof TN as (NE & ND & _).
  set (ls' := filter (fun l => negb (y_out p l)) ls).
  set (js' := map (fun j => if is_named y_name (y_fixed p) ls (y_child j) then y_fix j else j) (filter (fun j => negb (is_named y_name (y_out p) ls (y_parent j)) && negb (is_named y_name (y_out p) ls (y_child j))) js)).
  assert (E1 : yr_links (yaml_edited p rb) = Some ls') by (cbn [yaml_edited yr_links]; rewrite LS; reflexivity).
  assert (E2 : yr_joints (yaml_edited p rb) = Some js') by (cbn [yaml_edited yr_joints]; rewrite JS, LS; reflexivity).
  assert (YL' : forall l, In l ls' -> yl_name l <> None). { intros l Hl. apply filter_In in Hl. now apply YL. }
  assert (YJ' : forall j, In j js' -> (yj_name j <> None /\ yj_parent j <> None /\ yj_child j <> None) /\ yjoint_ok p (fst (y_names j)) j).
  { intros u Hu. apply in_map_iff in Hu. destruct Hu as (u0 & <- & Hu). apply filter_In in Hu. destruct Hu as (Hu & _). destruct (is_named _ _ _ _); (split; [apply (YJ u0 JS Hu)|]); [apply y_fix_ok; now apply (JO u0)|now apply JO]. }
  assert (NL : numbered ylink_name 1 ls' = map y_name ls') by (apply numbered_ext; intros; now apply ylink_y, YL').
  assert (NJ : numbered yjoint_names 1 js' = map y_names js') by (apply numbered_ext; intros k x Hx; destruct (YJ' x Hx) as ((? & ? & ?) & _); now apply yjoint_y).
  assert (EL : map y_name ls' = filter keep (map y_name ls)). { apply map_filter_names. intros l Hl. unfold keep. now rewrite is_named_of. }
  assert (EJ : map y_names js' = filter (fun j => keep (j_parent j) && keep (j_child j)) (map y_names js)).
  { unfold js'. rewrite map_map. rewrite <- (map_filter_names y_names (fun u => keep (y_parent u) && keep (y_child u))) by reflexivity. apply map_ext. intro u. destruct (is_named _ _ _ _); reflexivity. }
  assert (K0 : keep (hd EmptyString (map y_name ls)) = true /\ hd EmptyString (map y_name ls) <> EmptyString).
  { destruct ls as [|l0 ls0] eqn:E; [now destruct NE|]. destruct (HD l0 eq_refl) as (H1 & H2). split; [|exact H2]. cbn [map hd]. unfold keep. rewrite is_named_of; [rewrite H1; reflexivity|exact ND|now left]. }
  destruct K0 as (K0 & K1). pose proof (prune_names keep _ _ TN K0) as FN. rewrite <- EL, <- EJ in FN. pose proof FN as (NE' & ND' & NJ' & _).
  destruct (yaml_reads_as fuel g (no_filter p) (yaml_edited p rb) name deg ls' js' (reads_part (pp_fixed p))) as (r & bs & ks & R1 & R2 & R3 & R4 & R5).
  { split; [reflexivity|]. split; [reflexivity|exact PB]. }
  { exact NM. }
  { exact DG. }
  { exact E1. }
  { exact E2. }
  { intros l Hl. apply filter_In in Hl. apply LO, Hl. }
  { intros i j E. apply nth_error_In in E. destruct (YJ' j E) as ((? & ? & ?) & OK). rewrite yjoint_y by auto. exact OK. }
  { intro E. rewrite E in NE'. now apply NE'. }
  { rewrite NL. exact ND'. }
  { rewrite NJ. exact NJ'. }
  { rewrite NL, EL. destruct ls as [|l0 ls0]; [now destruct NE|]. cbn [map hd filter] in K0, K1 |- *. rewrite K0. exact K1. }
  { rewrite NL, NJ. apply graph_reads_forest; [exact FN|]. rewrite map_length. etransitivity; [apply filter_short|exact HF]. }
  exists r, bs, ks, ls', js'. split; [exact E1|]. split; [exact E2|]. split; [rewrite (yaml_filter fuel g p rb YN); exact R1|]. split; [exact R2|].
  split. { eapply matched_impl; [|exact R3]. intros k a b Ha H. cbv beta in H. rewrite ylink_y in H by (now apply YL'). now apply (yaml_body_says p). }
  split; [|exact R5].
  eapply matched_impl; [|exact R4]. intros k a b Ha H. destruct (YJ' a Ha) as ((? & ? & ?) & OK). cbv beta in H. rewrite yjoint_y in H by auto. now apply (yaml_link_says_so p).
Qed.
