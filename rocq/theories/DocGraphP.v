(** Proofs about the graph the readers make: bodies numbered in pre-order, each linked to its
    parent, give the same multibody back. *)
From Coq Require Import Reals String ZArith Bool Arith List Lia.
From Verif Require Import Res ResP SMap Vec VecP Sva SvaP JointM MultiBodyM GraphM ParserM Spec SpecGraph DynP GraphP GraphWalkP GraphTreeP MbP.
Import ListNotations.
Open Scope nat_scope.

Lemma mfind_fold {A B} (key : A -> string) (v : A -> B) l : forall m k,
  mfind (fold_left (fun m a => mset m (key a) (v a)) l m) k =
  match find (fun a => String.eqb k (key a)) (rev l) with Some a => Some (v a) | None => mfind m k end.
Proof.
  induction l as [|a l IH] using rev_ind; intros m k; [reflexivity|]. rewrite fold_left_app, rev_app_distr. cbn [fold_left rev app find].
  destruct (String.eqb_spec k (key a)) as [->|N]; [apply mfind_mset_eq|]. rewrite mfind_mset_neq by auto. apply IH.
Qed.
Lemma mfind_fold_in {A B} (key : A -> string) (v : A -> B) l m a : In a l -> (forall b, In b l -> key b = key a -> b = a) ->
  mfind (fold_left (fun m a => mset m (key a) (v a)) l m) (key a) = Some (v a).
Proof.
  intros I U. rewrite mfind_fold. destruct (find _ (rev l)) as [b|] eqn:F.
  - apply find_some in F as (F1 & F2). apply in_rev in F1. apply String.eqb_eq in F2. now rewrite (U b F1 (eq_sym F2)).
  - apply (find_none _ _ F) in I || (apply in_rev in I; apply (find_none _ _ F) in I). now rewrite String.eqb_refl in I.
Qed.
Lemma mfind_fold_out {A B} (key : A -> string) (v : A -> B) l m k : (forall b, In b l -> key b <> k) ->
  mfind (fold_left (fun m a => mset m (key a) (v a)) l m) k = mfind m k.
Proof.
  intros N. rewrite mfind_fold. destruct (find _ (rev l)) as [b|] eqn:F; [|reflexivity].
  apply find_some in F as (F1 & F2). apply in_rev in F1. apply String.eqb_eq in F2. apply N in F1. congruence.
Qed.
Lemma filter_seq_out (f : nat -> bool) a n : (forall c, a <= c < a + n -> f c = false) -> filter f (seq a n) = [].
Proof.
  revert a. induction n as [|n IH]; intros a H; [reflexivity|]. cbn [seq filter]. rewrite H by lia. apply IH. intros. apply H. lia.
Qed.
Lemma filter_seq_in (f : nat -> bool) N n k : n + k <= N -> (forall c, c < N -> c < n \/ n + k <= c -> f c = false) ->
  filter f (seq 0 N) = filter f (seq n k).
Proof.
  intros L H. replace N with (n + (k + (N - (n + k)))) at 1 by lia. rewrite !seq_app, !filter_app. cbn [Nat.add].
  rewrite (filter_seq_out f 0 n) by (intros; apply H; lia). rewrite (filter_seq_out f (n + k)) by (intros; apply H; lia). now rewrite app_nil_r.
Qed.
Lemma mz_l A : mmul mzero A = mzero. Proof. apply M3_ext; cbn; ring. Qed.
Lemma mz_r A : mmul A mzero = mzero. Proof. apply M3_ext; cbn; ring. Qed.
Lemma maz_r A : madd A mzero = A. Proof. apply M3_ext; cbn; ring. Qed.
Lemma mcross_0 : mcross v0 = mzero. Proof. apply M3_ext; cbn; ring. Qed.
Lemma vsub_0 c m : vsub c (vscale m v0) = c. Proof. apply V3_ext; cbn; ring. Qed.
Lemma ptdualI_id I : ptdualI ptid I = I.
Proof.
  unfold ptdualI. cbn [rotE trR ptid]. cbv zeta. rewrite vsub_0, mcross_0, mz_l, mz_r, !maz_r, mmul_id_l. change (mtr mid) with mid. rewrite mmul_id_r, mapp_id.
  destruct I as [m c s]. cbn [imass imom iine]. f_equal. now destruct s.
Qed.
Lemma list_ext_e {A} (l l' : list A) : (forall i, nth_error l i = nth_error l' i) -> l = l'.
Proof.
  revert l'. induction l as [|a l IH]; intros [|b l'] H; auto; [specialize (H 0); discriminate|specialize (H 0); discriminate|].
  pose proof (H 0) as H0. injection H0 as ->. f_equal. apply IH. intro i. exact (H (S i)).
Qed.
Lemma set_fwd_same j : jfwd j = true -> set_forward j true = j.
Proof. destruct j. cbn. intros ->. reflexivity. Qed.

Section Build.
Variable N : nat.
Variable B : nat -> Body.
Variable J : nat -> Joint.
Variable P : nat -> nat.
Variable X : nat -> PT.
Hypothesis NB : forall i k, i < N -> k < N -> bname (B i) = bname (B k) -> i = k.
Hypothesis NJ : forall i k, 0 < i < N -> 0 < k < N -> jname (J i) = jname (J k) -> i = k.
Hypothesis LP : forall i, 0 < i < N -> P i < i.
Hypothesis FJ : forall i, 0 < i < N -> jfwd (J i) = true.

(** The links made by the joints 1 to m. *)
Definition kid (m i c : nat) : bool := (0 <? c) && (c <=? m) && (P c =? i).
Definition dkids (m i : nat) : list nat := filter (kid m i) (seq 0 N).
Definition darc (c : nat) : Arc := mkArc (X c) (J c) c.
Definition back (i : nat) : Arc := mkArc ptid (set_forward (J i) false) (P i).
Definition darcs (m i : nat) : list Arc := (if (0 <? i) && (i <=? m) then [back i] else []) ++ map darc (dkids m i).
Definition bmap (k : nat) : smap nat := fold_left (fun m i => mset m (bname (B i)) i) (seq 0 k) [].
Definition jmap (k : nat) : smap nat := fold_left (fun m i => mset m (jname (J (S i))) i) (seq 0 k) [].
(** The graph after k bodies, and after m joints. *)
Definition bst (k : nat) : GSt := (mkHeap (map (fun i => mkNode (B i) []) (seq 0 k)) [], mkGraph "Root" (seq 0 k) [] (bmap k) []).
Definition dst (m : nat) : GSt :=
  (mkHeap (map (fun i => mkNode (B i) (darcs m i)) (seq 0 N)) (map (fun i => J (S i)) (seq 0 m)),
   mkGraph "Root" (seq 0 N) (seq 0 m) (bmap N) (jmap m)).

Lemma bst_0 : bst 0 = empty_graph. Proof. reflexivity. Qed.
Lemma bst_S k : k < N -> grun (addBody (B k)) (bst k) = Ok (bst (S k)).
Proof.
  intro L. unfold grun, addBody, bst. cbn [gBody gRoot gNodes gJoints gJoint hNodes hJoints].
  unfold bmap at 1. rewrite mfind_fold_out.
  - cbn [mfind]. rewrite map_length, seq_length. rewrite seq_S, map_app. cbn [map Nat.add].
    do 2 f_equal. f_equal. unfold bmap. rewrite seq_S, fold_left_app. reflexivity.
  - intros b I E. apply in_seq in I. apply NB in E; lia.
Qed.
Lemma bst_all : dst 0 = bst N.
Proof.
  unfold dst, bst. cbn [map seq jmap fold_left]. do 2 f_equal. apply map_ext. intro i. f_equal.
  unfold darcs, dkids. destruct i; cbn [Nat.ltb Nat.leb andb app].
  - rewrite filter_seq_out; [reflexivity|]. intros c _. unfold kid. destruct c; reflexivity.
  - rewrite filter_seq_out; [reflexivity|]. intros c _. unfold kid. destruct c; reflexivity.
Qed.
Lemma kid_S m i c : kid (S m) i c = kid m i c || ((c =? S m) && (P (S m) =? i)).
Proof.
  unfold kid. destruct (Nat.ltb_spec 0 c), (Nat.leb_spec c (S m)), (Nat.leb_spec c m), (Nat.eqb_spec c (S m)); cbn [andb orb]; try lia; subst; auto.
  all: destruct (P c =? i); reflexivity.
Qed.
Lemma dkids_S m i : S m < N -> dkids (S m) i = dkids m i ++ (if P (S m) =? i then [S m] else []).
Proof.
  intro L. unfold dkids.
  assert (Z : forall M c, S (S m) <= c -> M <= S m -> kid M i c = false).
  { intros M c H1 H2. unfold kid. destruct (Nat.leb_spec c M); [lia|]. now rewrite andb_false_r. }
  rewrite (filter_seq_in (kid (S m) i) N 0 (S (S m))) by (try lia; intros; apply Z; lia).
  rewrite (filter_seq_in (kid m i) N 0 (S (S m))) by (try lia; intros; apply Z; lia).
  rewrite (seq_S (S m) 0). rewrite !filter_app, <- app_assoc. f_equal.
  - apply filter_ext_in. intros c Hc. apply in_seq in Hc. rewrite kid_S. destruct (Nat.eqb_spec c (S m)); [lia|]. now rewrite orb_false_r.
  - cbn [Nat.add filter]. rewrite kid_S, Nat.eqb_refl. cbn [andb].
    assert (K : kid m i (S m) = false). { unfold kid. destruct (Nat.leb_spec (S m) m); [lia|]. now rewrite andb_false_r. }
    rewrite K. cbn [orb app]. destruct (P (S m) =? i); reflexivity.
Qed.
Lemma dkids_none m i : m <= i -> m < N -> dkids m i = [].
Proof.
  intros H L. unfold dkids. apply filter_seq_out. intros c Hc. unfold kid. destruct (Nat.ltb_spec 0 c); auto. destruct (Nat.leb_spec c m); auto. cbn [andb].
  apply Nat.eqb_neq. specialize (LP c ltac:(lia)). lia.
Qed.
Lemma darcs_S m i : S m < N -> darcs (S m) i = if i =? S m then [back (S m)] else darcs m i ++ (if P (S m) =? i then [darc (S m)] else []).
Proof.
  intro L. unfold darcs. rewrite dkids_S by auto. assert (LS := LP (S m) ltac:(lia)). destruct (Nat.eqb_spec i (S m)) as [->|Ne].
  - rewrite Nat.leb_refl. cbn [Nat.ltb Nat.leb andb app]. rewrite dkids_none by lia. destruct (Nat.eqb_spec (P (S m)) (S m)); [lia|]. reflexivity.
  - rewrite map_app, app_assoc. f_equal.
    + f_equal. destruct (Nat.ltb_spec 0 i), (Nat.leb_spec i (S m)), (Nat.leb_spec i m); cbn [andb]; auto; lia.
    + destruct (P (S m) =? i); reflexivity.
Qed.
Lemma darcs_new m : S m < N -> darcs m (S m) = [].
Proof. intro L. unfold darcs. destruct (Nat.leb_spec (S m) m); [lia|]. rewrite andb_false_r. now rewrite dkids_none by lia. Qed.
Lemma bmap_find i : i < N -> mfind (bmap N) (bname (B i)) = Some i.
Proof.
  intro L. unfold bmap. apply (mfind_fold_in (fun i => bname (B i)) (fun i => i)); [apply in_seq; lia|].
  intros b I E. apply in_seq in I. apply NB; auto; lia.
Qed.
Lemma jmap_find m i : i < m -> m < N -> mfind (jmap m) (jname (J (S i))) = Some i.
Proof.
  intros L M. unfold jmap. apply (mfind_fold_in (fun i => jname (J (S i))) (fun i => i)); [apply in_seq; lia|].
  intros b I E. apply in_seq in I. apply NJ in E; lia.
Qed.
Lemma jmap_none m : S m < N -> mfind (jmap m) (jname (J (S m))) = None.
Proof. intro L. unfold jmap. rewrite mfind_fold_out; [reflexivity|]. intros b I E. apply in_seq in I. apply NJ in E; lia. Qed.
Lemma jmap_S m : jmap (S m) = mset (jmap m) (jname (J (S m))) m.
Proof. unfold jmap. rewrite seq_S, fold_left_app. reflexivity. Qed.
Lemma get_seq {A} (f : nat -> A) n i : i < n -> get (map f (seq 0 n)) i = Ok (f i).
Proof. intro L. apply get_Ok. rewrite nth_error_map. rewrite (nth_error_nth' _ 0) by now rewrite seq_length. cbn. now rewrite seq_nth. Qed.
Lemma upd_seq {A} (f : nat -> A) n i v : upd (map f (seq 0 n)) i v = map (fun k => if k =? i then v else f k) (seq 0 n).
Proof.
  apply (list_ext_nth _ _ v); [now rewrite upd_length, !map_length|]. intros k L. rewrite upd_length, map_length, seq_length in L.
  rewrite (nth_map_seq (fun k => if k =? i then v else f k)) by auto. destruct (Nat.eqb_spec k i) as [->|Ne].
  - rewrite nth_upd_eq; auto. now rewrite map_length, seq_length.
  - rewrite nth_upd_neq by auto. now apply nth_map_seq.
Qed.
Lemma set_seq {A} (f : nat -> A) n i v : i < n -> set (map f (seq 0 n)) i v = Ok (map (fun k => if k =? i then v else f k) (seq 0 n)).
Proof. intro L. rewrite set_ok by now rewrite map_length, seq_length. now rewrite upd_seq. Qed.
Lemma push_seq (f : nat -> Node) n js a e : a < n ->
  push_arc a e (mkHeap (map f (seq 0 n)) js) = Ok (mkHeap (map (fun k => if k =? a then with_arcs (f k) (nArcs (f k) ++ [e]) else f k) (seq 0 n)) js).
Proof.
  intro L. unfold push_arc, set_node. cbn [hNodes hJoints]. rewrite get_seq by auto. cbn [bind]. rewrite set_seq by auto. cbn [bind]. do 2 f_equal.
  apply map_ext. intro k. destruct (Nat.eqb_spec k a) as [->|]; reflexivity.
Qed.
Lemma dst_S m : S m < N ->
  (g <- grun (addJoint (J (S m))) (dst m) ;; grun (linkBodies (bname (B (P (S m)))) (X (S m)) (bname (B (S m))) ptid (jname (J (S m))) true) g) = Ok (dst (S m)).
Proof.
  intro L. assert (LS := LP (S m) ltac:(lia)). 
  assert (E1 : grun (addJoint (J (S m))) (dst m) = Ok (mkHeap (map (fun i => mkNode (B i) (darcs m i)) (seq 0 N)) (map (fun i => J (S i)) (seq 0 m) ++ [J (S m)]),
     mkGraph "Root" (seq 0 N) (seq 0 m ++ [m]) (bmap N) (mset (jmap m) (jname (J (S m))) m))).
  { unfold grun, addJoint, dst. cbn [gBody gRoot gNodes gJoints gJoint hNodes hJoints]. rewrite jmap_none by auto. now rewrite map_length, seq_length. }
  rewrite E1. cbn [bind]. unfold grun. rewrite linkBodies_all. unfold gmod, link_all.
  cbn [gBody gRoot gNodes gJoints gJoint hNodes hJoints]. unfold mat_. rewrite !bmap_find by lia. cbn [bind]. rewrite mfind_mset_eq. cbn [bind].
  assert (GJ : get (map (fun i => J (S i)) (seq 0 m) ++ [J (S m)]) m = Ok (J (S m))).
  { replace (map (fun i => J (S i)) (seq 0 m) ++ [J (S m)]) with (map (fun i => J (S i)) (seq 0 (S m))) by (rewrite seq_S, map_app; reflexivity). exact (get_seq (fun i => J (S i)) (S m) m (Nat.lt_succ_diag_r m)). }
  rewrite GJ. cbn [bind]. rewrite FJ by lia. cbn [negb]. rewrite set_fwd_same by (apply FJ; lia).
  rewrite push_seq by lia. cbn [bind]. rewrite push_seq by lia. cbn [bind].
  unfold dst. rewrite jmap_S. rewrite !(seq_S m 0), map_app. cbn [map Nat.add]. do 3 f_equal. apply map_ext_in. intros i I. apply in_seq in I.
  rewrite darcs_S by auto. destruct (Nat.eqb_spec i (S m)) as [->|Ne].
  - destruct (Nat.eqb_spec (S m) (P (S m))); [lia|]. cbn [with_arcs nBody nArcs]. rewrite darcs_new by auto. reflexivity.
  - rewrite (Nat.eqb_sym (P (S m)) i). destruct (i =? P (S m)); cbn [with_arcs nBody nArcs]; [reflexivity|now rewrite app_nil_r].
Qed.
(** *** The finished graph. *)
Definition dheap : Heap := fst (dst (N - 1)).
Definition fr (n : nat) : option nat := match n with O => None | _ => Some (P n) end.
Lemma dheap_arcs i : i < N -> arcs_at dheap i = (if 0 <? i then [back i] else []) ++ map darc (filter (kid (N - 1) i) (seq 0 N)).
Proof.
  intro L. unfold dheap, arcs_at, dst. cbn [fst hNodes]. rewrite nth_error_map, (nth_error_nth' _ 0) by now rewrite seq_length.
  rewrite seq_nth by auto. cbn [option_map Nat.add nArcs]. unfold darcs, dkids. destruct (Nat.leb_spec i (N - 1)); [|lia]. now rewrite andb_true_r.
Qed.
Lemma dheap_body i : i < N -> body_at dheap i = B i.
Proof.
  intro L. unfold dheap, body_at, dst. cbn [fst hNodes]. rewrite nth_error_map, (nth_error_nth' _ 0) by now rewrite seq_length.
  rewrite seq_nth by auto. reflexivity.
Qed.
Lemma dheap_out i : i < N -> out_arcs dheap (fr i) i = map darc (filter (kid (N - 1) i) (seq 0 N)).
Proof.
  intro L. unfold out_arcs. rewrite dheap_arcs by auto. rewrite filter_app.
  assert (K : forall c, In c (filter (kid (N - 1) i) (seq 0 N)) -> 0 < c /\ c < N /\ P c = i).
  { intros c Hc. apply filter_In in Hc as (H1 & H2). apply in_seq in H1. unfold kid in H2. apply andb_true_iff in H2 as (H2 & H3). apply andb_true_iff in H2 as (H2 & _).
    apply Nat.ltb_lt in H2. apply Nat.eqb_eq in H3. lia. }
  assert (E1 : filter (fun e => negb (is_from (fr i) e)) (if 0 <? i then [back i] else []) = []).
  { destruct i as [|i]; [reflexivity|]. cbn [Nat.ltb Nat.leb filter fr is_from back aNext]. now rewrite Nat.eqb_refl. }
  rewrite E1. cbn [app]. revert K. generalize (filter (kid (N - 1) i) (seq 0 N)) as l. induction l as [|c l IH]; intro K; [reflexivity|]. cbn [map filter].
  destruct (K c (or_introl eq_refl)) as (K1 & K2 & K3). rewrite IH by (intros; apply K; now right).
  destruct i as [|i]; [reflexivity|]. cbn [fr is_from darc aNext]. destruct (Nat.eqb_spec c (P (S i))) as [E|]; [|reflexivity].
  exfalso. assert (P (S i) < S i) by (apply LP; lia). assert (P c < c) by (apply LP; lia). lia.
Qed.
(** The tree with the bodies numbered in the order they are reached. *)
Definition krel {A} (sz : A -> nat) (f : nat -> A -> Arc * gtree) : nat -> list A -> list (Arc * gtree) :=
  fix go n ks := match ks with [] => [] | k :: ks => f n k :: go (n + sz k) ks end.
Definition gsize (t : gtree) : nat := length (gnodes t).
Fixpoint relab (n : nat) (t : gtree) : gtree :=
  match t with GT _ ks => GT n (krel (fun k => gsize (snd k)) (fun m k => (darc m, relab m (snd k))) (S n) ks) end.
Lemma gsize_GT a ks : gsize (GT a ks) = S (list_sum (map (fun k => gsize (snd k)) ks)).
Proof.
  unfold gsize. cbn [gnodes length]. f_equal. induction ks as [|k ks IH]; [reflexivity|]. cbn [flat_map map list_sum fold_right]. rewrite app_length. f_equal. exact IH.
Qed.
Lemma relab_nodes t : forall n, gnodes (relab n t) = seq n (gsize t).
Proof.
  induction t as [a ks IH] using gtree_rect'. intro n. rewrite gsize_GT. cbn [relab gnodes seq]. f_equal. generalize (S n) as m. clear n.
  induction ks as [|(e, t) ks IHk]; intro m; cbn [krel flat_map map list_sum fold_right snd]; [reflexivity|].
  rewrite seq_app. f_equal; [apply (IH e t (or_introl eq_refl))|]. apply IHk. intros e' t' H. apply (IH e' t'). now right.
Qed.
Lemma gsize_pos t : 0 < gsize t. Proof. destruct t. unfold gsize. cbn. lia. Qed.
Lemma gheight_le t : gheight t <= gsize t.
Proof.
  induction t as [a ks IH] using gtree_rect'. rewrite gsize_GT. cbn [gheight]. apply le_n_S. apply list_max_le. rewrite Forall_forall. intros x Hx.
  apply in_map_iff in Hx as ((e, t) & <- & H). cbn [snd]. specialize (IH e t H). apply in_split in H as (l1 & l2 & ->). rewrite map_app, list_sum_app. cbn [map list_sum fold_right snd]. 
  change (fold_right plus 0 ?l) with (list_sum l). lia.
Qed.
(** [P] is the numbering of the parents in [t], whose bodies are n, n+1, ... *)
Lemma pre_len h t from par j X0 Xb n : length (pre h from par j X0 Xb n t) = gsize t.
Proof. unfold gsize. rewrite <- (pre_nodes h t from par j X0 Xb n). now rewrite map_length. Qed.
Lemma kid_iff z c : c < N -> kid (N - 1) z c = (0 <? c) && (P c =? z).
Proof. intro L. unfold kid. destruct (Nat.leb_spec c (N - 1)); [|lia]. now rewrite andb_true_r. Qed.
Lemma relab_unf h t : forall n from par j X0 Xb, unf h from t -> (par < Z.of_nat n)%Z -> n + gsize t <= N ->
  (forall i en, nth_error (pre h from par j X0 Xb n t) i = Some en -> 0 < n + i -> n_par en = Z.of_nat (P (n + i))) ->
  (forall c, 0 < c < N -> c < n \/ n + gsize t <= c -> P c < n \/ n + gsize t <= P c) ->
  unf dheap (fr n) (relab n t).
Proof.
  induction t as [a ks IH] using gtree_rect'. intros n from par j X0 Xb U LP0 LN HP HO. apply unf_iff in U as (La & K & U). clear K La.
  rewrite gsize_GT in *. cbn [relab]. apply unf_iff. split; [unfold dheap, dst; cbn [fst hNodes]; rewrite map_length, seq_length; lia|].
  cbn [pre] in HP. set (XF := x_from (arcs_at h a) from Xb) in *. set (en0 := mkEnt a par j X0 XF from) in *.
  set (F := fun n' k => pre h (Some a) (Z.of_nat n) (aJoint (fst k)) (ptmul (aX (fst k)) (ptinv XF)) ptid n' (snd k)) in *.
  (* the parents of the bodies of one branch *)
  assert (BR : forall ks1 k ks2, ks = ks1 ++ k :: ks2 -> let m := S n + list_sum (map (fun k => gsize (snd k)) ks1) in
     (forall i en, nth_error (F m k) i = Some en -> n_par en = Z.of_nat (P (m + i)))).
  { intros ks1 k ks2 E m i en Hn. subst ks. 
    assert (G : forall ks1 s, nth_error (kpre F s (ks1 ++ k :: ks2)) (list_sum (map (fun k => gsize (snd k)) ks1) + i) = nth_error (F (s + list_sum (map (fun k => gsize (snd k)) ks1)) k) i).
    { clear -Hn. intro ks1'. assert (Li : i < gsize (snd k)) by (rewrite <- (pre_len h (snd k) (Some a) (Z.of_nat n) (aJoint (fst k)) (ptmul (aX (fst k)) (ptinv XF)) ptid m); change (i < length (F m k)); apply nth_error_Some; congruence).
      induction ks1' as [|k1 ks1' IHk]; intro s; cbn [app kpre map list_sum fold_right].
      - rewrite nth_error_app1; [now rewrite Nat.add_0_r|]. unfold F. now rewrite pre_len.
      - change (fold_right plus 0 ?l) with (list_sum l). assert (E : length (F s k1) = gsize (snd k1)) by (unfold F; apply pre_len). rewrite nth_error_app2; rewrite E; [|lia].
        replace (gsize (snd k1) + list_sum (map (fun k0 => gsize (snd k0)) ks1') + i - gsize (snd k1)) with (list_sum (map (fun k0 => gsize (snd k0)) ks1') + i) by lia.
        rewrite IHk. f_equal. f_equal. lia. }
    replace (m + i) with (n + S (list_sum (map (fun k => gsize (snd k)) ks1) + i)) by (unfold m; lia). apply HP; [|lia]. cbn [nth_error]. rewrite G. exact Hn. }
  (* a branch is closed *)
  assert (BC : forall ks1 k ks2, ks = ks1 ++ k :: ks2 -> let m := S n + list_sum (map (fun k => gsize (snd k)) ks1) in
     P m = n /\ (forall c, m < c < m + gsize (snd k) -> m <= P c < m + gsize (snd k))).
  { intros ks1 (e, t) ks2 E m. pose proof (BR ks1 (e, t) ks2 E) as BR1. cbv zeta in BR1. fold m in BR1. destruct (U e t) as (_ & Ut); [rewrite E; apply in_app_iff; right; now left|]. split.
    - pose proof (pre_hd h t (Some a) (Z.of_nat n) (aJoint e) (ptmul (aX e) (ptinv XF)) ptid m) as Hh. rewrite hd_error_nth_error in Hh.
      specialize (BR1 0 _ Hh). rewrite Nat.add_0_r in BR1. cbn [n_par] in BR1. lia.
    - cbn [snd]. intros c Hc. destruct (nth_error (F m (e, t)) (c - m)) as [en|] eqn:Q.
      + assert (c - m = S (c - m - 1)) by lia. 
        destruct (pre_below h t (Some a) (Z.of_nat n) (aJoint e) (ptmul (aX e) (ptinv XF)) ptid m Ut (c - m) en ltac:(lia) Q) as (p & ep & P1 & P2 & e' & _ & _ & P3 & _).
        specialize (BR1 _ _ Q). replace (m + (c - m)) with c in BR1 by lia. lia.
      + apply nth_error_None in Q. unfold F in Q. cbn [snd] in Q. rewrite pre_len in Q. lia. }
  assert (SUM : forall ks1 k ks2, ks = ks1 ++ k :: ks2 -> list_sum (map (fun k => gsize (snd k)) ks) = list_sum (map (fun k => gsize (snd k)) ks1) + (gsize (snd k) + list_sum (map (fun k => gsize (snd k)) ks2))).
  { intros ks1 k ks2 ->. rewrite map_app, list_sum_app. reflexivity. }
  assert (PN : 0 < n -> P n < n) by (intro; apply LP; lia).
  split.
  - (* children *)
    rewrite dheap_out by lia. rewrite (filter_seq_in (kid (N - 1) n) N (S n) (list_sum (map (fun k => gsize (snd k)) ks))).
    2: lia.
    2:{ intros c Lc Hc. rewrite kid_iff by auto. destruct (Nat.ltb_spec 0 c); auto. cbn [andb]. apply Nat.eqb_neq. destruct (Nat.eq_dec c n) as [->|]; [specialize (PN ltac:(lia)); lia|].
        specialize (HO c ltac:(lia) ltac:(lia)). lia. }
    assert (G : forall ks1 ks2, ks = ks1 ++ ks2 -> let m := S n + list_sum (map (fun k => gsize (snd k)) ks1) in
      map fst (krel (fun k => gsize (snd k)) (fun m k => (darc m, relab m (snd k))) m ks2) = map darc (filter (kid (N - 1) n) (seq m (list_sum (map (fun k => gsize (snd k)) ks2))))).
    { intros ks1 ks2. revert ks1. induction ks2 as [|k ks2 IHk]; intros ks1 E m; [reflexivity|]. cbn [krel map fst list_sum fold_right]. change (fold_right plus 0 ?l) with (list_sum l).
      rewrite seq_app, filter_app, map_app. destruct (BC ks1 k ks2 E) as (BC1 & BC2). fold m in BC1, BC2. pose proof (SUM ks1 k ks2 E) as SU. pose proof (gsize_pos (snd k)) as GP.
      assert (E1 : filter (kid (N - 1) n) (seq m (gsize (snd k))) = [m]).
      { destruct (gsize (snd k)) as [|s] eqn:Q; [lia|]. cbn [seq filter]. rewrite kid_iff by lia. rewrite BC1, Nat.eqb_refl. destruct (Nat.ltb_spec 0 m); [|lia]. cbn [andb]. f_equal.
        apply filter_seq_out. intros c Hc. rewrite kid_iff by lia. destruct (Nat.ltb_spec 0 c); auto. cbn [andb]. apply Nat.eqb_neq. specialize (BC2 c ltac:(lia)). lia. }
      rewrite E1. cbn [map app]. f_equal. specialize (IHk (ks1 ++ [k])). rewrite <- app_assoc in IHk. specialize (IHk E). cbv zeta in IHk.
      rewrite map_app, list_sum_app in IHk. cbn [map list_sum fold_right] in IHk. rewrite Nat.add_0_r in IHk. replace (S n + (list_sum (map (fun k0 => gsize (snd k0)) ks1) + gsize (snd k))) with (m + gsize (snd k)) in IHk by (unfold m; lia). exact IHk. }
    specialize (G [] ks eq_refl). cbv zeta in G. cbn [map list_sum fold_right] in G. rewrite Nat.add_0_r in G. exact G.
  - (* below *)
    assert (G : forall ks1 ks2, ks = ks1 ++ ks2 -> let m := S n + list_sum (map (fun k => gsize (snd k)) ks1) in
      forall e t, In (e, t) (krel (fun k => gsize (snd k)) (fun m k => (darc m, relab m (snd k))) m ks2) -> groot t = aNext e /\ unf dheap (Some n) t).
    { intros ks1 ks2. revert ks1. induction ks2 as [|(e0, t0) ks2 IHk]; intros ks1 E m e t I; [destruct I|]. cbn [krel snd] in I. destruct I as [I|I].
      - injection I as <- <-. destruct (BC ks1 (e0, t0) ks2 E) as (BC1 & BC2). fold m in BC1, BC2. cbn [snd] in BC2. pose proof (SUM ks1 (e0, t0) ks2 E) as SU. cbn [snd] in SU.
        split; [destruct t0; reflexivity|]. replace (Some n) with (fr m) by (unfold fr; unfold m at 1; cbn [Nat.add]; now rewrite BC1).
        destruct (U e0 t0) as (_ & Ut); [rewrite E; apply in_app_iff; right; now left|].
        apply (IH e0 t0 ltac:(rewrite E; apply in_app_iff; right; now left) m (Some a) (Z.of_nat n) (aJoint e0) (ptmul (aX e0) (ptinv XF)) ptid Ut); try lia.
        + intros i en Hn _. apply (BR ks1 (e0, t0) ks2 E). exact Hn.
        + intros c Lc Hc. assert (Hc' : c < n \/ n + S (list_sum (map (fun k => gsize (snd k)) ks)) <= c \/ c = n \/ (n < c < m \/ m + gsize t0 <= c < n + S (list_sum (map (fun k => gsize (snd k)) ks)))) by lia.
          destruct Hc' as [Hc'|[Hc'|[->|Hc']]].
          * specialize (HO c Lc ltac:(lia)). lia.
          * specialize (HO c Lc ltac:(lia)). lia.
          * specialize (PN ltac:(lia)). lia.
          * (* in another branch *)
            assert (W : forall l1 l2, ks = l1 ++ l2 -> forall c, S n + list_sum (map (fun k => gsize (snd k)) l1) <= c < n + S (list_sum (map (fun k => gsize (snd k)) ks)) ->
                exists l1' k l2', ks = l1' ++ k :: l2' /\ (length l1 <= length l1') /\ let m := S n + list_sum (map (fun k => gsize (snd k)) l1') in m <= c < m + gsize (snd k)).
            { clear. intros l1 l2. revert l1. induction l2 as [|k l2 IHl]; intros l1 E c H; [rewrite app_nil_r in E; subst; lia|].
              destruct (Nat.lt_ge_cases c (S n + list_sum (map (fun k => gsize (snd k)) l1) + gsize (snd k))) as [Lc|Lc].
              - exists l1, k, l2. split; [exact E|]. split; [lia|]. cbv zeta. lia.
              - destruct (IHl (l1 ++ [k]) ltac:(rewrite <- app_assoc; exact E) c) as (l1' & k' & l2' & Q1 & Q2 & Q3).
                + rewrite map_app, list_sum_app. cbn [map list_sum fold_right]. lia.
                + exists l1', k', l2'. split; [exact Q1|]. split; [rewrite app_length in Q2; cbn in Q2; lia|exact Q3]. }
            destruct (W [] ks eq_refl c) as (l1 & k & l2 & Q1 & _ & Q3); [cbn [map list_sum fold_right]; lia|]. cbv zeta in Q3.
            destruct (BC l1 k l2 Q1) as (C1 & C2). cbv zeta in C1, C2. set (m' := S n + list_sum (map (fun k => gsize (snd k)) l1)) in *.
            (* the two branches do not meet *)
            assert (DJ : m' + gsize (snd k) <= m \/ m + gsize t0 <= m').
            { assert (TR : forall (l1 l1' : list (Arc * gtree)) k k' l2 l2', l1 ++ k :: l2 = l1' ++ k' :: l2' ->
                  (l1 = l1' /\ k = k') \/ list_sum (map (fun k => gsize (snd k)) l1) + gsize (snd k) <= list_sum (map (fun k => gsize (snd k)) l1') \/ list_sum (map (fun k => gsize (snd k)) l1') + gsize (snd k') <= list_sum (map (fun k => gsize (snd k)) l1)).
              { clear. induction l1 as [|x l1 IH]; intros l1' k k' l2 l2' E; destruct l1' as [|x' l1']; cbn [app] in E; injection E as E1 E2; subst; cbn [map list_sum fold_right].
                - left. auto.
                - right. left. change (fold_right plus 0 ?l) with (list_sum l). lia.
                - right. right. change (fold_right plus 0 ?l) with (list_sum l). lia.
                - change (fold_right plus 0 ?l) with (list_sum l). destruct (IH _ _ _ _ _ E2) as [(-> & ->)|[H|H]]; [left; auto|right; left; lia|right; right; lia]. }
              rewrite E in Q1. destruct (TR _ _ _ _ _ _ Q1) as [(-> & <-)|[H|H]].
              - exfalso. cbn [snd] in Q3. unfold m' in Q3. fold m in Q3. lia.
              - right. cbn [snd] in H. unfold m, m'. lia.
              - left. unfold m, m'. lia. }
            destruct (Nat.eq_dec c m') as [->|Nc]; [lia|]. specialize (C2 c ltac:(lia)). lia.
      - specialize (IHk (ks1 ++ [(e0, t0)])). rewrite <- app_assoc in IHk. specialize (IHk E). cbv zeta in IHk. apply (IHk e t).
        rewrite map_app, list_sum_app. cbn [map list_sum fold_right snd]. rewrite Nat.add_0_r. replace (S n + (list_sum (map (fun k0 => gsize (snd k0)) ks1) + gsize t0)) with (m + gsize t0) by (unfold m; lia). exact I. }
    specialize (G [] ks eq_refl). cbv zeta in G. cbn [map list_sum fold_right] in G. rewrite Nat.add_0_r in G. exact G.
Qed.
Lemma ptinv_id : ptinv ptid = ptid. Proof. unfold ptinv, ptid. cbn. f_equal. unfold mapp, vopp, vscale, v0, mid. cbn. f_equal; ring. Qed.
Lemma dheap_in p e i : p < N -> i < N -> In e (arcs_at dheap p) -> aNext e = i -> p < i -> e = darc i /\ P i = p.
Proof.
  intros Lp Li I E L. rewrite dheap_arcs in I by auto. apply in_app_iff in I as [I|I].
  - exfalso. destruct (Nat.ltb_spec 0 p); [|destruct I]. destruct I as [<-|[]]. cbn [back aNext] in E. specialize (LP p ltac:(lia)). lia.
  - apply in_map_iff in I as (c & <- & I). cbn [darc aNext] in E. subst c. split; auto. apply filter_In in I as (_ & I). rewrite kid_iff in I by auto.
    apply andb_true_iff in I as (_ & I). now apply Nat.eqb_eq.
Qed.
Lemma dheap_from i : 0 < i < N -> x_from (arcs_at dheap i) (Some (P i)) ptid = ptid.
Proof.
  intro L. rewrite dheap_arcs by lia. destruct (Nat.ltb_spec 0 i); [|lia]. unfold x_from. cbn [app find is_from back aNext]. rewrite Nat.eqb_refl. reflexivity.
Qed.
Lemma relab_pre t j0 : gsize t = N -> unf dheap None (relab 0 t) ->
  forall i en, nth_error (pre dheap None (-1)%Z j0 ptid ptid 0 (relab 0 t)) i = Some en ->
  n_a en = i /\ n_base en = ptid /\ n_par en = (match i with O => (-1)%Z | _ => Z.of_nat (P i) end) /\
  n_joint en = (match i with O => j0 | _ => J i end) /\ n_X en = (match i with O => ptid | _ => X i end).
Proof.
  intros SZ U. set (L := pre dheap None (-1)%Z j0 ptid ptid 0 (relab 0 t)).
  assert (NA : forall i en, nth_error L i = Some en -> n_a en = i /\ i < N).
  { intros i en H. assert (Q : nth_error (map n_a L) i = Some (n_a en)) by (rewrite nth_error_map, H; reflexivity). unfold L in Q. rewrite pre_nodes, relab_nodes, SZ in Q.
    assert (i < N). { rewrite <- (seq_length N 0). apply nth_error_Some. congruence. } rewrite (nth_error_nth' _ 0) in Q by now rewrite seq_length. rewrite seq_nth in Q by auto. injection Q as Q. auto. }
  intro i. induction i as [i IH] using lt_wf_ind. intros en H. destruct (NA i en H) as (A & Li). split; [exact A|]. destruct i as [|i].
  - unfold L in H. rewrite <- hd_error_nth_error, pre_hd in H. injection H as <-. cbn [n_base n_par n_joint n_X]. split; [|auto]. unfold x_from. destruct (find (is_from None) _) eqn:F; [|reflexivity]. apply find_some in F as (_ & F). discriminate.
  - destruct (pre_below dheap (relab 0 t) _ _ _ _ _ _ U (S i) en (Nat.lt_0_succ _) H) as (p & ep & P1 & P2 & e & B1 & B2 & B3 & B4 & B5 & B6 & B7). fold L in P2.
    destruct (IH p P1 ep P2) as (I1 & I2 & _). rewrite I1, A in *. destruct (dheap_in p e (S i) ltac:(lia) Li B1 B2 P1) as (-> & Q).
    rewrite <- Q in B6. rewrite dheap_from in B6 by lia. split; [exact B6|]. split; [rewrite B3, Q; reflexivity|]. split; [exact B4|]. rewrite B5, I2, ptinv_id. apply ptmul_id_r.
Qed.
(** The multibody made from the graph. *)
Lemma rebuild h t j0 X0 Xb fuel (fixed : bool) : 0 < N -> unf h None t -> gsize t = N -> N <= fuel ->
  (forall i en, nth_error (pre h None (-1)%Z j0 X0 Xb 0 t) i = Some en -> 0 < i -> n_par en = Z.of_nat (P i)) ->
  let par := map (fun i => match i with O => (-1)%Z | _ => Z.of_nat (P i) end) (seq 0 N) in
  makeMultiBody_fixed fuel (bname (B 0)) fixed ptid ptid (dst (N - 1)) =
  MultiBody_ctor (map B (seq 0 N)) (map (fun i => match i with O => mkJ (if fixed then Fixed else Free) unitZ true "Root" | _ => J i end) (seq 0 N))
     par (map Z.of_nat (seq 0 N)) par (map (fun i => match i with O => ptid | _ => X i end) (seq 0 N)).
Proof.
  intros N0 U SZ FU HP par. set (jr := mkJ (if fixed then Fixed else Free) unitZ true "Root").
  assert (U' : unf dheap None (relab 0 t)).
  { change None with (fr 0). apply (relab_unf h t 0 None (-1)%Z j0 X0 Xb U); try lia. intros i en H1 H2. now apply HP. }
  unfold makeMultiBody_fixed, makeMultiBody_type.
  destruct (makeMultiBody_run (dst (N - 1)) (bname (B 0)) 0 (if fixed then Fixed else Free) unitZ ptid ptid fuel (relab 0 t)) as (mb & E & H).
  - unfold dst. cbn [snd gBody]. now apply bmap_find.
  - destruct t; reflexivity.
  - exact U'.
  - etransitivity; [apply gheight_le|]. unfold gsize. rewrite relab_nodes, seq_length. lia.
  - cbv zeta in H. destruct H as (_ & _ & _ & _ & _ & _ & EC). unfold makeMultiBody_fixed in *. rewrite E. symmetry. rewrite <- EC. clear EC E.
    change (fst (dst (N - 1))) with dheap. change (gRoot (snd (dst (N - 1)))) with "Root"%string. fold jr.
    pose proof (relab_pre t jr SZ U') as RP. set (L := pre dheap None (-1)%Z jr ptid ptid 0 (relab 0 t)) in *.
    assert (LL : length L = N). { unfold L. rewrite pre_len. unfold gsize. now rewrite relab_nodes, seq_length. }
    assert (MAP : forall A (f : ent -> A) (g : nat -> A), (forall i en, nth_error L i = Some en -> f en = g i) -> map g (seq 0 N) = map f L).
    { intros A f g Hf. apply list_ext_e. intro i. destruct (Nat.lt_ge_cases i N) as [Li|Li].
      - rewrite !nth_error_map. rewrite (nth_error_nth' _ 0) by now rewrite seq_length. rewrite seq_nth by auto. cbn [option_map Nat.add].
        destruct (nth_error L i) as [en|] eqn:Q; [|apply nth_error_None in Q; lia]. cbn [option_map]. f_equal. symmetry. now apply Hf.
      - transitivity (@None A); [|symmetry]; apply nth_error_None; rewrite map_length; [rewrite seq_length|]; lia. }
    f_equal.
    + apply MAP. intros i en Q. destruct (RP i en Q) as (R1 & R2 & _). unfold ent_body. rewrite R1, R2. assert (i < N) by (rewrite <- LL; apply nth_error_Some; congruence).
      rewrite dheap_body by auto. rewrite ptdualI_id. now destruct (B i).
    + apply MAP. intros i en Q. apply (RP i en Q).
    + apply MAP. intros i en Q. apply (RP i en Q).
    + now rewrite LL.
    + apply MAP. intros i en Q. apply (RP i en Q).
    + apply MAP. intros i en Q. apply (RP i en Q).
Qed.
End Build.
