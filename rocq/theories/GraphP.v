(** Graph operations: names stay unique, over every history. *)
From Coq Require Import Reals String ZArith Bool Arith List Lia.
From Verif Require Import Res ResP SMap Vec Sva JointM MultiBodyM GraphM Spec SpecGraph.
Import ListNotations.
Open Scope R_scope.
Local Open Scope nat_scope.

(** ** A Hoare-style reading of the operations. *)
Definition keeps {A} (I : GSt -> Prop) (T : GSt -> GSt -> Prop) (x : GM A) : Prop :=
  forall s, I s -> match x s with GRet _ s' | GExc _ s' => I s' /\ T s s' | _ => True end.
Section Keeps.
Variable I : GSt -> Prop.
Variable T : GSt -> GSt -> Prop.
Hypothesis Tr : forall s, T s s.
Hypothesis Tt : forall a b c, T a b -> T b c -> T a c.
Lemma keeps_bind {A B} (x : GM A) (f : A -> GM B) : keeps I T x -> (forall a, keeps I T (f a)) -> keeps I T (gbind x f).
Proof.
  intros Hx Hf s Is. specialize (Hx s Is). unfold gbind. destruct (x s) as [a s1|e s1| |]; auto.
  destruct Hx as (I1 & T1). specialize (Hf a s1 I1). destruct (f a s1) as [b s2|e s2| |]; auto; destruct Hf; split; eauto.
Qed.
Lemma keeps_ret {A} (a : A) : keeps I T (gret a).
Proof. intros s Is. cbn. auto. Qed.
Lemma keeps_lift {A} (f : GSt -> res A) : keeps I T (glift f).
Proof. intros s Is. unfold glift. destruct (f s); auto. Qed.
Lemma keeps_mod (f : GSt -> res GSt) : (forall s s', I s -> f s = Ok s' -> I s' /\ T s s') -> keeps I T (gmod f).
Proof. intros H s Is. unfold gmod. destruct (f s) eqn:E; auto. Qed.
Lemma keeps_still a n : keeps I T (still a n).
Proof. intros s Is. unfold still. destruct (arcs_len s a =? n); auto. Qed.
Lemma keeps_for {A} (l : list A) f : (forall a, In a l -> keeps I T (f a)) -> keeps I T (gfor l f).
Proof.
  induction l as [|x l IH]; cbn [gfor]; intro H; [apply keeps_ret|].
  apply keeps_bind; [apply H; now left|]. intros _. apply IH. intros. apply H. now right.
Qed.
Lemma keeps_peek {A} (f : GSt -> A) : keeps I T (fun s => GRet (f s) s).
Proof. intros s Is. auto. Qed.
Lemma keeps_with {A B} (f : GSt -> B) (k : B -> GM A) : (forall b, keeps I T (k b)) -> keeps I T (fun s => k (f s) s).
Proof. intros H s Is. exact (H (f s) s Is). Qed.

(** The operations, given their elementary steps. *)
Hypothesis Hdrop : forall a, keeps I T (drop_node a).
Hypothesis Hrm : forall e, keeps I T (gmod (fun s =>
    let (h, g) := s in
    p <- mat_ (gJoint g) (ajn e) ;;
    js <- erase_find (gJoints g) p ;;
    Ok (h, mkGraph (gRoot g) (gNodes g) js (gBody g) (mdel (gJoint g) (ajn e))))).
Hypothesis Hset : forall a Ib, keeps I T (gmod (fun s => nd <- get (hNodes (fst s)) a ;;
                        h <- set_node (fst s) a (mkNode (mkBody Ib (bname (nBody nd))) (nArcs nd)) ;; Ok (h, snd s))).
Hypothesis Herase : forall a k, keeps I T (erase_arc a k).
Lemma keeps_rmNode fuel : forall jf a, keeps I T (rmNodeFromMbg fuel jf a).
Proof.
  induction fuel as [|f IH]; intros jf a; cbn [rmNodeFromMbg].
  - intros s Is. auto.
  - apply keeps_bind; [apply keeps_lift|]. intros nd. apply keeps_bind; [|auto].
    apply keeps_for. intros e _. destruct (String.eqb (ajn e) jf); [apply keeps_ret|].
    apply keeps_bind; [|intros _; apply keeps_still]. apply keeps_bind; [apply Hrm|auto].
Qed.
Lemma keeps_explore hit rec pj jn l : (forall k e, keeps I T (hit k e)) -> (forall a p, keeps I T (rec a p)) ->
  forall k, keeps I T (explore hit rec pj jn k l).
Proof.
  intros H1 H2. induction l as [|e l IH]; intro k; cbn [explore]; [apply keeps_ret|].
  destruct (String.eqb (ajn e) pj); [apply IH|]. destruct (String.eqb (ajn e) jn).
  - apply keeps_bind; [apply H1|intros _; apply keeps_ret].
  - apply keeps_bind; [apply H2|]. intros [|]; [apply keeps_ret|apply IH].
Qed.
Lemma keeps_rmArcHit F a n k e : keeps I T (gbind (rmArcFromMbg (rmNodeFromMbg F) e) (fun _ => gbind (still a n) (fun _ => erase_arc a k))).
Proof.
  apply keeps_bind; [apply keeps_bind; [apply Hrm|intros _; apply keeps_rmNode]|]. intros _.
  apply keeps_bind; [apply keeps_still|auto].
Qed.
Lemma keeps_rmArc F fuel : forall a pj jn, keeps I T (rmArc F fuel a pj jn).
Proof.
  induction fuel as [|f IH]; intros a pj jn; cbn [rmArc].
  - intros s Is. auto.
  - apply keeps_bind; [apply keeps_lift|]. intros nd. apply keeps_explore; [|intros; apply IH].
    intros k e. apply keeps_rmArcHit.
Qed.
Lemma keeps_removeJoint fuel root jn : keeps I T (removeJoint fuel root jn).
Proof.
  unfold removeJoint. apply keeps_bind; [apply keeps_lift|]. intros a. apply keeps_bind; [apply (keeps_peek (fun s => mfind (gJoint (snd s)) jn))|].
  intros [p|]; [|apply keeps_ret].
  apply (keeps_with (fun s => gRoot (snd s)) (fun r => gbind (rmArc fuel fuel a r jn) (fun _ => gret tt))).
  intro b. apply keeps_bind; [apply keeps_rmArc|intros; apply keeps_ret].
Qed.
Lemma keeps_removeJoints fuel root js : keeps I T (removeJoints fuel root js).
Proof.
  unfold removeJoints. apply keeps_bind; [apply keeps_lift|]. intros _. apply keeps_for. intros jn _.
  apply keeps_bind; [apply (keeps_peek (fun s => mfind (gJoint (snd s)) jn))|]. intros [p|]; [apply keeps_removeJoint|apply keeps_ret].
Qed.
Lemma keeps_merge fuel root jn pos : keeps I T (mergeSubBodies fuel root jn pos).
Proof.
  unfold mergeSubBodies. apply keeps_bind; [apply keeps_lift|]. intros a.
  apply (keeps_with (fun s => gRoot (snd s)) (fun r => gbind (findMergeSubNodes fuel fuel a r jn pos) (fun _ => gret tt))).
  intro b. apply keeps_bind; [|intros; apply keeps_ret].
  assert (G : forall f2 a pj, keeps I T (findMergeSubNodes fuel f2 a pj jn pos)).
  { induction f2 as [|f2 IH]; intros a0 pj; cbn [findMergeSubNodes].
    - intros s Is. auto.
    - apply keeps_bind; [apply keeps_lift|]. intros nd. apply keeps_explore; [|intros; apply IH].
      intros k e. unfold merge_hit. apply keeps_bind; [apply keeps_lift|]. intros Ib.
      apply keeps_bind; [apply Hset|]. intros _. apply keeps_rmArcHit. }
  apply G.
Qed.
End Keeps.

(** ** Names. *)
Record wnames (s : GSt) : Prop := {
  wn_bodies : NoDup (body_names s);
  wn_joints : NoDup (joint_names s);
  wn_body : forall n a, mfind (gBody (snd s)) n = Some a <-> In a (gNodes (snd s)) /\ bname (body_at (fst s) a) = n;
  wn_node : forall a, In a (gNodes (snd s)) -> (a < length (hNodes (fst s)));
  wn_jmap : forall n p, mfind (gJoint (snd s)) n = Some p ->
     (p < length (hJoints (fst s))) /\ jname (joint_at (fst s) p) = n /\ In n (joint_names s);
  wn_jnt : forall p, In p (gJoints (snd s)) -> (p < length (hJoints (fst s))) /\ mfind (gJoint (snd s)) (jname (joint_at (fst s) p)) <> None
}.
(** The memory grows and the objects in it keep their names. *)
Record names_ext (h h' : Heap) : Prop := {
  ne_len : length (hNodes h) <= length (hNodes h');
  ne_name : forall a, a < length (hNodes h) -> bname (body_at h' a) = bname (body_at h a);
  ne_jnt : exists l, hJoints h' = hJoints h ++ l
}.
Lemma names_ext_refl h : names_ext h h.
Proof. constructor; auto. exists []. now rewrite app_nil_r. Qed.
Lemma names_ext_trans a b c : names_ext a b -> names_ext b c -> names_ext a c.
Proof.
  intros [A1 A2 (l1 & A3)] [B1 B2 (l2 & B3)]. constructor; [lia| |].
  - intros x Hx. rewrite B2 by lia. now apply A2.
  - exists (l1 ++ l2). now rewrite B3, A3, app_assoc.
Qed.
Definition Tn (s s' : GSt) : Prop := names_ext (fst s) (fst s').
Lemma Tn_refl s : Tn s s. Proof. apply names_ext_refl. Qed.
Lemma Tn_trans a b c : Tn a b -> Tn b c -> Tn a c. Proof. apply names_ext_trans. Qed.

Lemma joint_at_ext h h' p : names_ext h h' -> p < length (hJoints h) -> joint_at h' p = joint_at h p.
Proof. intros [_ _ (l & E)] L. unfold joint_at. rewrite E. now apply app_nth1. Qed.
Lemma ne_jlen h h' : names_ext h h' -> length (hJoints h) <= length (hJoints h').
Proof. intros [_ _ (l & E)]. rewrite E, app_length. lia. Qed.
Lemma wnames_ext h h' g : names_ext h h' -> wnames (h, g) -> wnames (h', g).
Proof.
  intros NE [A B C D E F]. cbn [fst snd] in *.
  assert (EB : body_names (h', g) = body_names (h, g)).
  { unfold body_names. cbn [fst snd]. apply map_ext_in. intros a Ha. apply (ne_name _ _ NE). auto. }
  assert (EJ : joint_names (h', g) = joint_names (h, g)).
  { unfold joint_names. cbn [fst snd]. apply map_ext_in. intros a Ha. rewrite (joint_at_ext h h'); auto. apply F. auto. }
  pose proof (ne_jlen _ _ NE).
  constructor; cbn [fst snd]; rewrite ?EB, ?EJ; auto.
  - intros n a. rewrite C. split; intros (H1 & H2); split; auto; rewrite (ne_name _ _ NE) in *; auto.
  - intros a Ha. pose proof (ne_len _ _ NE). specialize (D a Ha). lia.
  - intros n p Hp. destruct (E n p Hp) as (E1 & E2 & E3). rewrite (joint_at_ext h h'); auto. split; [lia|auto].
  - intros p Hp. destruct (F p Hp) as (F1 & F2). rewrite (joint_at_ext h h'); auto. split; [lia|auto].
Qed.

Lemma erase_find_spec l p l' : erase_find l p = Ok l' -> exists l1 l2, l = l1 ++ p :: l2 /\ l' = l1 ++ l2.
Proof.
  revert l'. induction l as [|x l IH]; intros l' H; cbn [erase_find] in H; [discriminate|].
  destruct (Nat.eqb_spec x p) as [->|N].
  - injection H as <-. exists [], l. auto.
  - destruct (erase_find l p) as [l2| | |] eqn:E; try discriminate. cbn [bind] in H. injection H as <-.
    destruct (IH _ eq_refl) as (a & b & -> & ->). exists (x :: a), b. auto.
Qed.
Lemma erase_find_in l p : In p l -> exists l', erase_find l p = Ok l'.
Proof.
  induction l as [|x l IH]; intros H; [destruct H|]. cbn [erase_find].
  destruct (Nat.eqb_spec x p) as [->|N]; [eauto|]. destruct H as [->|H]; [contradiction|].
  destruct (IH H) as (l' & ->). cbn [bind]. eauto.
Qed.
Lemma NoDup_map_remove {A B} (f : A -> B) l1 x l2 : NoDup (map f (l1 ++ x :: l2)) ->
  NoDup (map f (l1 ++ l2)) /\ forall y, In y (l1 ++ l2) -> f y <> f x.
Proof.
  rewrite !map_app. cbn [map]. intros H. split; [eapply NoDup_remove_1; eauto|].
  intros y Hy E. apply NoDup_remove_2 in H. apply H. rewrite <- E, <- map_app. now apply in_map.
Qed.

(** *** Heap steps. *)
Lemma set_node_spec h a nd h' : set_node h a nd = Ok h' ->
  a < length (hNodes h) /\ h' = mkHeap (upd (hNodes h) a nd) (hJoints h).
Proof.
  unfold set_node, set. destruct (Nat.ltb_spec a (length (hNodes h))) as [L|L]; cbn [bind]; intros E; [|discriminate].
  injection E as <-. auto.
Qed.
Lemma body_at_upd h a nd b : body_at (mkHeap (upd (hNodes h) a nd) (hJoints h)) b =
  if (a =? b) && (a <? length (hNodes h)) then nBody nd else body_at h b.
Proof.
  unfold body_at. cbn [hNodes]. destruct (Nat.eqb_spec a b) as [->|N]; cbn [andb].
  - destruct (Nat.ltb_spec b (length (hNodes h))).
    + now rewrite nth_error_upd_eq.
    + assert (nth_error (upd (hNodes h) b nd) b = None) as -> by (apply nth_error_None; rewrite upd_length; lia).
      assert (nth_error (hNodes h) b = None) as -> by (apply nth_error_None; lia). reflexivity.
  - now rewrite nth_error_upd_neq.
Qed.
Lemma arcs_at_upd h a nd b : arcs_at (mkHeap (upd (hNodes h) a nd) (hJoints h)) b =
  if (a =? b) && (a <? length (hNodes h)) then nArcs nd else arcs_at h b.
Proof.
  unfold arcs_at. cbn [hNodes]. destruct (Nat.eqb_spec a b) as [->|N]; cbn [andb].
  - destruct (Nat.ltb_spec b (length (hNodes h))).
    + now rewrite nth_error_upd_eq.
    + assert (nth_error (upd (hNodes h) b nd) b = None) as -> by (apply nth_error_None; rewrite upd_length; lia).
      assert (nth_error (hNodes h) b = None) as -> by (apply nth_error_None; lia). reflexivity.
  - now rewrite nth_error_upd_neq.
Qed.
Lemma node_at h a nd : nth_error (hNodes h) a = Some nd -> body_at h a = nBody nd /\ arcs_at h a = nArcs nd /\ a < length (hNodes h).
Proof. intro E. unfold body_at, arcs_at. rewrite E. repeat split; auto. apply nth_error_Some. congruence. Qed.
Lemma set_node_ext h a nd nd' h' : nth_error (hNodes h) a = Some nd -> bname (nBody nd') = bname (nBody nd) ->
  set_node h a nd' = Ok h' -> names_ext h h'.
Proof.
  intros E N H. destruct (set_node_spec _ _ _ _ H) as (L & ->). constructor; cbn [hNodes hJoints].
  - now rewrite upd_length.
  - intros b Hb. rewrite body_at_upd. destruct (Nat.eqb_spec a b) as [->|]; cbn [andb]; auto.
    destruct (Nat.ltb_spec b (length (hNodes h))); auto. rewrite N. f_equal. symmetry. apply (node_at _ _ _ E).
  - exists []. now rewrite app_nil_r.
Qed.
Lemma push_arc_ext a e h h' : push_arc a e h = Ok h' -> names_ext h h'.
Proof.
  unfold push_arc. intro H. apply bind_Ok in H as (nd & E & H). apply get_Ok in E. eapply set_node_ext; [eassumption| |eassumption]; reflexivity.
Qed.

(** *** The elementary steps keep the names. *)
Lemma wn_drop a : keeps wnames Tn (drop_node a).
Proof.
  apply (keeps_mod wnames Tn Tn_refl). intros (h & g) s' HI H. cbn [fst snd] in H.
  apply bind_Ok in H as (nd & E & H). apply bind_Ok in H as (h' & E' & H). apply bind_Ok in H as (ns & E2 & H).
  injection H as <-. apply get_Ok in E. unfold Tn. cbn [fst snd].
  assert (NE : names_ext h h') by (eapply set_node_ext; [eassumption| |eassumption]; reflexivity). split; [|exact NE].
  destruct (erase_find_spec _ _ _ E2) as (l1 & l2 & E3 & ->).
  pose proof (wnames_ext h h' g NE HI) as [A B C D E4 F]. cbn [fst snd] in *.
  unfold body_names in A. cbn [fst snd] in A. rewrite E3 in A. destruct (NoDup_map_remove _ _ _ _ A) as (A1 & A2).
  assert (NA : bname (body_at h' a) = bname (nBody nd)).
  { rewrite (ne_name _ _ NE) by (apply (node_at _ _ _ E)). f_equal. apply (node_at _ _ _ E). }
  constructor; cbn [fst snd gNodes gJoints gBody gJoint]; auto.
  - intros n b. destruct (string_dec n (bname (nBody nd))) as [->|N].
    + rewrite mfind_mdel_eq. split; [discriminate|]. intros (H1 & H2). exfalso. apply (A2 b H1). now rewrite NA.
    + rewrite mfind_mdel_neq by auto. rewrite C, E3. split; intros (H1 & H2); split; auto.
      * apply in_app_iff in H1. apply in_app_iff. destruct H1 as [|[->|]]; auto. congruence.
      * apply in_app_iff in H1. apply in_app_iff. cbn. tauto.
  - intros b Hb. apply D. rewrite E3. apply in_app_iff in Hb. apply in_app_iff. cbn. tauto.
Qed.
Lemma wn_rm e : keeps wnames Tn (gmod (fun s =>
    let (h, g) := s in
    p <- mat_ (gJoint g) (ajn e) ;;
    js <- erase_find (gJoints g) p ;;
    Ok (h, mkGraph (gRoot g) (gNodes g) js (gBody g) (mdel (gJoint g) (ajn e))))).
Proof.
  apply (keeps_mod wnames Tn Tn_refl). intros (h & g) s' [A B C D E4 F] H. cbn [fst snd] in *.
  apply bind_Ok in H as (p & E & H). apply bind_Ok in H as (js & E2 & H). injection H as <-. split; [|apply names_ext_refl].
  destruct (erase_find_spec _ _ _ E2) as (l1 & l2 & E3 & ->).
  unfold mat_ in E. destruct (mfind (gJoint g) (ajn e)) as [p'|] eqn:Ep; [|discriminate]. injection E as <-.
  destruct (E4 _ _ Ep) as (L & NP & _).
  unfold joint_names in B. cbn [fst snd] in B. rewrite E3 in B. destruct (NoDup_map_remove _ _ _ _ B) as (B1 & B2).
  constructor; cbn [fst snd gNodes gJoints gBody gJoint]; auto.
  - intros n p0 Hp. destruct (string_dec n (ajn e)) as [->|N]; [rewrite mfind_mdel_eq in Hp; discriminate|].
    rewrite mfind_mdel_neq in Hp by auto. destruct (E4 _ _ Hp) as (Q1 & Q2 & Q3). do 2 (split; auto).
    unfold joint_names in *. cbn [fst snd gJoints] in *. rewrite E3 in Q3. apply in_map_iff in Q3 as (x & Q4 & Q5). apply in_map_iff. exists x. split; auto.
    apply in_app_iff in Q5. apply in_app_iff. destruct Q5 as [|[->|]]; auto. congruence.
  - intros p0 Hp. destruct (F p0) as (F1 & F2).
    { rewrite E3. apply in_app_iff in Hp. apply in_app_iff. cbn. tauto. }
    split; auto. rewrite mfind_mdel_neq; auto. rewrite <- NP. apply B2. auto.
Qed.
Lemma wn_setbody a Ib : keeps wnames Tn (gmod (fun s => nd <- get (hNodes (fst s)) a ;;
                        h <- set_node (fst s) a (mkNode (mkBody Ib (bname (nBody nd))) (nArcs nd)) ;; Ok (h, snd s))).
Proof.
  apply (keeps_mod wnames Tn Tn_refl). intros (h & g) s' HI H. cbn [fst snd] in *. apply bind_Ok in H as (nd & E & H). apply bind_Ok in H as (h' & E2 & H).
  injection H as <-. apply get_Ok in E. assert (NE : names_ext h h') by (eapply set_node_ext; [eassumption| |eassumption]; reflexivity).
  split; [eapply wnames_ext; eauto|exact NE].
Qed.
Lemma wn_erase a k : keeps wnames Tn (erase_arc a k).
Proof.
  apply (keeps_mod wnames Tn Tn_refl). intros (h & g) s' HI H. cbn [fst snd] in *. apply bind_Ok in H as (nd & E & H). apply bind_Ok in H as (h' & E2 & H).
  injection H as <-. apply get_Ok in E. assert (NE : names_ext h h') by (eapply set_node_ext; [eassumption| |eassumption]; reflexivity).
  split; [eapply wnames_ext; eauto|exact NE].
Qed.
Lemma wn_remove fuel root jn : keeps wnames Tn (removeJoint fuel root jn).
Proof. apply keeps_removeJoint; auto using Tn_refl, wn_drop, wn_rm, wn_setbody, wn_erase. exact Tn_trans. Qed.
Lemma wn_removes fuel root js : keeps wnames Tn (removeJoints fuel root js).
Proof. apply keeps_removeJoints; auto using Tn_refl, wn_drop, wn_rm, wn_setbody, wn_erase. exact Tn_trans. Qed.
Lemma wn_merge fuel root jn pos : keeps wnames Tn (mergeSubBodies fuel root jn pos).
Proof. apply keeps_merge; auto using Tn_refl, wn_drop, wn_rm, wn_setbody, wn_erase. exact Tn_trans. Qed.

(** *** Allocation. *)
Lemma alloc_node_ext h B : names_ext h (mkHeap (hNodes h ++ [mkNode B []]) (hJoints h)).
Proof.
  constructor; cbn [hNodes hJoints].
  - rewrite app_length. cbn. lia.
  - intros a Ha. unfold body_at. cbn [hNodes]. now rewrite nth_error_app1.
  - exists []. now rewrite app_nil_r.
Qed.
Lemma alloc_joint_ext h J : names_ext h (mkHeap (hNodes h) (hJoints h ++ [J])).
Proof. constructor; cbn [hNodes hJoints]; auto. eauto. Qed.
Lemma body_at_new h nd : body_at (mkHeap (hNodes h ++ [nd]) (hJoints h)) (length (hNodes h)) = nBody nd.
Proof. unfold body_at. cbn [hNodes]. rewrite nth_error_app2 by lia. now rewrite Nat.sub_diag. Qed.
Lemma arcs_at_new h nd : arcs_at (mkHeap (hNodes h ++ [nd]) (hJoints h)) (length (hNodes h)) = nArcs nd.
Proof. unfold arcs_at. cbn [hNodes]. rewrite nth_error_app2 by lia. now rewrite Nat.sub_diag. Qed.
Lemma joint_at_new h J : joint_at (mkHeap (hNodes h) (hJoints h ++ [J])) (length (hJoints h)) = J.
Proof. unfold joint_at. cbn [hJoints]. rewrite app_nth2 by lia. now rewrite Nat.sub_diag. Qed.
Lemma NoDup_snoc {A} (l : list A) a : NoDup l -> ~ In a l -> NoDup (l ++ [a]).
Proof. intros H N. apply (NoDup_Add (Add_app a l [])). rewrite app_nil_r. auto. Qed.

Lemma wn_newbody h g B : wnames (h, g) -> mfind (gBody g) (bname B) = None ->
  wnames (mkHeap (hNodes h ++ [mkNode B []]) (hJoints h),
          mkGraph (gRoot g) (gNodes g ++ [length (hNodes h)]) (gJoints g) (mset (gBody g) (bname B) (length (hNodes h))) (gJoint g)).
Proof.
  intros HI NB. pose proof (alloc_node_ext h B) as NE. pose proof (wnames_ext _ _ g NE HI) as [A BB C D E F]. pose proof (wn_node _ HI) as D0.
  cbn [fst snd] in *.
  assert (NI : ~ In (bname B) (body_names (mkHeap (hNodes h ++ [mkNode B []]) (hJoints h), g))).
  { unfold body_names. cbn [fst snd]. intro H. apply in_map_iff in H as (a & E1 & E2).
    assert (mfind (gBody g) (bname B) = Some a) by (apply C; auto). congruence. }
  constructor; cbn [fst snd gNodes gJoints gBody gJoint]; auto.
  - unfold body_names in *. cbn [fst snd gNodes] in *. rewrite map_app. cbn [map]. rewrite body_at_new. cbn [nBody]. apply NoDup_snoc; auto.
  - intros n a. destruct (string_dec n (bname B)) as [->|N].
    + rewrite mfind_mset_eq. split.
      * intro H. injection H as <-. rewrite body_at_new. split; auto. apply in_app_iff. right. now left.
      * intros (H1 & H2). apply in_app_iff in H1 as [H1|[->|[]]]; auto. exfalso. apply NI. unfold body_names. cbn [fst snd]. apply in_map_iff. eauto.
    + rewrite mfind_mset_neq by auto. rewrite C. split; intros (H1 & H2); split; auto.
      * apply in_app_iff. auto.
      * apply in_app_iff in H1 as [H1|[<-|[]]]; auto. rewrite body_at_new in H2. cbn in H2. congruence.
  - intros a Ha. apply in_app_iff in Ha as [Ha|[<-|[]]]; auto. cbn [hNodes]. rewrite app_length. cbn. lia.
Qed.
Lemma wn_newjoint h g J : wnames (h, g) -> mfind (gJoint g) (jname J) = None ->
  wnames (mkHeap (hNodes h) (hJoints h ++ [J]),
          mkGraph (gRoot g) (gNodes g) (gJoints g ++ [length (hJoints h)]) (gBody g) (mset (gJoint g) (jname J) (length (hJoints h)))).
Proof.
  intros HI NB. pose proof (alloc_joint_ext h J) as NE. pose proof (wnames_ext _ _ g NE HI) as [A BB C D E F].
  cbn [fst snd] in *.
  assert (NI : ~ In (jname J) (joint_names (mkHeap (hNodes h) (hJoints h ++ [J]), g))).
  { unfold joint_names. cbn [fst snd]. intro H. apply in_map_iff in H as (p & E1 & E2).
    destruct (F p E2) as (_ & F2). rewrite E1 in F2. contradiction. }
  assert (EN : joint_names (mkHeap (hNodes h) (hJoints h ++ [J]),
          mkGraph (gRoot g) (gNodes g) (gJoints g ++ [length (hJoints h)]) (gBody g) (mset (gJoint g) (jname J) (length (hJoints h))))
     = joint_names (mkHeap (hNodes h) (hJoints h ++ [J]), g) ++ [jname J]).
  { unfold joint_names. cbn [fst snd gJoints]. rewrite map_app. cbn [map]. now rewrite joint_at_new. }
  constructor; cbn [fst snd gNodes gJoints gBody gJoint]; auto.
  - rewrite EN. apply NoDup_snoc; auto.
  - intros n p Hp. rewrite EN. destruct (string_dec n (jname J)) as [->|N].
    + rewrite mfind_mset_eq in Hp. injection Hp as <-. rewrite joint_at_new. cbn [hJoints]. rewrite app_length. cbn [length].
      split; [lia|]. split; auto. apply in_app_iff. right. now left.
    + rewrite mfind_mset_neq in Hp by auto. destruct (E _ _ Hp) as (Q1 & Q2 & Q3). do 2 (split; auto). apply in_app_iff. auto.
  - intros p Hp. apply in_app_iff in Hp as [Hp|[<-|[]]].
    + destruct (F p Hp) as (F1 & F2). split; auto. destruct (string_dec (jname (joint_at (mkHeap (hNodes h) (hJoints h ++ [J])) p)) (jname J)) as [->|N].
      * now rewrite mfind_mset_eq.
      * now rewrite mfind_mset_neq.
    + rewrite joint_at_new, mfind_mset_eq. cbn [hJoints]. rewrite app_length. cbn [length]. split; [lia|discriminate].
Qed.
Lemma wn_addBody B : keeps wnames Tn (addBody B).
Proof.
  intros (h & g) HI. unfold addBody. destruct (mfind (gBody g) (bname B)) eqn:E; [auto using Tn_refl|].
  split; [now apply wn_newbody|apply alloc_node_ext].
Qed.
Lemma wn_addJoint J : keeps wnames Tn (addJoint J).
Proof.
  intros (h & g) HI. unfold addJoint. destruct (mfind (gJoint g) (jname J)) eqn:E; [auto using Tn_refl|].
  split; [now apply wn_newjoint|apply alloc_joint_ext].
Qed.
Definition link_all (b1 : string) (t1 : PT) (b2 : string) (t2 : PT) (jn : string) (b1to2 : bool) (s : GSt) : res GSt :=
  let (h, g) := s in
  n1 <- mat_ (gBody g) b1 ;;
  n2 <- mat_ (gBody g) b2 ;;
  p <- mat_ (gJoint g) jn ;;
  j <- get (hJoints h) p ;;
  let fj1 := if b1to2 then jfwd j else negb (jfwd j) in
  let fj2 := negb fj1 in
  h <- push_arc n1 (mkArc t1 (set_forward j fj1) n2) h ;;
  h <- push_arc n2 (mkArc t2 (set_forward j fj2) n1) h ;;
  Ok (h, g).
Lemma push_arc_nothrow a e h x : push_arc a e h <> Throw x.
Proof. unfold push_arc, set_node, get, set. destruct (nth_error (hNodes h) a); cbn [bind]; [|discriminate]. now destruct (a <? length (hNodes h)). Qed.
Lemma linkBodies_all b1 t1 b2 t2 jn d s : linkBodies b1 t1 b2 t2 jn d s = gmod (link_all b1 t1 b2 t2 jn d) s.
Proof.
  destruct s as (h & g). unfold linkBodies, link_all, gbind, glift, gmod. cbn [fst snd].
  destruct (mat_ (gBody g) b1) as [n1| | |]; cbn [bind fst snd]; auto. destruct (mat_ (gBody g) b2) as [n2| | |]; cbn [bind fst snd]; auto.
  destruct (mat_ (gJoint g) jn) as [p| | |]; cbn [bind fst snd]; auto. destruct (get (hJoints h) p) as [j| | |]; cbn [bind fst snd]; auto. cbv zeta.
  destruct (push_arc n1 _ h) as [h1|x| |] eqn:E1; cbn [bind fst snd]; auto.
  destruct (push_arc n2 _ h1) as [h2|x| |] eqn:E2; cbn [bind fst snd]; auto.
  now apply push_arc_nothrow in E2.
Qed.
Lemma wn_link b1 t1 b2 t2 jn d : keeps wnames Tn (linkBodies b1 t1 b2 t2 jn d).
Proof.
  intros s0. rewrite linkBodies_all. revert s0. apply (keeps_mod wnames Tn Tn_refl). intros (h & g) s' HI H.
  apply bind_Ok in H as (n1 & E1 & H). apply bind_Ok in H as (n2 & E2 & H). apply bind_Ok in H as (p & E3 & H). apply bind_Ok in H as (j & E4 & H).
  cbv zeta in H. apply bind_Ok in H as (h1 & E5 & H). apply bind_Ok in H as (h2 & E6 & H). injection H as <-.
  assert (NE : names_ext h h2) by (eapply names_ext_trans; eapply push_arc_ext; eauto).
  split; [eapply wnames_ext; eauto|exact NE].
Qed.
Lemma wn_empty h r : wnames (h, mkGraph r [] [] [] []).
Proof.
  constructor; cbn; try constructor; try discriminate; try tauto.
Qed.
Lemma clear_ext l : forall h h', for_each l clear_step h = Ok h' -> names_ext h h'.
Proof.
  induction l as [|a l IH]; intros h h' H; cbn [for_each] in H.
  - injection H as <-. apply names_ext_refl.
  - apply bind_Ok in H as (h1 & E & H). unfold clear_step in E. apply bind_Ok in E as (nd & E & E2). apply get_Ok in E.
    eapply names_ext_trans; [eapply set_node_ext; [eassumption| |eassumption]; reflexivity|]. auto.
Qed.
Lemma wn_clear : keeps wnames Tn clear.
Proof.
  apply (keeps_mod wnames Tn Tn_refl). intros (h & g) s' HI H. cbn [fst snd] in H. apply bind_Ok in H as (h' & E & H). injection H as <-.
  split; [apply wn_empty|]. eapply clear_ext; eauto.
Qed.

(** *** Copies. *)
Lemma wn_copy_nodes l : forall h g s', wnames (h, g) ->
  (forall a, In a l -> a < length (hNodes h)) -> NoDup (map (fun a => bname (body_at h a)) l) ->
  (forall a, In a l -> mfind (gBody g) (bname (body_at h a)) = None) ->
  for_each l copy_node (h, g) = Ok s' -> wnames s' /\ names_ext h (fst s') /\ gJoints (snd s') = gJoints g /\ gJoint (snd s') = gJoint g.
Proof.
  induction l as [|a l IH]; intros h g s' HI L ND NM H; cbn [for_each] in H.
  - injection H as <-. split; [auto|]. split; [apply names_ext_refl|auto].
  - apply bind_Ok in H as (s1 & E & H). unfold copy_node in E. apply bind_Ok in E as (nd & E & E2). apply get_Ok in E.
    injection E2 as <-. destruct (node_at _ _ _ E) as (EB & _ & LA).
    cbn [map] in ND. inversion ND as [|x y ND1 ND2]; subst x y.
    assert (NN : mfind (gBody g) (bname (nBody nd)) = None) by (rewrite <- EB; apply NM; now left).
    pose proof (alloc_node_ext h (nBody nd)) as NE.
    pose proof (wn_newbody h g (nBody nd) HI NN) as W1.
    destruct (IH _ _ s' W1) as (R1 & R2 & R3 & R4).
    + intros b Hb. cbn [hNodes]. rewrite app_length. specialize (L b (or_intror Hb)). lia.
    + erewrite map_ext_in; [exact ND2|]. intros b Hb. apply (ne_name _ _ NE). apply L. now right.
    + intros b Hb. cbn [gBody]. rewrite (ne_name _ _ NE) by (apply L; now right). rewrite mfind_mset_neq.
      * apply NM. now right.
      * rewrite <- EB. intro EQ. apply ND1. rewrite <- EQ. apply (in_map (fun a => bname (body_at h a))). auto.
    + exact H.
    + split; auto. split; [eapply names_ext_trans; eauto|]. cbn in R3, R4. auto.
Qed.
Lemma wn_copy_joints l : forall h g s', wnames (h, g) ->
  (forall p, In p l -> p < length (hJoints h)) -> NoDup (map (fun p => jname (joint_at h p)) l) ->
  (forall p, In p l -> mfind (gJoint g) (jname (joint_at h p)) = None) ->
  for_each l copy_joint (h, g) = Ok s' -> wnames s' /\ names_ext h (fst s').
Proof.
  induction l as [|a l IH]; intros h g s' HI L ND NM H; cbn [for_each] in H.
  - injection H as <-. split; [auto|]. apply names_ext_refl.
  - apply bind_Ok in H as (s1 & E & H). unfold copy_joint in E. apply bind_Ok in E as (j & E & E2). apply get_Ok in E.
    injection E2 as <-.
    assert (EB : joint_at h a = j) by (unfold joint_at; now apply nth_error_nth).
    cbn [map] in ND. inversion ND as [|x y ND1 ND2]; subst x y.
    assert (NN : mfind (gJoint g) (jname j) = None) by (rewrite <- EB; apply NM; now left).
    pose proof (alloc_joint_ext h j) as NE.
    pose proof (wn_newjoint h g j HI NN) as W1.
    assert (EQJ : forall b, In b l -> joint_at (mkHeap (hNodes h) (hJoints h ++ [j])) b = joint_at h b).
    { intros b Hb. apply joint_at_ext; auto. apply L. now right. }
    destruct (IH _ _ s' W1) as (R1 & R2).
    + intros b Hb. cbn [hJoints]. rewrite app_length. specialize (L b (or_intror Hb)). lia.
    + erewrite map_ext_in; [exact ND2|]. intros b Hb. now rewrite EQJ.
    + intros b Hb. cbn [gJoint]. rewrite EQJ by auto. rewrite mfind_mset_neq.
      * apply NM. now right.
      * rewrite <- EB. intro EQ. apply ND1. rewrite <- EQ. apply (in_map (fun a => jname (joint_at h a))). auto.
    + exact H.
    + split; auto. eapply names_ext_trans; eauto.
Qed.
Lemma for_each_ext {A} (l : list A) f : (forall a h h', f a h = Ok h' -> names_ext h h') -> forall h h', for_each l f h = Ok h' -> names_ext h h'.
Proof.
  intro HF. induction l as [|a l IH]; intros h h' H; cbn [for_each] in H.
  - injection H as <-. apply names_ext_refl.
  - apply bind_Ok in H as (h1 & E & H). eapply names_ext_trans; eauto.
Qed.
Lemma for_from_ext n f : (forall a h h', f a h = Ok h' -> names_ext h h') -> forall lo h h', for_from lo n f h = Ok h' -> names_ext h h'.
Proof.
  intro HF. induction n as [|n IH]; intros lo h h' H; cbn [for_from] in H.
  - injection H as <-. apply names_ext_refl.
  - apply bind_Ok in H as (h1 & E & H). eapply names_ext_trans; eauto.
Qed.
Lemma copy_arcs_ext src g i h h' : copy_arcs src g i h = Ok h' -> names_ext h h'.
Proof.
  unfold copy_arcs. intro H. apply bind_Ok in H as (a & _ & H). apply bind_Ok in H as (b & _ & H). apply bind_Ok in H as (nd & _ & H).
  eapply for_each_ext; [|exact H]. intros e h1 h2 H1. unfold copy_arc in H1.
  apply bind_Ok in H1 as (nx & _ & H1). apply bind_Ok in H1 as (n & _ & H1). eapply push_arc_ext; eauto.
Qed.
Lemma wn_copy src h r s' : wnames (h, src) -> copy src (h, mkGraph r [] [] [] []) = Ok s' -> wnames s' /\ names_ext h (fst s').
Proof.
  intros WS H. unfold copy in H. cbn [fst snd gNodes gJoints gBody gJoint] in H.
  apply bind_Ok in H as (s1 & E1 & H). apply bind_Ok in H as (s2 & E2 & H). apply bind_Ok in H as (h3 & E3 & H). injection H as <-.
  destruct (wn_copy_nodes (gNodes src) h _ s1 (wn_empty h (gRoot src))) as (W1 & N1 & J1 & J2); auto.
  { apply (wn_node _ WS). } { apply (wn_bodies _ WS). }
  destruct s1 as (h1 & g1). cbn [fst snd gJoints gJoint] in *.
  assert (EJ : forall p, In p (gJoints src) -> joint_at h1 p = joint_at h p).
  { intros p Hp. apply joint_at_ext; auto. apply (wn_jnt _ WS p Hp). }
  destruct (wn_copy_joints (gJoints src) h1 g1 s2 W1) as (W2 & N2); auto.
  { intros p Hp. pose proof (ne_jlen _ _ N1). pose proof (proj1 (wn_jnt _ WS p Hp)). cbn [fst] in *. lia. }
  { erewrite map_ext_in; [apply (wn_joints _ WS)|]. intros p Hp. cbn [fst]. now rewrite EJ. }
  { intros p Hp. now rewrite J2. }
  destruct s2 as (h2 & g2). cbn [fst snd] in *.
  assert (N3 : names_ext h2 h3).
  { unfold for_up in E3. eapply for_from_ext; [|exact E3]. intros. eapply copy_arcs_ext; eauto. }
  split; [eapply wnames_ext; eauto|]. eapply names_ext_trans; [|exact N3]. eapply names_ext_trans; eauto.
Qed.
Lemma fix_node_ext names all a h h' : fix_node names all a h = Ok h' -> names_ext h h'.
Proof. unfold fix_node. intro H. apply bind_Ok in H as (nd & E & H). apply get_Ok in E. eapply set_node_ext; [eassumption| |eassumption]; reflexivity. Qed.
Lemma wn_fix_ptr i s s' : wnames s -> fix_ptr i s = Ok s' -> wnames s' /\ names_ext (fst s) (fst s').
Proof.
  destruct s as (h & g). intros HI H. unfold fix_ptr in H. apply bind_Ok in H as (p & E1 & H). apply bind_Ok in H as (j & E2 & H).
  apply bind_Ok in H as (js & E3 & H). injection H as <-. apply get_Ok in E1, E2.
  pose proof (alloc_joint_ext h (fixed_of j)) as NE. split; [|exact NE].
  assert (LI : i < length (gJoints g)) by (apply nth_error_Some; congruence).
  rewrite set_ok in E3 by auto. injection E3 as <-.
  assert (EJ : joint_at h p = j) by (unfold joint_at; now apply nth_error_nth).
  pose proof (wnames_ext _ _ g NE HI) as [A B C D E F]. cbn [fst snd] in *.
  set (h2 := mkHeap (hNodes h) (hJoints h ++ [fixed_of j])) in *.
  assert (EN : joint_names (h2, mkGraph (gRoot g) (gNodes g) (upd (gJoints g) i (length (hJoints h))) (gBody g) (gJoint g)) = joint_names (h2, g)).
  { unfold joint_names. cbn [fst snd gJoints]. apply (list_ext_nth _ _ EmptyString).
    - now rewrite !map_length, upd_length.
    - intros k Hk. rewrite !map_length, upd_length in Hk.
      rewrite !(nth_indep _ EmptyString ((fun p => jname (joint_at h2 p)) 0)) by (rewrite map_length, ?upd_length; auto).
      rewrite !(map_nth (fun p => jname (joint_at h2 p))). destruct (Nat.eq_dec i k) as [<-|N].
      + rewrite nth_upd_eq by auto. unfold h2 at 1. rewrite joint_at_new. rewrite (nth_error_nth _ _ _ E1).
        rewrite (joint_at_ext h h2); [now rewrite EJ|auto|]. apply nth_error_Some. congruence.
      + now rewrite nth_upd_neq. }
  constructor; cbn [fst snd gNodes gJoints gBody gJoint]; rewrite ?EN; auto.
  intros p0 Hp. apply (In_nth _ _ 0) in Hp as (k & Hk & <-). rewrite upd_length in Hk. destruct (Nat.eq_dec i k) as [<-|N].
  - rewrite nth_upd_eq by auto. unfold h2. rewrite joint_at_new. cbn [hJoints]. rewrite app_length. cbn [length]. split; [lia|].
    unfold fixed_of. cbn [mkJ jname]. destruct (F p) as (_ & F2).
    { eapply nth_error_In; eauto. }
    rewrite (joint_at_ext h h2) in F2; [now rewrite EJ in F2|auto|]. apply nth_error_Some. congruence.
  - rewrite nth_upd_neq by auto. apply F. now apply nth_In.
Qed.
Lemma wn_fix src names all h s' : wnames (h, src) -> fixJoints src names all h = Ok s' -> wnames s' /\ names_ext h (fst s').
Proof.
  intros WS H. unfold fixJoints, Graph_copy in H. apply bind_Ok in H as (s1 & E1 & H). apply bind_Ok in H as (s2 & E2 & H).
  apply bind_Ok in H as (h3 & E3 & H). injection H as <-.
  destruct (wn_copy src h _ s1 WS E1) as (W1 & N1).
  assert (W2 : wnames s2 /\ names_ext (fst s1) (fst s2)).
  { destruct all.
    - unfold for_up in E2. clear -W1 E2. revert E2. generalize (length (gJoints (snd s1))) as n. generalize 0 as lo. intros lo n. revert lo s1 W1.
      induction n as [|n IH]; intros lo s1 W1 H; cbn [for_from] in H.
      + injection H as <-. split; [auto|apply names_ext_refl].
      + apply bind_Ok in H as (s3 & E & H). destruct (wn_fix_ptr _ _ _ W1 E) as (W3 & N3). destruct (IH _ _ W3 H) as (W4 & N4).
        split; auto. eapply names_ext_trans; eauto.
    - clear -W1 E2. revert s1 W1 E2. induction names as [|n l IH]; intros s1 W1 H; cbn [for_each] in H.
      + injection H as <-. split; [auto|apply names_ext_refl].
      + apply bind_Ok in H as (s3 & E & H). unfold fix_name in E. apply bind_Ok in E as (p & _ & E). injection E as <-. eauto. }
  destruct W2 as (W2 & N2). destruct s2 as (h2 & g2). cbn [fst snd] in *.
  assert (N3 : names_ext h2 h3) by (eapply for_each_ext; [|exact E3]; intros; eapply fix_node_ext; eauto).
  split; [eapply wnames_ext; eauto|]. eapply names_ext_trans; [|exact N3]. eapply names_ext_trans; eauto.
Qed.

(** ** Histories. *)
Definition all_wn (P : Prog) : Prop := forall g, In g (pGraphs P) -> wnames (pHeap P, g).
Lemma all_wn_upd P k h' g' : all_wn P -> names_ext (pHeap P) h' -> wnames (h', g') -> all_wn (mkProg h' (upd (pGraphs P) k g')).
Proof.
  intros A NE W g Hg. cbn [pHeap pGraphs] in *. apply (In_nth _ _ g') in Hg as (i & Hi & E). rewrite upd_length in Hi.
  destruct (Nat.eq_dec k i) as [<-|N].
  - rewrite nth_upd_eq in E by auto. now subst.
  - rewrite nth_upd_neq in E by auto. eapply wnames_ext; [exact NE|]. apply A. subst g. now apply nth_In.
Qed.
Lemma all_wn_new P h' g' : all_wn P -> names_ext (pHeap P) h' -> wnames (h', g') -> all_wn (mkProg h' (pGraphs P ++ [g'])).
Proof.
  intros A NE W g Hg. cbn [pHeap pGraphs] in *. apply in_app_iff in Hg as [Hg|[<-|[]]]; auto. eapply wnames_ext; eauto.
Qed.
Definition pgood (o : pout) : Prop := match o with PRet P | PExc _ P => all_wn P | _ => True end.
Lemma on_graph_wn P k f : all_wn P -> keeps wnames Tn f -> pgood (on_graph P k f).
Proof.
  intros A K. unfold on_graph. destruct (nth_error (pGraphs P) k) as [g|] eqn:E; [|exact I].
  assert (W : wnames (pHeap P, g)) by (apply A; eapply nth_error_In; eauto). specialize (K _ W).
  destruct (f (pHeap P, g)) as [x (h' & g')|e (h' & g')| |]; cbn; auto; destruct K as (K1 & K2); apply all_wn_upd; auto.
Qed.
Lemma step_wn fuel o P : all_wn P -> pgood (step fuel o P).
Proof.
  intros A. destruct o; cbn [step].
  - cbn. apply all_wn_new; auto; [apply names_ext_refl|apply wn_empty].
  - apply on_graph_wn; auto using wn_addBody.
  - apply on_graph_wn; auto using wn_addJoint.
  - apply on_graph_wn; auto using wn_link.
  - apply on_graph_wn; auto using wn_remove.
  - apply on_graph_wn; auto using wn_removes.
  - apply on_graph_wn; auto using wn_merge.
  - apply on_graph_wn; auto using wn_clear.
  - unfold of_graph, get. destruct (nth_error (pGraphs P) k) as [g|] eqn:E; cbn [bind]; [|exact I].
    assert (W : wnames (pHeap P, g)) by (apply A; eapply nth_error_In; eauto).
    unfold Graph_copy. destruct (copy g _) as [(h' & g')|e| |] eqn:EC; cbn; auto. destruct (wn_copy _ _ _ _ W EC). apply all_wn_new; auto.
  - destruct (k =? l); [destruct (nth_error (pGraphs P) k); cbn; auto|].
    destruct (nth_error (pGraphs P) l) as [src|] eqn:E; [|exact I].
    assert (W : wnames (pHeap P, src)) by (apply A; eapply nth_error_In; eauto).
    unfold on_graph. destruct (nth_error (pGraphs P) k) as [g|] eqn:Eg; [|exact I].
    assert (Wg : wnames (pHeap P, g)) by (apply A; eapply nth_error_In; eauto).
    unfold Graph_assign, gbind. pose proof (wn_clear _ Wg) as KC.
    destruct (clear (pHeap P, g)) as [x (h1 & g1)|e (h1 & g1)| |] eqn:EC; auto.
    + destruct KC as (K1 & K2). unfold gmod.
      assert (EG : g1 = mkGraph (gRoot g) [] [] [] []).
      { unfold clear, gmod in EC. cbn [fst snd] in EC. destruct (for_each _ _ _); cbn [bind] in EC; try discriminate. now injection EC as _ _ <-. }
      destruct (copy src (h1, g1)) as [(h2 & g2)|e| |] eqn:E2; cbn; auto.
      * subst g1. destruct (wn_copy src h1 _ (h2, g2) (wnames_ext _ _ _ K2 W) E2) as (W2 & N2).
        apply all_wn_upd; auto. eapply names_ext_trans; eauto.
      * apply all_wn_upd; auto.
    + destruct KC. cbn. apply all_wn_upd; auto.
  - unfold of_graph, get. destruct (nth_error (pGraphs P) k) as [g|] eqn:E; cbn [bind]; [|exact I].
    assert (W : wnames (pHeap P, g)) by (apply A; eapply nth_error_In; eauto).
    destruct (fixJoints g names all (pHeap P)) as [(h' & g')|e| |] eqn:EC; cbn; auto. destruct (wn_fix _ _ _ _ _ W EC). apply all_wn_new; auto.
Qed.
Lemma run_wn fuel os : forall P P', all_wn P -> run_ops fuel os P = Some P' -> all_wn P'.
Proof.
  induction os as [|o os IH]; intros P P' A H; cbn [run_ops] in H; [now injection H as <-|].
  pose proof (step_wn fuel o P A) as G. destruct (step fuel o P); cbn in G; try discriminate; eauto.
Qed.

(** C42. *)
Lemma graph_names fuel os P k s : run_ops fuel os prog0 = Some P -> graph_st P k = Some s ->
  NoDup (body_names s) /\ NoDup (joint_names s) /\
  length (gNodes (snd s)) = length (body_names s) /\ length (gJoints (snd s)) = length (joint_names s) /\
  (forall n, In n (body_names s) -> exists nd, nodeByName n s = Ok nd /\ bname (nBody nd) = n) /\
  (forall n, ~ In n (body_names s) -> nodeByName n s = Throw OutOfRange) /\
  (forall n, In n (joint_names s) -> exists j, jointByName n s = Ok j /\ jname j = n) /\
  (forall n, ~ In n (joint_names s) -> jointByName n s = Throw OutOfRange) /\
  (forall B, In (bname B) (body_names s) <-> addBody B s = GExc DomainError s) /\
  (forall J, In (jname J) (joint_names s) <-> addJoint J s = GExc DomainError s).
Proof.
  intros H G. assert (W : wnames s).
  { unfold graph_st in G. destruct (nth_error (pGraphs P) k) as [g|] eqn:E; [|discriminate]. injection G as <-.
    apply (run_wn fuel os prog0 P); auto; [intros g0 []|eapply nth_error_In; eauto]. }
  destruct s as (h & g). destruct W as [A B C D E F]. cbn [fst snd] in *.
  assert (BN : forall n, In n (body_names (h, g)) <-> mfind (gBody g) n <> None).
  { intro n. unfold body_names. cbn [fst snd]. rewrite in_map_iff. split.
    - intros (a & E1 & E2). assert (X : mfind (gBody g) n = Some a) by (apply C; auto). congruence.
    - intro N. destruct (mfind (gBody g) n) as [a|] eqn:X; [|contradiction]. apply C in X as (X1 & X2). eauto. }
  assert (JN : forall n, In n (joint_names (h, g)) <-> mfind (gJoint g) n <> None).
  { intro n. split.
    - unfold joint_names. cbn [fst snd]. rewrite in_map_iff. intros (p & <- & E2). apply F; auto.
    - intro N. destruct (mfind (gJoint g) n) as [p|] eqn:X; [|contradiction]. apply (E _ _ X). }
  split; [exact A|]. split; [exact B|]. split; [unfold body_names; now rewrite map_length|]. split; [unfold joint_names; now rewrite map_length|].
  split; [|split; [|split; [|split; [|split]]]].
  - intros n Hn. apply BN in Hn. destruct (mfind (gBody g) n) as [a|] eqn:X; [|contradiction].
    pose proof X as X'. apply C in X' as (X1 & X2). destruct (nth_error (hNodes h) a) as [nd|] eqn:Y.
    + exists nd. unfold nodeByName, mat_. cbn [fst snd]. rewrite X. cbn [bind]. split; [now apply get_Ok|].
      rewrite <- X2. f_equal. symmetry. apply (node_at _ _ _ Y).
    + apply nth_error_None in Y. specialize (D a X1). lia.
  - intros n Hn. unfold nodeByName, mat_. cbn [fst snd]. destruct (mfind (gBody g) n) eqn:X; [|reflexivity]. exfalso. apply Hn, BN. congruence.
  - intros n Hn. apply JN in Hn. destruct (mfind (gJoint g) n) as [p|] eqn:X; [|contradiction].
    destruct (E _ _ X) as (X1 & X2 & _). exists (joint_at h p). unfold jointByName, mat_. cbn [fst snd]. rewrite X. cbn [bind].
    split; [now apply get_nth|auto].
  - intros n Hn. unfold jointByName, mat_. cbn [fst snd]. destruct (mfind (gJoint g) n) eqn:X; [|reflexivity]. exfalso. apply Hn, JN. congruence.
  - intros Bd. rewrite BN. unfold addBody. destruct (mfind (gBody g) (bname Bd)); split; try congruence; intros _ ?; discriminate.
  - intros J. rewrite JN. unfold addJoint. destruct (mfind (gJoint g) (jname J)); split; try congruence; intros _ ?; discriminate.
Qed.
