(** Graphs do not share memory: every operation writes only to nodes of its own graph. *)
From Coq Require Import Reals String ZArith Bool Arith List Lia Relations.
From Verif Require Import Res ResP SMap Vec Mat Sva JointM MultiBodyM KinM GraphM Spec SpecGraph SpecGraphOp GraphP GraphWalkP GraphHistP GraphSimP GraphCopyP.
Import ListNotations.
Open Scope R_scope.
Local Open Scope nat_scope.

(** The set [O] of nodes belongs to the graph. *)
Record own (O : nat -> Prop) (s : GSt) : Prop := {
  ow_lt : forall a, O a -> a < length (hNodes (fst s));
  ow_node : forall a, In a (gNodes (snd s)) -> O a;
  ow_body : forall n a, mfind (gBody (snd s)) n = Some a -> O a;
  ow_next : forall a e, O a -> In e (arcs_at (fst s) a) -> O (aNext e)
}.
(** Only the nodes of [O] and new ones are written. *)
Record frame (O : nat -> Prop) (h h' : Heap) : Prop := {
  fr_len : length (hNodes h) <= length (hNodes h');
  fr_node : forall a, a < length (hNodes h) -> ~ O a -> nth_error (hNodes h') a = nth_error (hNodes h) a;
  fr_jnt : exists l, hJoints h' = hJoints h ++ l
}.
Lemma frame_refl O h : frame O h h.
Proof. constructor; auto. exists []. now rewrite app_nil_r. Qed.
Lemma frame_trans O h h1 h2 : frame O h h1 -> frame O h1 h2 -> frame O h h2.
Proof.
  intros [A1 A2 (l1 & A3)] [B1 B2 (l2 & B3)]. constructor; [lia| |].
  - intros a La Na. rewrite B2, A2; auto. lia.
  - exists (l1 ++ l2). rewrite B3, A3. now rewrite app_assoc.
Qed.
Lemma frame_sub (O O' : nat -> Prop) h h' : (forall a, O a -> O' a) -> frame O h h' -> frame O' h h'.
Proof. intros S [A1 A2 A3]. constructor; auto. Qed.
Lemma frame_new (O : nat -> Prop) h h' : frame (fun _ => False) h h' -> frame O h h'.
Proof. apply frame_sub. tauto. Qed.
Lemma frame_arcs O h h' a : frame O h h' -> a < length (hNodes h) -> ~ O a -> arcs_at h' a = arcs_at h a.
Proof. intros F L N. unfold arcs_at. now rewrite (fr_node _ _ _ F). Qed.
Lemma own_frame O O' h h' g : own O (h, g) -> frame O' h h' -> (forall a, O a -> ~ O' a) -> own O (h', g).
Proof.
  intros [A B C D] F S. cbn [fst snd] in *. constructor; cbn [fst snd]; auto.
  - intros a Ha. specialize (A a Ha). pose proof (fr_len _ _ _ F). lia.
  - intros a e Ha He. rewrite (frame_arcs _ _ _ _ F) in He; eauto.
Qed.

(** *** The operations that remove. *)
Section Rm.
Variable O : nat -> Prop.
Notation I := (own O).
Definition T (s s' : GSt) : Prop := frame O (fst s) (fst s').
Lemma T_refl s : T s s. Proof. apply frame_refl. Qed.
Lemma T_trans a b c : T a b -> T b c -> T a c. Proof. apply frame_trans. Qed.
Notation K := (keeps I T).
Lemma K_bindp {A B} (Q : A -> Prop) (x : GM A) (f : A -> GM B) : K x -> (forall s a s', I s -> x s = GRet a s' -> Q a) -> (forall a, Q a -> K (f a)) -> K (gbind x f).
Proof.
  intros Hx HQ Hf s Is. specialize (Hx s Is). unfold gbind. destruct (x s) as [a s1|e s1| |] eqn:E; auto.
  destruct Hx as (I1 & T1). specialize (Hf a (HQ _ _ _ Is E) s1 I1). destruct (f a s1) as [b s2|e s2| |]; auto; destruct Hf; split; eauto using T_trans.
Qed.
Lemma K_bind {A B} (x : GM A) (f : A -> GM B) : K x -> (forall a, K (f a)) -> K (gbind x f).
Proof. apply (keeps_bind I T T_trans). Qed.
Lemma K_ret {A} (a : A) : K (gret a). Proof. apply (keeps_ret I T T_refl). Qed.
Lemma K_lift {A} (f : GSt -> res A) : K (glift f). Proof. apply (keeps_lift I T T_refl). Qed.
Definition nextsO (l : list Arc) : Prop := forall e, In e l -> O (aNext e).
Lemma node_nexts a s nd s' : O a -> I s -> glift (fun s => get (hNodes (fst s)) a) s = GRet nd s' -> nextsO (nArcs nd).
Proof.
  intros Oa Is E. unfold glift in E. destruct (get (hNodes (fst s)) a) eqn:G; try discriminate. injection E as <- <-. apply get_Ok in G.
  intros e He. apply (ow_next _ _ Is a e Oa). destruct (node_at _ _ _ G) as (_ & -> & _). exact He.
Qed.
(** Writing to a node: no new link, or links to nodes of [O]. *)
Lemma own_write a nd h g g' : O a -> own O (h, g) -> nextsO (nArcs nd) ->
  (forall b, In b (gNodes g') -> O b) -> (forall n b, mfind (gBody g') n = Some b -> O b) ->
  own O (mkHeap (upd (hNodes h) a nd) (hJoints h), g') /\ frame O h (mkHeap (upd (hNodes h) a nd) (hJoints h)).
Proof.
  intros Oa [A B C D] NX GN GB. cbn [fst snd] in *. split.
  - constructor; cbn [fst snd hNodes]; auto.
    + intros b Hb. rewrite upd_length. auto.
    + intros b e Hb He. rewrite arcs_at_upd in He. destruct ((a =? b) && (a <? length (hNodes h))); eauto.
  - constructor; cbn [hNodes hJoints].
    + rewrite upd_length. auto.
    + intros b _ Nb. apply nth_error_upd_neq. congruence.
    + exists []. now rewrite app_nil_r.
Qed.
Lemma erase_find_sub l p l' : erase_find l p = Ok l' -> forall x, In x l' -> In x l.
Proof.
  revert l'. induction l as [|y l IH]; intros l' H x Hx; cbn [erase_find] in H; [discriminate|]. destruct (y =? p).
  - injection H as <-. now right.
  - apply bind_Ok in H as (l2 & E & H). injection H as <-. destruct Hx as [<-|Hx]; [now left|right; eauto].
Qed.
Lemma K_drop a : O a -> K (drop_node a).
Proof.
  intro Oa. apply (keeps_mod I T T_refl). intros (h & g) s' Is H. apply bind_Ok in H as (nd & E1 & H). apply bind_Ok in H as (h1 & E2 & H). apply bind_Ok in H as (ns & E3 & H). injection H as <-.
  apply set_node_spec in E2 as (_ & ->). apply own_write with (g := g); auto; cbn [gNodes gBody with_arcs nArcs].
  - intros e [].
  - intros b Hb. apply (ow_node _ _ Is). eapply erase_find_sub; eauto.
  - intros n b Hb. apply (ow_body _ _ Is n b). cbn [snd]. destruct (string_dec n (bname (nBody nd))) as [->|N]; [now rewrite mfind_mdel_eq in Hb|]. now rewrite mfind_mdel_neq in Hb.
Qed.
Lemma K_rm e : K (gmod (fun s =>
    let (h, g) := s in
    p <- mat_ (gJoint g) (ajn e) ;;
    js <- erase_find (gJoints g) p ;;
    Ok (h, mkGraph (gRoot g) (gNodes g) js (gBody g) (mdel (gJoint g) (ajn e))))).
Proof.
  apply (keeps_mod I T T_refl). intros (h & g) s' Is H. apply bind_Ok in H as (p & E1 & H). apply bind_Ok in H as (js & E2 & H). injection H as <-.
  split; [|apply frame_refl]. destruct Is as [A B C D]. constructor; auto.
Qed.
Lemma K_set a Ib : O a -> K (gmod (fun s => nd <- get (hNodes (fst s)) a ;;
                        h <- set_node (fst s) a (mkNode (mkBody Ib (bname (nBody nd))) (nArcs nd)) ;; Ok (h, snd s))).
Proof.
  intro Oa. apply (keeps_mod I T T_refl). intros (h & g) s' Is H. cbn [fst snd] in H. apply bind_Ok in H as (nd & E1 & H). apply bind_Ok in H as (h1 & E2 & H). injection H as <-.
  apply get_Ok in E1. destruct (node_at _ _ _ E1) as (_ & EA & _). apply set_node_spec in E2 as (_ & ->). apply own_write with (g := g); auto; cbn [nArcs].
  - intros e He. apply (ow_next _ _ Is a e Oa). cbn [fst]. now rewrite EA.
  - apply (ow_node _ _ Is). - apply (ow_body _ _ Is).
Qed.
Lemma remove_nth_sub {A} k (l : list A) x : In x (remove_nth k l) -> In x l.
Proof. revert k. induction l as [|y l IH]; intros [|k] H; cbn [remove_nth] in H; auto; [now right|]. destruct H as [->|H]; [now left|right; eauto]. Qed.
Lemma K_erase a k : O a -> K (erase_arc a k).
Proof.
  intro Oa. apply (keeps_mod I T T_refl). intros (h & g) s' Is H. apply bind_Ok in H as (nd & E1 & H). apply bind_Ok in H as (h1 & E2 & H). injection H as <-.
  apply get_Ok in E1. destruct (node_at _ _ _ E1) as (_ & EA & _). apply set_node_spec in E2 as (_ & ->). apply own_write with (g := g); auto; cbn [nArcs with_arcs].
  - intros e He. apply remove_nth_sub in He. apply (ow_next _ _ Is a e Oa). cbn [fst]. now rewrite EA.
  - apply (ow_node _ _ Is). - apply (ow_body _ _ Is).
Qed.
Lemma K_rmNode fuel : forall jf a, O a -> K (rmNodeFromMbg fuel jf a).
Proof.
  induction fuel as [|f IH]; intros jf a Oa; cbn [rmNodeFromMbg]; [intros s Is; exact Logic.I|].
  apply (K_bindp (fun nd => nextsO (nArcs nd))); [apply K_lift|intros; eapply node_nexts; eauto|]. intros nd NX.
  apply K_bind; [|intros _; now apply K_drop]. apply (keeps_for I T T_refl T_trans). intros e He. destruct (String.eqb (ajn e) jf); [apply K_ret|].
  apply K_bind; [|intros _; apply (keeps_still I T T_refl)]. apply K_bind; [apply K_rm|]. intros _. apply IH. auto.
Qed.
Lemma K_explore hit rec pj jn l : (forall k e, In e l -> K (hit k e)) -> (forall a p, O a -> K (rec a p)) -> nextsO l ->
  forall k, K (explore hit rec pj jn k l).
Proof.
  intros H1 H2 NX. induction l as [|e l IH]; intro k; cbn [explore]; [apply K_ret|].
  assert (IH' : forall k, K (explore hit rec pj jn k l)). { apply IH; [intros; apply H1; now right|intros x Hx; apply NX; now right]. }
  destruct (String.eqb (ajn e) pj); [apply IH'|]. destruct (String.eqb (ajn e) jn).
  - apply K_bind; [apply H1; now left|intros _; apply K_ret].
  - apply K_bind; [apply H2, NX; now left|]. intros [|]; [apply K_ret|apply IH'].
Qed.
Lemma K_hit F a n k e : O a -> O (aNext e) -> K (gbind (rmArcFromMbg (rmNodeFromMbg F) e) (fun _ => gbind (still a n) (fun _ => erase_arc a k))).
Proof.
  intros Oa On. apply K_bind; [apply K_bind; [apply K_rm|intros _; now apply K_rmNode]|]. intros _.
  apply K_bind; [apply (keeps_still I T T_refl)|intros _; now apply K_erase].
Qed.
Lemma K_rmArc F fuel : forall a pj jn, O a -> K (rmArc F fuel a pj jn).
Proof.
  induction fuel as [|f IH]; intros a pj jn Oa; cbn [rmArc]; [intros s Is; exact Logic.I|].
  apply (K_bindp (fun nd => nextsO (nArcs nd))); [apply K_lift|intros; eapply node_nexts; eauto|]. intros nd NX.
  apply K_explore; auto. intros k e He. apply K_hit; auto.
Qed.
Lemma mat_own n (s : GSt) a s' : I s -> glift (fun s => mat_ (gBody (snd s)) n) s = GRet a s' -> O a.
Proof.
  intros Is H. unfold glift, mat_ in H. destruct (mfind (gBody (snd s)) n) eqn:E; try discriminate. injection H as <- _. exact (ow_body _ _ Is _ _ E).
Qed.
Lemma K_removeJoint fuel root jn : K (removeJoint fuel root jn).
Proof.
  unfold removeJoint. apply (K_bindp O); [apply K_lift|intros; eapply mat_own; eauto|]. intros a Oa. apply K_bind; [apply (keeps_peek I T T_refl (fun s => mfind (gJoint (snd s)) jn))|].
  intros [p|]; [|apply K_ret].
  apply (keeps_with I T (fun s => gRoot (snd s)) (fun r => gbind (rmArc fuel fuel a r jn) (fun _ => gret tt))).
  intro b. apply K_bind; [now apply K_rmArc|intros; apply K_ret].
Qed.
Lemma K_removeJoints fuel root js : K (removeJoints fuel root js).
Proof.
  unfold removeJoints. apply K_bind; [apply K_lift|]. intros _. apply (keeps_for I T T_refl T_trans). intros jn _.
  apply K_bind; [apply (keeps_peek I T T_refl (fun s => mfind (gJoint (snd s)) jn))|]. intros [p|]; [apply K_removeJoint|apply K_ret].
Qed.
Lemma K_merge fuel root jn pos : K (mergeSubBodies fuel root jn pos).
Proof.
  unfold mergeSubBodies. apply (K_bindp O); [apply K_lift|intros; eapply mat_own; eauto|]. intros a Oa.
  apply (keeps_with I T (fun s => gRoot (snd s)) (fun r => gbind (findMergeSubNodes fuel fuel a r jn pos) (fun _ => gret tt))).
  intro b. apply K_bind; [|intros; apply K_ret].
  assert (G : forall f2 a pj, O a -> K (findMergeSubNodes fuel f2 a pj jn pos)).
  { induction f2 as [|f2 IH]; intros a0 pj Oa0; cbn [findMergeSubNodes]; [intros s Is; exact Logic.I|].
    apply (K_bindp (fun nd => nextsO (nArcs nd))); [apply K_lift|intros; eapply node_nexts; eauto|]. intros nd NX.
    apply K_explore; auto. intros k e He. unfold merge_hit. apply K_bind; [apply K_lift|]. intros Ib.
    apply K_bind; [now apply K_set|]. intros _. apply K_hit; auto. }
  now apply G.
Qed.
(** *** Links and clearing. *)
Lemma K_push a e : O a -> O (aNext e) -> K (gmod (fun s => h <- push_arc a e (fst s) ;; Ok (h, snd s))).
Proof.
  intros Oa On. apply (keeps_mod I T T_refl). intros (h & g) s' Is H. cbn [fst snd] in H. apply bind_Ok in H as (h1 & E & H). injection H as <-.
  unfold push_arc in E. apply bind_Ok in E as (nd & E1 & E2). apply get_Ok in E1. destruct (node_at _ _ _ E1) as (_ & EA & _). apply set_node_spec in E2 as (_ & ->).
  apply own_write with (g := g); auto; cbn [nArcs with_arcs].
  - intros x Hx. apply in_app_iff in Hx as [Hx|[<-|[]]]; auto. apply (ow_next _ _ Is a x Oa). cbn [fst]. now rewrite EA.
  - apply (ow_node _ _ Is). - apply (ow_body _ _ Is).
Qed.
Lemma K_link b1 t1 b2 t2 jn d : K (linkBodies b1 t1 b2 t2 jn d).
Proof.
  unfold linkBodies. apply (K_bindp O); [apply K_lift|intros; eapply mat_own; eauto|]. intros n1 O1.
  apply (K_bindp O); [apply K_lift|intros; eapply mat_own; eauto|]. intros n2 O2. apply K_bind; [apply K_lift|]. intros j.
  apply K_bind; [now apply K_push|]. intros _. now apply K_push.
Qed.
Lemma K_clear_steps l : forall h g h', (forall a, In a l -> O a) -> own O (h, g) -> for_each l clear_step h = Ok h' -> own O (h', g) /\ frame O h h'.
Proof.
  induction l as [|a l IH]; intros h g h' HL HI H; cbn [for_each] in H.
  - injection H as <-. split; auto using frame_refl.
  - apply bind_Ok in H as (h1 & E & H). unfold clear_step in E. apply bind_Ok in E as (nd & E1 & E2). apply set_node_spec in E2 as (_ & ->).
    destruct (own_write a (with_arcs nd []) h g g) as (I1 & F1); auto. { apply HL; now left. } { intros e []. } { apply (ow_node _ _ HI). } { apply (ow_body _ _ HI). }
    destruct (IH _ _ _ (fun b Hb => HL b (or_intror Hb)) I1 H) as (I2 & F2). split; auto. eapply frame_trans; eauto.
Qed.
Lemma K_clear : K clear.
Proof.
  apply (keeps_mod I T T_refl). intros (h & g) s' Is H. cbn [fst snd] in H. apply bind_Ok in H as (h1 & E & H). injection H as <-.
  destruct (K_clear_steps _ _ _ _ (ow_node _ _ Is) Is E) as (I1 & F1). split; [|exact F1]. destruct I1 as [A B C D]. constructor; auto; cbn; [intros a []|discriminate].
Qed.
Lemma K_addJoint J : K (addJoint J).
Proof.
  intros (h & g) Is. unfold addJoint. destruct (mfind (gJoint g) (jname J)); [split; auto using T_refl|]. split.
  - destruct Is as [A B C D]. constructor; auto.
  - constructor; cbn [fst hNodes hJoints]; auto. eexists; reflexivity.
Qed.
End Rm.

(** *** Building a copy: only new nodes are written, and the copy points to new nodes only. *)
Definition rng (lo : nat) (h : Heap) (a : nat) : Prop := lo <= a < length (hNodes h).
Definition keepold (lo : nat) (h h' : Heap) : Prop :=
  length (hNodes h) <= length (hNodes h') /\ (forall a, a < lo -> nth_error (hNodes h') a = nth_error (hNodes h) a) /\ (exists l, hJoints h' = hJoints h ++ l).
Lemma keepold_refl lo h : keepold lo h h.
Proof. split; [auto|]. split; [auto|]. exists []. now rewrite app_nil_r. Qed.
Lemma keepold_trans lo h h1 h2 : keepold lo h h1 -> keepold lo h1 h2 -> keepold lo h h2.
Proof.
  intros (A1 & A2 & l1 & A3) (B1 & B2 & l2 & B3). split; [lia|]. split; [intros a La; rewrite B2, A2; auto|]. exists (l1 ++ l2). rewrite B3, A3. now rewrite app_assoc.
Qed.
Lemma frame_keepold lo h h' : lo <= length (hNodes h) -> frame (rng lo h) h h' -> keepold lo h h'.
Proof. intros LL [A B C]. split; [exact A|]. split; [|exact C]. intros a La. apply B; [lia|]. unfold rng. lia. Qed.
Lemma own_grow h g B g' lo : lo <= length (hNodes h) -> own (rng lo h) (h, g) ->
  let h' := mkHeap (hNodes h ++ [mkNode B []]) (hJoints h) in
  (forall a, In a (gNodes g') -> In a (gNodes g) \/ a = length (hNodes h)) ->
  (forall n a, mfind (gBody g') n = Some a -> (exists m, mfind (gBody g) m = Some a) \/ a = length (hNodes h)) -> own (rng lo h') (h', g') /\ keepold lo h h'.
Proof.
  intros LL [A1 A2 A3 A4] h' G1 G2. cbn [fst snd] in *.
  assert (EL : length (hNodes h') = S (length (hNodes h))) by (unfold h'; cbn [hNodes]; rewrite app_length; cbn; lia).
  assert (UP : forall a, rng lo h a -> rng lo h' a) by (unfold rng; intros; lia).
  split.
  - constructor; cbn [fst snd].
    + intros a [_ Ha]. exact Ha.
    + intros a Ha. destruct (G1 a Ha) as [Ha'| ->]; [auto|unfold rng; lia].
    + intros n a Ha. destruct (G2 n a Ha) as [(m & Ha')| ->]; [eauto|unfold rng; lia].
    + intros a e Ha He. destruct (Nat.eq_dec a (length (hNodes h))) as [->|N].
      * unfold arcs_at, h' in He. cbn [hNodes] in He. rewrite nth_error_app2 in He by lia. rewrite Nat.sub_diag in He. destruct He.
      * assert (Ra : rng lo h a) by (unfold rng in *; lia). apply UP, (A4 a e Ra). unfold arcs_at, h' in *. cbn [hNodes] in He. rewrite nth_error_app1 in He by (destruct Ra; lia). exact He.
  - split; [lia|]. split; [|exists []; unfold h'; cbn; now rewrite app_nil_r]. intros a La. unfold h'. cbn [hNodes]. apply nth_error_app1. lia.
Qed.
Lemma own_copy_nodes lo l : forall h g s', lo <= length (hNodes h) -> own (rng lo h) (h, g) -> for_each l copy_node (h, g) = Ok s' ->
  own (rng lo (fst s')) s' /\ keepold lo h (fst s').
Proof.
  induction l as [|a l IH]; intros h g s' LL HI H; cbn [for_each] in H.
  - injection H as <-. split; auto. apply keepold_refl.
  - apply bind_Ok in H as (s1 & E & H). unfold copy_node in E. apply bind_Ok in E as (nd & E & E2). injection E2 as <-.
    destruct (own_grow h g (nBody nd) (mkGraph (gRoot g) (gNodes g ++ [length (hNodes h)]) (gJoints g) (mset (gBody g) (bname (nBody nd)) (length (hNodes h))) (gJoint g)) lo LL HI) as (I1 & K1).
    { cbn [gNodes]. intros b Hb. apply in_app_iff in Hb as [Hb|[<-|[]]]; auto. }
    { cbn [gBody]. intros n b Hb. destruct (string_dec n (bname (nBody nd))) as [->|N].
      - rewrite mfind_mset_eq in Hb. injection Hb as <-. now right.
      - rewrite mfind_mset_neq in Hb by auto. left. eauto. }
    destruct (IH _ _ _ (Nat.le_trans _ _ _ LL (proj1 K1)) I1 H) as (I2 & K2). split; auto. eapply keepold_trans; eauto.
Qed.
Lemma own_copy_joints lo l : forall h g s', own (rng lo h) (h, g) -> for_each l copy_joint (h, g) = Ok s' ->
  own (rng lo (fst s')) s' /\ keepold lo h (fst s') /\ gNodes (snd s') = gNodes g.
Proof.
  induction l as [|p l IH]; intros h g s' HI H; cbn [for_each] in H.
  - injection H as <-. split; [auto|]. split; [apply keepold_refl|auto].
  - apply bind_Ok in H as (s1 & E & H). unfold copy_joint in E. apply bind_Ok in E as (j & E & E2). injection E2 as <-.
    apply IH in H as (I2 & K2 & EN).
    + split; [exact I2|]. split; [|exact EN]. eapply keepold_trans; [|exact K2]. split; [auto|]. split; [auto|]. eexists; reflexivity.
    + destruct HI as [A B C D]. constructor; auto.
Qed.
Lemma own_copy_arc lo g b e h h' : lo <= length (hNodes h) -> rng lo h b -> own (rng lo h) (h, g) -> copy_arc g b e h = Ok h' ->
  own (rng lo h') (h', g) /\ keepold lo h h' /\ length (hNodes h') = length (hNodes h).
Proof.
  intros LL RB HI H. unfold copy_arc in H. apply bind_Ok in H as (nx & E1 & H). apply bind_Ok in H as (n & E2 & H).
  unfold push_arc in H. apply bind_Ok in H as (nd & E3 & H). apply get_Ok in E3. destruct (node_at _ _ _ E3) as (_ & EA & _). apply set_node_spec in H as (_ & ->).
  unfold mfind_deref in E2. destruct (mfind (gBody g) (bname (nBody nx))) as [n'|] eqn:EB; [|discriminate]. injection E2 as ->.
  destruct (own_write (rng lo h) b (with_arcs nd (nArcs nd ++ [mkArc (aX e) (aJoint e) n])) h g g) as (I1 & F1); auto.
  { cbn [nArcs with_arcs]. intros x Hx. apply in_app_iff in Hx as [Hx|[<-|[]]].
    - apply (ow_next _ _ HI b x RB). cbn [fst]. now rewrite EA.
    - cbn [aNext]. exact (ow_body _ _ HI _ _ EB). }
  { apply (ow_node _ _ HI). } { apply (ow_body _ _ HI). }
  assert (EL : length (hNodes (mkHeap (upd (hNodes h) b (with_arcs nd (nArcs nd ++ [mkArc (aX e) (aJoint e) n]))) (hJoints h))) = length (hNodes h)) by (cbn [hNodes]; apply upd_length).
  split; [|split; [now apply frame_keepold|exact EL]].
  unfold rng in *. rewrite EL. exact I1.
Qed.
Lemma own_copy_arcs lo src g i h h' : lo <= length (hNodes h) -> own (rng lo h) (h, g) -> copy_arcs src g i h = Ok h' ->
  own (rng lo h') (h', g) /\ keepold lo h h' /\ length (hNodes h') = length (hNodes h).
Proof.
  intros LL HI H. unfold copy_arcs in H. apply bind_Ok in H as (a & E1 & H). apply bind_Ok in H as (b & E2 & H). apply bind_Ok in H as (nd & E3 & H).
  apply get_Ok in E2. apply nth_error_In in E2. pose proof (ow_node _ _ HI b E2) as RB. clear E1 E2 E3. revert h LL HI RB H.
  induction (nArcs nd) as [|e l IH]; intros h LL HI RB H; cbn [for_each] in H.
  - injection H as <-. split; [auto|]. split; [apply keepold_refl|auto].
  - apply bind_Ok in H as (h1 & E & H). destruct (own_copy_arc lo g b e h h1 LL RB HI E) as (I1 & K1 & L1).
    destruct (IH h1) as (I2 & K2 & L2); auto; [lia|unfold rng in *; lia|]. split; [auto|]. split; [eapply keepold_trans; eauto|congruence].
Qed.
Lemma own_for_from {P : nat -> Heap -> res Heap} lo g : (forall i h h', lo <= length (hNodes h) -> own (rng lo h) (h, g) -> P i h = Ok h' ->
   own (rng lo h') (h', g) /\ keepold lo h h' /\ length (hNodes h') = length (hNodes h)) ->
  forall n i h h', lo <= length (hNodes h) -> own (rng lo h) (h, g) -> for_from i n P h = Ok h' ->
   own (rng lo h') (h', g) /\ keepold lo h h'.
Proof.
  intros HP n. induction n as [|n IH]; intros i h h' LL HI H; cbn [for_from] in H.
  - injection H as <-. split; auto using keepold_refl.
  - apply bind_Ok in H as (h1 & E & H). destruct (HP _ _ _ LL HI E) as (I1 & K1 & L1). destruct (IH (S i) h1 h') as (I2 & K2); auto; [lia|]. split; auto. eapply keepold_trans; eauto.
Qed.
Lemma own_empty lo h r : lo = length (hNodes h) -> own (rng lo h) (h, mkGraph r [] [] [] []).
Proof. intros ->. constructor; cbn; unfold rng; try tauto; try discriminate; intros; lia. Qed.
Lemma own_copy src h r s' : copy src (h, mkGraph r [] [] [] []) = Ok s' ->
  own (rng (length (hNodes h)) (fst s')) s' /\ keepold (length (hNodes h)) h (fst s').
Proof.
  intro H. unfold copy in H. cbn [fst snd gNodes gJoints gBody gJoint] in H.
  apply bind_Ok in H as (s1 & E1 & H). apply bind_Ok in H as (s2 & E2 & H). apply bind_Ok in H as (h3 & E3 & H). injection H as <-.
  set (lo := length (hNodes h)) in *.
  destruct (own_copy_nodes lo _ _ _ _ (le_n _) (own_empty lo h _ eq_refl) E1) as (I1 & K1). destruct s1 as (h1 & g1).
  destruct (own_copy_joints lo _ _ _ _ I1 E2) as (I2 & K2 & _). destruct s2 as (h2 & g2). cbn [fst snd] in *.
  assert (L2 : lo <= length (hNodes h2)) by (destruct K1 as (K1 & _), K2 as (K2 & _); unfold lo in *; lia).
  destruct (own_for_from lo g2 (own_copy_arcs lo src g2) _ _ h2 h3 L2 I2 E3) as (I3 & K3).
  split; auto. eapply keepold_trans; [|exact K3]. eapply keepold_trans; eauto.
Qed.
Lemma own_fix_ptr lo i (s s' : GSt) : own (rng lo (fst s)) s -> fix_ptr i s = Ok s' -> own (rng lo (fst s')) s' /\ keepold lo (fst s) (fst s') /\ hNodes (fst s') = hNodes (fst s).
Proof.
  destruct s as (h & g). intros HI H. unfold fix_ptr in H. apply bind_Ok in H as (p & E1 & H). apply bind_Ok in H as (j & E2 & H).
  apply bind_Ok in H as (js & E3 & H). injection H as <-. split; [|split; [|reflexivity]].
  - destruct HI as [A B C D]. constructor; auto.
  - split; [auto|]. split; [auto|]. eexists; reflexivity.
Qed.
Lemma own_fix_node lo names all a g h h' : lo <= length (hNodes h) -> rng lo h a -> own (rng lo h) (h, g) -> fix_node names all a h = Ok h' ->
  own (rng lo h') (h', g) /\ keepold lo h h' /\ length (hNodes h') = length (hNodes h).
Proof.
  intros LL RA HI H. unfold fix_node in H. apply bind_Ok in H as (nd & E3 & H). apply get_Ok in E3. destruct (node_at _ _ _ E3) as (_ & EA & _). apply set_node_spec in H as (_ & ->).
  destruct (own_write (rng lo h) a (with_arcs nd (map (fix_arc names all) (nArcs nd))) h g g) as (I1 & F1); auto.
  { cbn [nArcs with_arcs]. intros x Hx. apply in_map_iff in Hx as (y & <- & Hy). unfold fix_arc. assert (Q : rng lo h (aNext y)) by (apply (ow_next _ _ HI a y RA); cbn [fst]; now rewrite EA).
    destruct (existsb _ _); exact Q. }
  { apply (ow_node _ _ HI). } { apply (ow_body _ _ HI). }
  assert (EL : length (hNodes (mkHeap (upd (hNodes h) a (with_arcs nd (map (fix_arc names all) (nArcs nd)))) (hJoints h))) = length (hNodes h)) by (cbn [hNodes]; apply upd_length).
  split; [|split; [now apply frame_keepold|exact EL]]. unfold rng in *. rewrite EL. exact I1.
Qed.
Lemma own_fix src names all h s' : fixJoints src names all h = Ok s' ->
  own (rng (length (hNodes h)) (fst s')) s' /\ keepold (length (hNodes h)) h (fst s').
Proof.
  intro H. unfold fixJoints, Graph_copy in H. apply bind_Ok in H as (s1 & E1 & H). apply bind_Ok in H as (s2 & E2 & H).
  apply bind_Ok in H as (h3 & E3 & H). injection H as <-. destruct (own_copy _ _ _ _ E1) as (I1 & K1). set (lo := length (hNodes h)) in *.
  assert (L1 : lo <= length (hNodes (fst s1))) by (destruct K1; auto).
  assert (W2 : own (rng lo (fst s2)) s2 /\ keepold lo (fst s1) (fst s2)).
  { destruct all.
    - unfold for_up in E2. clear -I1 E2. revert E2. generalize (length (gJoints (snd s1))) as n. generalize 0 as i. intros i n. revert i s1 I1.
      induction n as [|n IH]; intros i s1 I1 H; cbn [for_from] in H.
      + injection H as <-. split; [auto|apply keepold_refl].
      + apply bind_Ok in H as (s3 & E & H). destruct (own_fix_ptr lo _ _ _ I1 E) as (W3 & N3 & _). destruct (IH _ _ W3 H) as (W4 & N4).
        split; auto. eapply keepold_trans; eauto.
    - clear -I1 E2. revert s1 I1 E2. induction names as [|n l IH]; intros s1 I1 H; cbn [for_each] in H.
      + injection H as <-. split; [auto|apply keepold_refl].
      + apply bind_Ok in H as (s3 & E & H). unfold fix_name in E. apply bind_Ok in E as (p & _ & E). injection E as <-. eauto. }
  destruct W2 as (I2 & K2). destruct s2 as (h2 & g2). cbn [fst snd] in *.
  assert (W3 : own (rng lo h3) (h3, g2) /\ keepold lo h2 h3).
  { assert (LL : lo <= length (hNodes h2)) by (destruct K2; lia). assert (SB : forall a, In a (gNodes g2) -> rng lo h2 a) by (apply (ow_node _ _ I2)).
    clear -LL SB I2 E3. revert h2 LL SB I2 E3. induction (gNodes g2) as [|a l IH]; intros h2 LL SB I2 H; cbn [for_each] in H.
    - injection H as <-. split; [auto|apply keepold_refl].
    - apply bind_Ok in H as (h1 & E & H). destruct (own_fix_node lo names all a g2 h2 h1 LL (SB a (or_introl eq_refl)) I2 E) as (J1 & J2 & J3).
      destruct (IH h1) as (J4 & J5); auto; [lia| |]. { intros b Hb. specialize (SB b (or_intror Hb)). unfold rng in *. lia. }
      split; auto. eapply keepold_trans; eauto. }
  destruct W3 as (I3 & K3). split; auto. eapply keepold_trans; [|exact K3]. eapply keepold_trans; eauto.
Qed.

(** *** Programs. *)
Record sep (Os : nat -> nat -> Prop) (P : Prog) : Prop := {
  sp_own : forall k g, nth_error (pGraphs P) k = Some g -> own (Os k) (pHeap P, g);
  sp_dis : forall k l a, k < length (pGraphs P) -> l < length (pGraphs P) -> k <> l -> Os k a -> Os l a -> False
}.
(** An operation may write to the nodes of the graph [t] only, and takes new nodes only. *)
Record moves (t : option nat) (Os Os' : nat -> nat -> Prop) (P P' : Prog) : Prop := {
  mv_len : length (pGraphs P) <= length (pGraphs P');
  mv_jnt : exists l, hJoints (pHeap P') = hJoints (pHeap P) ++ l;
  mv_graph : forall k, t <> Some k -> k < length (pGraphs P) -> nth_error (pGraphs P') k = nth_error (pGraphs P) k;
  mv_own : forall k a, t <> Some k -> k < length (pGraphs P) -> (Os' k a <-> Os k a);
  mv_node : forall k a, t <> Some k -> k < length (pGraphs P) -> Os k a -> nth_error (hNodes (pHeap P')) a = nth_error (hNodes (pHeap P)) a
}.
Lemma moves_refl t Os P : moves t Os Os P P.
Proof. constructor; try tauto; auto. exists []. now rewrite app_nil_r. Qed.
Definition grows (f : GM unit) : Prop := forall O h g, own O (h, g) ->
  match f (h, g) with
  | GRet _ s' | GExc _ s' => exists O', own O' s' /\ (forall a, O' a -> O a \/ length (hNodes h) <= a) /\ frame O h (fst s')
  | _ => True
  end.
Lemma grows_keeps f : (forall O, keeps (own O) (T O) f) -> grows f.
Proof. intros K O h g HO. specialize (K O (h, g) HO). destruct (f (h, g)) as [x s'|e s'| |]; auto; destruct K as (K1 & K2); exists O; auto. Qed.
Definition psep (t : option nat) (Os : nat -> nat -> Prop) (P : Prog) (o : pout) : Prop :=
  match o with PRet P' | PExc _ P' => exists Os', sep Os' P' /\ moves t Os Os' P P' | _ => True end.
Lemma sep_upd Os P k g s' O' : sep Os P -> nth_error (pGraphs P) k = Some g -> own O' s' -> (forall a, O' a -> Os k a \/ length (hNodes (pHeap P)) <= a) ->
  frame (Os k) (pHeap P) (fst s') ->
  exists Os', sep Os' (mkProg (fst s') (upd (pGraphs P) k (snd s'))) /\ moves (Some k) Os Os' P (mkProg (fst s') (upd (pGraphs P) k (snd s'))).
Proof.
  intros [SO SD] Eg HO NW FR. assert (Lk : k < length (pGraphs P)) by (apply nth_error_Some; congruence).
  assert (LT : forall l a, l < length (pGraphs P) -> Os l a -> a < length (hNodes (pHeap P))).
  { intros l a Ll Ha. destruct (nth_error (pGraphs P) l) as [gl|] eqn:E; [|apply nth_error_None in E; lia]. exact (ow_lt _ _ (SO l gl E) a Ha). }
  exists (fun l => if l =? k then O' else Os l). split.
  - constructor; cbn [pHeap pGraphs].
    + intros l gl El. destruct (Nat.eqb_spec l k) as [->|N].
      * rewrite nth_error_upd_eq in El by auto. injection El as <-. now destruct s'.
      * rewrite nth_error_upd_neq in El by auto. apply own_frame with (O' := Os k) (h := pHeap P); auto.
        intros a Ha Hb. apply (SD l k a); auto. apply nth_error_Some. congruence.
    + intros l m a. rewrite upd_length. intros Ll Lm N. destruct (Nat.eqb_spec l k) as [->|N1], (Nat.eqb_spec m k) as [->|N2]; try lia; intros H1 H2.
      * destruct (NW a H1) as [H|H]; [exact (SD k m a Lk Lm N H H2)|]. specialize (LT m a Lm H2). lia.
      * destruct (NW a H2) as [H|H]; [exact (SD l k a Ll Lk N H1 H)|]. specialize (LT l a Ll H1). lia.
      * exact (SD l m a Ll Lm N H1 H2).
  - constructor; cbn [pHeap pGraphs].
    + now rewrite upd_length.
    + apply (fr_jnt _ _ _ FR).
    + intros l N Ll. apply nth_error_upd_neq. congruence.
    + intros l a N Ll. destruct (Nat.eqb_spec l k) as [->|]; [congruence|tauto].
    + intros l a N Ll Ha. apply (fr_node _ _ _ FR); [exact (LT l a Ll Ha)|]. intro Hb. apply (SD l k a); auto; congruence.
Qed.
Lemma sep_on Os P k f : sep Os P -> grows f -> psep (Some k) Os P (on_graph P k f).
Proof.
  intros S G. unfold on_graph. destruct (nth_error (pGraphs P) k) as [g|] eqn:E; [|exact I]. specialize (G _ _ _ (sp_own _ _ S k g E)).
  destruct (f (pHeap P, g)) as [x s'|e s'| |]; cbn [psep]; auto; destruct G as (O' & HO & NW & FR); exact (sep_upd Os P k g s' O' S E HO NW FR).
Qed.
Lemma sep_new t Os P s' : sep Os P -> own (rng (length (hNodes (pHeap P))) (fst s')) s' -> keepold (length (hNodes (pHeap P))) (pHeap P) (fst s') ->
  exists Os', sep Os' (mkProg (fst s') (pGraphs P ++ [snd s'])) /\ moves t Os Os' P (mkProg (fst s') (pGraphs P ++ [snd s'])).
Proof.
  intros [SO SD] HO (K1 & K2 & K3). set (lo := length (hNodes (pHeap P))) in *.
  assert (LT : forall l a, l < length (pGraphs P) -> Os l a -> a < lo).
  { intros l a Ll Ha. destruct (nth_error (pGraphs P) l) as [gl|] eqn:E; [|apply nth_error_None in E; lia]. exact (ow_lt _ _ (SO l gl E) a Ha). }
  assert (FR : frame (fun _ => False) (pHeap P) (fst s')) by (constructor; auto).
  exists (fun l => if l =? length (pGraphs P) then rng lo (fst s') else Os l). split.
  - constructor; cbn [pHeap pGraphs].
    + intros l gl El. destruct (Nat.eqb_spec l (length (pGraphs P))) as [->|N].
      * rewrite nth_error_app2, Nat.sub_diag in El by lia. injection El as <-. now destruct s'.
      * assert (Ll : l < length (pGraphs P)). { assert (Q : l < length (pGraphs P ++ [snd s'])) by (apply nth_error_Some; congruence). rewrite app_length in Q. cbn in Q. lia. }
        rewrite nth_error_app1 in El by auto. apply own_frame with (O' := fun _ => False) (h := pHeap P); auto.
    + intros l m a. rewrite app_length. cbn [length]. intros Ll Lm N. destruct (Nat.eqb_spec l (length (pGraphs P))) as [->|N1], (Nat.eqb_spec m (length (pGraphs P))) as [->|N2]; try lia; intros H1 H2.
      * assert (Q : m < length (pGraphs P)) by lia. specialize (LT m a Q H2). destruct H1. lia.
      * assert (Q : l < length (pGraphs P)) by lia. specialize (LT l a Q H1). destruct H2. lia.
      * apply (SD l m a); auto; lia.
  - constructor; cbn [pHeap pGraphs].
    + rewrite app_length. lia.
    + exact K3.
    + intros l N Ll. now apply nth_error_app1.
    + intros l a N Ll. destruct (Nat.eqb_spec l (length (pGraphs P))) as [->|]; [lia|tauto].
    + intros l a N Ll Ha. apply K2, (LT l a Ll Ha).
Qed.
Lemma grows_addBody B : grows (addBody B).
Proof.
  intros O h g HO. unfold addBody. destruct (mfind (gBody g) (bname B)).
  - exists O. split; [auto|]. split; [auto|]. apply frame_refl.
  - exists (fun a => O a \/ a = length (hNodes h)). destruct HO as [A1 A2 A3 A4]. cbn [fst snd] in *. split; [|split].
    + constructor; cbn [fst snd hNodes gNodes gBody].
      * intros a [Ha| ->]; rewrite app_length; cbn [length]; [specialize (A1 a Ha)|]; lia.
      * intros a Ha. apply in_app_iff in Ha as [Ha|[<-|[]]]; auto.
      * intros n a Ha. destruct (string_dec n (bname B)) as [->|N]; [rewrite mfind_mset_eq in Ha; injection Ha as <-; auto|]. rewrite mfind_mset_neq in Ha by auto. eauto.
      * intros a e Ha He. unfold arcs_at in He. cbn [hNodes] in He. destruct (Nat.eq_dec a (length (hNodes h))) as [->|N].
        -- rewrite nth_error_app2, Nat.sub_diag in He by lia. destruct He.
        -- assert (Oa : O a) by (destruct Ha; [auto|lia]). rewrite nth_error_app1 in He by auto. left. exact (A4 a e Oa He).
    + intros a [Ha| ->]; auto.
    + constructor; cbn [fst hNodes hJoints].
      * rewrite app_length. lia.
      * intros a La _. now apply nth_error_app1.
      * exists []. now rewrite app_nil_r.
Qed.
Lemma grows_assign src : grows (Graph_assign src).
Proof.
  intros O h g HO. unfold Graph_assign, gbind. pose proof (K_clear O (h, g) HO) as KC.
  destruct (clear (h, g)) as [x (h1 & g1)|e (h1 & g1)| |] eqn:EC; auto; destruct KC as (I1 & F1); [|exists O; auto].
  assert (EG : g1 = mkGraph (gRoot g) [] [] [] []).
  { unfold clear, gmod in EC. cbn [fst snd] in EC. destruct (for_each _ _ _); cbn [bind] in EC; try discriminate. now injection EC as _ _ <-. }
  unfold gmod. destruct (copy src (h1, g1)) as [s2|e| |] eqn:E2; auto; [|exists O; auto]. subst g1.
  destruct (own_copy _ _ _ _ E2) as (I2 & K2 & K3 & K4). unfold T in F1. cbn [fst] in F1. pose proof (fr_len _ _ _ F1) as L1.
  exists (fun a => O a \/ rng (length (hNodes h1)) (fst s2) a). split; [|split].
  - constructor.
    + intros a [Ha|[_ Ha]]; [pose proof (ow_lt _ _ I1 a Ha) as Q; cbn [fst] in Q; lia|exact Ha].
    + intros a Ha. right. exact (ow_node _ _ I2 a Ha).
    + intros n a Ha. right. exact (ow_body _ _ I2 n a Ha).
    + intros a e [Ha|Ha] He; [|right; exact (ow_next _ _ I2 a e Ha He)]. left. apply (ow_next _ _ I1 a e Ha). cbn [fst]. unfold arcs_at in *.
      rewrite K3 in He; auto. exact (ow_lt _ _ I1 a Ha).
  - intros a [Ha|[Ha _]]; [auto|right; lia].
  - eapply frame_trans; [exact F1|]. constructor; auto.
Qed.
Lemma step_sep fuel o Os P : sep Os P -> psep (target o) Os P (step fuel o P).
Proof.
  intros S. destruct o; cbn [step target].
  - cbn [new_graph psep]. apply (sep_new None Os P (pHeap P, Graph_ctor rootName)); auto; cbn [fst]; [now apply own_empty|apply keepold_refl].
  - apply sep_on; auto using grows_addBody.
  - apply sep_on; auto. apply grows_keeps. intro. apply K_addJoint.
  - apply sep_on; auto. apply grows_keeps. intro. apply K_link.
  - apply sep_on; auto. apply grows_keeps. intro. apply K_removeJoint.
  - apply sep_on; auto. apply grows_keeps. intro. apply K_removeJoints.
  - apply sep_on; auto. apply grows_keeps. intro. apply K_merge.
  - apply sep_on; auto. apply grows_keeps. intro. apply K_clear.
  - unfold of_graph, get. destruct (nth_error (pGraphs P) k) as [g|] eqn:E; cbn [bind]; [|exact I].
    unfold Graph_copy. destruct (copy g _) as [s'|e| |] eqn:EC; cbn [new_graph psep]; auto.
    + destruct (own_copy _ _ _ _ EC). now apply sep_new. + exists Os. split; [auto|apply moves_refl].
  - destruct (k =? l); [destruct (nth_error (pGraphs P) k); cbn [psep]; auto; exists Os; split; [auto|apply moves_refl]|].
    destruct (nth_error (pGraphs P) l) as [src|] eqn:E; [|exact I]. apply sep_on; auto using grows_assign.
  - unfold of_graph, get. destruct (nth_error (pGraphs P) k) as [g|] eqn:E; cbn [bind]; [|exact I].
    destruct (fixJoints g names all (pHeap P)) as [s'|e| |] eqn:EC; cbn [new_graph psep]; auto.
    + destruct (own_fix _ _ _ _ _ EC). now apply sep_new. + exists Os. split; [auto|apply moves_refl].
Qed.
Lemma run_sep fuel os : forall P P' Os, sep Os P -> run_ops fuel os P = Some P' -> exists Os', sep Os' P'.
Proof.
  induction os as [|o os IH]; intros P P' Os S H; cbn [run_ops] in H; [injection H as <-; eauto|].
  pose proof (step_sep fuel o Os P S) as G. destruct (step fuel o P); cbn [psep] in G; try discriminate; destruct G as (Os1 & S1 & _); eauto.
Qed.
(** A graph no operation of the history is called on keeps its record and its memory. *)
Lemma run_apart fuel k os : forall P P' Os, sep Os P -> k < length (pGraphs P) -> (forall o, In o os -> target o <> Some k) -> run_ops fuel os P = Some P' ->
  nth_error (pGraphs P') k = nth_error (pGraphs P) k /\ (forall a, Os k a -> nth_error (hNodes (pHeap P')) a = nth_error (hNodes (pHeap P)) a) /\
  (exists l, hJoints (pHeap P') = hJoints (pHeap P) ++ l).
Proof.
  induction os as [|o os IH]; intros P P' Os S Lk NT H; cbn [run_ops] in H.
  - injection H as <-. split; [auto|]. split; [auto|]. exists []. now rewrite app_nil_r.
  - assert (G : exists P1 Os1, sep Os1 P1 /\ moves (target o) Os Os1 P P1 /\ run_ops fuel os P1 = Some P').
    { pose proof (step_sep fuel o Os P S) as G. destruct (step fuel o P); cbn [psep] in G; try discriminate; destruct G as (Os1 & S1 & M); eauto. }
    destruct G as (P1 & Os1 & S1 & M & H1). assert (N : target o <> Some k) by (apply NT; now left).
    destruct (IH P1 P' Os1 S1) as (A & B & (l2 & C)); auto. { pose proof (mv_len _ _ _ _ _ M). lia. } { intros; apply NT; now right. }
    split; [|split].
    + rewrite A. apply (mv_graph _ _ _ _ _ M); auto.
    + intros a Ha. rewrite B by (apply (mv_own _ _ _ _ _ M); auto). apply (mv_node _ _ _ _ _ M k); auto.
    + destruct (mv_jnt _ _ _ _ _ M) as (l1 & D). exists (l1 ++ l2). rewrite C, D. now rewrite app_assoc.
Qed.
Lemma sep0 : sep (fun _ _ => False) prog0.
Proof. constructor; cbn; [intros [|k] g H; discriminate|tauto]. Qed.
