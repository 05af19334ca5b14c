(** Copies of graphs, and graphs that are not touched. *)
From Coq Require Import Reals String ZArith Bool Arith List Lia Relations.
From Verif Require Import Res ResP SMap Vec Mat Sva JointM MultiBodyM KinM GraphM Spec SpecGraph SpecGraphOp GraphP GraphWalkP GraphHistP GraphSimP GraphRmP GraphCopyP GraphSepP.
Import ListNotations.
Open Scope R_scope.
Local Open Scope nat_scope.

(** *** Without fixAllJoints the map of the joints points to the joints of the graph. *)
Definition jin (s : GSt) : Prop := forall n p, mfind (gJoint (snd s)) n = Some p -> In p (gJoints (snd s)).
Definition wj (s : GSt) : Prop := wnames s /\ jin s.
Lemma ng_wj s : wj s -> names_ok_g s.
Proof.
  intros (W & J). apply ng_of_wn; auto. intros n p. split.
  - intro H. split; [exact (J n p H)|]. apply (wn_jmap _ W n p H).
  - intros (Hp & <-). destruct (wn_jnt _ W p Hp) as (_ & N). destruct (mfind (gJoint (snd s)) (jname (joint_at (fst s) p))) as [p'|] eqn:E; [|congruence].
    f_equal. destruct (wn_jmap _ W _ _ E) as (_ & E2 & _).
    exact (NoDup_map_eq (fun p => jname (joint_at (fst s) p)) (gJoints (snd s)) p' p (wn_joints _ W) (J _ _ E) Hp E2).
Qed.
Lemma wj_ng s : names_ok_g s -> wj s.
Proof. intro N. split; [now apply wn_of_ng|]. intros n p H. exact (proj1 (proj1 (ng_joint _ N n p) H)). Qed.

Definition TT (_ _ : GSt) : Prop := True.
Lemma TT_refl s : TT s s. Proof. exact I. Qed.
Lemma TT_trans (a b c : GSt) : TT a b -> TT b c -> TT a c. Proof. auto. Qed.
(** A step that keeps the names and changes neither the joints nor their map. *)
Lemma wj_mod (f : GSt -> res GSt) : keeps wnames Tn (gmod f) ->
  (forall s s', wj s -> f s = Ok s' -> jin s') -> keeps wj TT (gmod f).
Proof.
  intros K H s (W & J). specialize (K s W). unfold gmod in *. destruct (f s) as [s'|e| |] eqn:E; auto.
  - destruct K. split; [split; auto; exact (H s s' (conj W J) E)|exact I].
  - split; [split; auto|exact I].
Qed.
Lemma wj_drop a : keeps wj TT (drop_node a).
Proof.
  apply wj_mod; [apply wn_drop|]. intros (h & g) s' (W & J) H. apply bind_Ok in H as (nd & _ & H). apply bind_Ok in H as (h1 & _ & H). apply bind_Ok in H as (ns & _ & H). injection H as <-. exact J.
Qed.
Lemma erase_find_keep l p l' : erase_find l p = Ok l' -> forall x, In x l -> x <> p -> In x l'.
Proof.
  revert l'. induction l as [|y l IH]; intros l' H x Hx N; cbn [erase_find] in H; [discriminate|]. destruct (Nat.eqb_spec y p) as [->|Ny].
  - injection H as <-. destruct Hx; [congruence|auto].
  - apply bind_Ok in H as (l2 & E & H). injection H as <-. destruct Hx as [<-|Hx]; [now left|right; eauto].
Qed.
Lemma wj_rm e : keeps wj TT (gmod (fun s =>
    let (h, g) := s in
    p <- mat_ (gJoint g) (ajn e) ;;
    js <- erase_find (gJoints g) p ;;
    Ok (h, mkGraph (gRoot g) (gNodes g) js (gBody g) (mdel (gJoint g) (ajn e))))).
Proof.
  apply wj_mod; [apply wn_rm|]. intros (h & g) s' (W & J) H. apply bind_Ok in H as (p & E1 & H). apply bind_Ok in H as (js & E2 & H). injection H as <-.
  intros n q Hq. cbn [snd gJoint gJoints] in *. destruct (string_dec n (ajn e)) as [->|N]; [now rewrite mfind_mdel_eq in Hq|]. rewrite mfind_mdel_neq in Hq by auto.
  apply (erase_find_keep _ _ _ E2); [exact (J n q Hq)|]. intros ->. unfold mat_ in E1. destruct (mfind (gJoint g) (ajn e)) as [p'|] eqn:E; [|discriminate]. injection E1 as ->.
  destruct (wn_jmap _ W n p Hq) as (_ & A & _), (wn_jmap _ W _ p E) as (_ & B & _). congruence.
Qed.
Lemma wj_setbody a Ib : keeps wj TT (gmod (fun s => nd <- get (hNodes (fst s)) a ;;
                        h <- set_node (fst s) a (mkNode (mkBody Ib (bname (nBody nd))) (nArcs nd)) ;; Ok (h, snd s))).
Proof.
  apply wj_mod; [apply wn_setbody|]. intros (h & g) s' (W & J) H. cbn [fst snd] in H. apply bind_Ok in H as (nd & _ & H). apply bind_Ok in H as (h1 & _ & H). injection H as <-. exact J.
Qed.
Lemma wj_erase a k : keeps wj TT (erase_arc a k).
Proof.
  apply wj_mod; [apply wn_erase|]. intros (h & g) s' (W & J) H. apply bind_Ok in H as (nd & _ & H). apply bind_Ok in H as (h1 & _ & H). injection H as <-. exact J.
Qed.
Lemma wj_addBody B : keeps wj TT (addBody B).
Proof.
  intros (h & g) (W & J). pose proof (wn_addBody B (h, g) W) as K. unfold addBody in *. destruct (mfind (gBody g) (bname B)); (split; [split; [apply K|exact J]|exact I]).
Qed.
Lemma wj_addJoint B : keeps wj TT (addJoint B).
Proof.
  intros (h & g) (W & J). pose proof (wn_addJoint B (h, g) W) as K. unfold addJoint in *. destruct (mfind (gJoint g) (jname B)) eqn:E; (split; [split; [apply K|]|exact I]); [exact J|].
  intros n q Hq. cbn [snd gJoint gJoints] in *. apply in_app_iff. destruct (string_dec n (jname B)) as [->|N].
  - rewrite mfind_mset_eq in Hq. injection Hq as <-. right. now left.
  - rewrite mfind_mset_neq in Hq by auto. left. exact (J n q Hq).
Qed.
Lemma wj_link b1 t1 b2 t2 jn d : keeps wj TT (linkBodies b1 t1 b2 t2 jn d).
Proof.
  intros s (W & J). pose proof (wn_link b1 t1 b2 t2 jn d s W) as K. rewrite linkBodies_all in *. revert K. unfold gmod. destruct (link_all _ _ _ _ _ _ s) as [s'|e| |] eqn:E; intro K; auto.
  - split; [split; [apply K|]|exact I]. destruct s as (h & g). unfold link_all in E. apply bind_Ok in E as (n1 & _ & H). apply bind_Ok in H as (n2 & _ & H).
    apply bind_Ok in H as (p & _ & H). apply bind_Ok in H as (j & _ & H). cbv zeta in H. apply bind_Ok in H as (h1 & _ & H). apply bind_Ok in H as (h2 & _ & H). injection H as <-. exact J.
  - split; [split; auto|exact I].
Qed.
Lemma wj_clear : keeps wj TT clear.
Proof.
  apply wj_mod; [apply wn_clear|]. intros (h & g) s' (W & J) H. cbn [fst snd] in H. apply bind_Ok in H as (h1 & _ & H). injection H as <-. intros n p Hp. discriminate.
Qed.
(** The copy takes its joints from the list. *)
Definition rejoint (s : GSt) : GSt :=
  (fst s, mkGraph (gRoot (snd s)) (gNodes (snd s)) (gJoints (snd s)) (gBody (snd s)) (map (fun p => (jname (joint_at (fst s) p), p)) (gJoints (snd s)))).
Lemma mfind_keys {A} (key : A -> string) (l : list A) : NoDup (map key l) -> forall n p, mfind (map (fun p => (key p, p)) l) n = Some p <-> In p l /\ key p = n.
Proof.
  induction l as [|a l IH]; intros ND n p; cbn [map mfind].
  - split; [discriminate|intros (HF & _); destruct HF].
  - cbn [map] in ND. inversion ND as [|u v N1 N2]; subst. destruct (String.eqb_spec n (key a)) as [->|N].
    + split.
      * intro H. injection H as <-. split; [now left|auto].
      * intros ([<-|Hp] & E); auto. exfalso. apply N1. rewrite <- E. now apply in_map.
    + rewrite IH by auto. split; intros (H1 & H2); split; auto; [now right|]. destruct H1 as [<-|H1]; [congruence|auto].
Qed.
Lemma rejoint_ng s : wnames s -> names_ok_g (rejoint s).
Proof.
  intros [A B C D E F]. destruct s as (h & g). cbn [fst snd] in *. constructor; cbn [rejoint fst snd gBody gNodes gJoints gJoint]; auto.
  - intros n p. apply (mfind_keys (fun p => jname (joint_at h p)) (gJoints g) B n p).
  - intros p Hp. apply F; auto.
Qed.
Lemma rejoint_copy s r : copy (snd s) (fst s, mkGraph r [] [] [] []) = copy (snd (rejoint s)) (fst (rejoint s), mkGraph r [] [] [] []).
Proof. reflexivity. Qed.
Lemma rejoint_view s s' : same_view (rejoint s) s' -> same_multibodies s s'.
Proof. destruct s as (h & g). intros [A B C D E F G H I]. constructor; auto. Qed.
Lemma copy_any (s : GSt) r : wnames s -> links_inside s -> exists s', copy (snd s) (fst s, mkGraph r [] [] [] []) = Ok s' /\ same_multibodies s s' /\
  (jin s -> same_view s s') /\ (gok s -> gok s') /\ names_ok_g s'.
Proof.
  intros W LI. destruct (copy_run (snd (rejoint s)) (fst s) r) as (s' & E & GS & _ & _ & _ & NG).
  { destruct s; exact (rejoint_ng _ W). } { exact LI. }
  assert (SV : jin s -> same_view s s' /\ (gok s -> gok s')).
  { intro J. destruct s as (h & g). destruct (copy_run g h r (ng_wj _ (conj W J)) LI) as (s2 & E2 & GS2 & _).
    change (copy g (h, mkGraph r [] [] [] []) = Ok s') in E. rewrite E in E2. injection E2 as <-. split; [exact (gsim_view _ _ _ _ GS2)|].
    intros (G1 & G2). split; [exact (gsim_ok (phi h g) (h, g) s' GS2 NG G1)|exact (gsim_cf (phi h g) (h, g) s' GS2 G2)]. }
  exists s'. split; [exact E|]. split; [|split; [|split]].
  - apply rejoint_view. destruct s as (h & g). exact (gsim_view _ _ _ _ GS).
  - intro J. apply SV, J.
  - intro G. apply SV; auto. apply (wj_ng s). apply (gk_names _ (proj1 G)).
  - exact NG.
Qed.

(** *** Programs. *)
Definition all_wj (P : Prog) : Prop := forall g, In g (pGraphs P) -> jin (pHeap P, g).
Definition pj (o : pout) : Prop := match o with PRet P | PExc _ P => all_wj P | _ => True end.
Lemma jin_heap h h' g : jin (h, g) -> jin (h', g). Proof. exact (fun J => J). Qed.
Definition rj (o : gout unit) : Prop := match o with GRet _ s | GExc _ s => jin s | _ => True end.
Lemma on_graph_jin P k f : all_wj P -> (forall g, nth_error (pGraphs P) k = Some g -> rj (f (pHeap P, g))) -> pj (on_graph P k f).
Proof.
  intros B K. unfold on_graph. destruct (nth_error (pGraphs P) k) as [g|] eqn:E; [|exact I]. specialize (K g eq_refl).
  assert (U : forall s', jin s' -> all_wj (mkProg (fst s') (upd (pGraphs P) k (snd s')))).
  { intros (h' & g') J x Hx. cbn [pHeap pGraphs fst snd] in *. apply (In_nth _ _ g') in Hx as (i & Hi & Ei). rewrite upd_length in Hi.
    destruct (Nat.eq_dec k i) as [<-|N]; [rewrite nth_upd_eq in Ei by auto; now subst|]. rewrite nth_upd_neq in Ei by auto. apply (jin_heap (pHeap P)), B. subst x. now apply nth_In. }
  destruct (f (pHeap P, g)) as [x s'|e s'| |]; cbn [pj]; auto; apply U; exact K.
Qed.
Lemma on_graph_wj P k f : all_wn P -> all_wj P -> keeps wj TT f -> pj (on_graph P k f).
Proof.
  intros A B K. apply on_graph_jin; auto. intros g E.
  assert (W : wj (pHeap P, g)) by (split; [apply A|apply B]; eapply nth_error_In; eauto). specialize (K _ W).
  destruct (f (pHeap P, g)) as [x s'|e s'| |]; cbn [rj]; auto; apply K.
Qed.
Lemma new_graph_wj P s' : all_wj P -> jin s' -> all_wj (mkProg (fst s') (pGraphs P ++ [snd s'])).
Proof. intros B J x Hx. cbn [pHeap pGraphs] in *. apply in_app_iff in Hx as [Hx|[<-|[]]]; [exact (B x Hx)|]. now destruct s'. Qed.
Lemma copy_joints_jin l : forall (s s' : GSt), jin s -> for_each l copy_joint s = Ok s' -> jin s'.
Proof.
  induction l as [|p l IH]; intros (h & g) s' J H; cbn [for_each] in H; [now injection H as <-|].
  apply bind_Ok in H as (s1 & E & H). unfold copy_joint in E. apply bind_Ok in E as (j & E & E2). injection E2 as <-. apply IH in H; auto.
  intros n q Hq. cbn [snd gJoint gJoints] in *. apply in_app_iff. destruct (string_dec n (jname j)) as [->|N].
  - rewrite mfind_mset_eq in Hq. injection Hq as <-. right. now left.
  - rewrite mfind_mset_neq in Hq by auto. left. exact (J n q Hq).
Qed.
Lemma copy_nodes_jin l : forall (s s' : GSt), jin s -> for_each l copy_node s = Ok s' -> jin s'.
Proof.
  induction l as [|p l IH]; intros (h & g) s' J H; cbn [for_each] in H; [now injection H as <-|].
  apply bind_Ok in H as (s1 & E & H). unfold copy_node in E. apply bind_Ok in E as (j & E & E2). injection E2 as <-. apply IH in H; auto.
Qed.
Lemma copy_jin src h r s' : copy src (h, mkGraph r [] [] [] []) = Ok s' -> jin s'.
Proof.
  intro H. unfold copy in H. cbn [fst snd gNodes gJoints gBody gJoint] in H.
  apply bind_Ok in H as (s1 & E1 & H). apply bind_Ok in H as (s2 & E2 & H). apply bind_Ok in H as (h3 & E3 & H). injection H as <-.
  apply copy_nodes_jin in E1; [|intros n p Hp; discriminate]. apply copy_joints_jin in E2; auto.
Qed.
Lemma fix_jin src names h s' : fixJoints src names false h = Ok s' -> jin s'.
Proof.
  intro H. unfold fixJoints, Graph_copy in H. apply bind_Ok in H as (s1 & E1 & H). apply bind_Ok in H as (s2 & E2 & H). apply bind_Ok in H as (h3 & E3 & H). injection H as <-.
  apply copy_jin in E1. assert (J2 : jin s2).
  { clear -E1 E2. revert s1 E1 E2. induction names as [|n l IH]; intros s1 J H; cbn [for_each] in H; [now injection H as <-|].
    apply bind_Ok in H as (s3 & E & H). unfold fix_name in E. apply bind_Ok in E as (p & _ & E). injection E as <-. eauto. }
  exact J2.
Qed.
Lemma step_wj fuel o P : all_wn P -> all_wj P -> (forall k names, o <> OpFix k names true) -> pj (step fuel o P).
Proof.
  intros A B NF. destruct o; cbn [step].
  - cbn [new_graph pj]. apply (new_graph_wj P (pHeap P, Graph_ctor rootName)); auto. intros n p Hp. discriminate.
  - apply on_graph_wj; auto using wj_addBody.
  - apply on_graph_wj; auto using wj_addJoint.
  - apply on_graph_wj; auto using wj_link.
  - apply on_graph_wj; auto. apply keeps_removeJoint; auto using TT_refl, wj_drop, wj_rm, wj_setbody, wj_erase; exact TT_trans.
  - apply on_graph_wj; auto. apply keeps_removeJoints; auto using TT_refl, wj_drop, wj_rm, wj_setbody, wj_erase; exact TT_trans.
  - apply on_graph_wj; auto. apply keeps_merge; auto using TT_refl, wj_drop, wj_rm, wj_setbody, wj_erase; exact TT_trans.
  - apply on_graph_wj; auto using wj_clear.
  - unfold of_graph, get. destruct (nth_error (pGraphs P) k) as [g|] eqn:E; cbn [bind]; [|exact I].
    unfold Graph_copy. destruct (copy g _) as [s'|e| |] eqn:EC; cbn [new_graph pj]; auto. apply new_graph_wj; auto. exact (copy_jin _ _ _ _ EC).
  - destruct (k =? l); [destruct (nth_error (pGraphs P) k); cbn [pj]; auto|].
    destruct (nth_error (pGraphs P) l) as [src|] eqn:E; [|exact I]. apply on_graph_jin; auto. intros g Eg.
    assert (W : wj (pHeap P, g)) by (split; [apply A|apply B]; eapply nth_error_In; eauto).
    unfold Graph_assign, gbind. pose proof (wj_clear _ W) as KC. destruct (clear (pHeap P, g)) as [x (h1 & g1)|e s1| |] eqn:EC; cbn [rj]; auto; [|apply KC].
    assert (EG : g1 = mkGraph (gRoot g) [] [] [] []).
    { unfold clear, gmod in EC. cbn [fst snd] in EC. destruct (for_each _ _ _); cbn [bind] in EC; try discriminate. now injection EC as _ _ <-. }
    unfold gmod. subst g1. destruct (copy src _) as [s2|e| |] eqn:E2; cbn [rj]; auto; [exact (copy_jin _ _ _ _ E2)|apply KC].
  - assert (EF : all = false) by (destruct all; auto; exfalso; exact (NF k names eq_refl)). subst all.
    unfold of_graph, get. destruct (nth_error (pGraphs P) k) as [g|] eqn:E; cbn [bind]; [|exact I].
    destruct (fixJoints g names false (pHeap P)) as [s'|e| |] eqn:EC; cbn [new_graph pj]; auto. apply new_graph_wj; auto. exact (fix_jin _ _ _ _ EC).
Qed.
Lemma run_wj fuel os : forall P P', all_wn P -> all_wj P -> no_fix_all os -> run_ops fuel os P = Some P' -> all_wj P'.
Proof.
  induction os as [|o os IH]; intros P P' A B NF H; cbn [run_ops] in H; [now injection H as <-|].
  assert (N1 : forall k names, o <> OpFix k names true) by (intros k names ->; exact (NF k names (or_introl eq_refl))).
  assert (N2 : no_fix_all os) by (intros k names Hk; exact (NF k names (or_intror Hk))).
  pose proof (step_wn fuel o P A) as G1. pose proof (step_wj fuel o P A B N1) as G2. destruct (step fuel o P); cbn [pgood pj] in G1, G2; try discriminate; eauto.
Qed.
Lemma st_nth P k s : graph_st P k = Some s <-> nth_error (pGraphs P) k = Some (snd s) /\ fst s = pHeap P.
Proof.
  unfold graph_st. destruct (nth_error (pGraphs P) k) as [g|]; split; try (intros (A & B)); try discriminate.
  - intro H. injection H as <-. auto.
  - destruct s as (h & g0). cbn [fst snd] in *. injection A as <-. now subst h.
Qed.
Lemma reach_wn fuel os P : run_ops fuel os prog0 = Some P -> all_wn P.
Proof. intro H. apply (run_wn fuel os prog0 P); auto. intros g []. Qed.
Lemma reach_wj fuel os P : run_ops fuel os prog0 = Some P -> no_fix_all os -> all_wj P.
Proof. intros H N. apply (run_wj fuel os prog0 P); auto; intros g []. Qed.

(** C49. *)
Theorem copy_same fuel fuel' os P k s : run_ops fuel os prog0 = Some P -> graph_st P k = Some s -> links_inside s ->
  exists P' s', step fuel' (OpCopy k) P = PRet P' /\ graph_st P' (length (pGraphs P)) = Some s' /\ same_multibodies s s' /\ (no_fix_all os -> same_view s s') /\ (gok s -> gok s').
Proof.
  intros HR Hk LI. apply st_nth in Hk as (Eg & Eh). assert (W : wnames s). { destruct s as (h & g). cbn [fst snd] in *. subst h. apply (reach_wn _ _ _ HR). eapply nth_error_In; eauto. }
  destruct (copy_any s "" W LI) as (s' & E & S1 & S2 & S3 & _). exists (mkProg (fst s') (pGraphs P ++ [snd s'])), s'. split; [|split; [|split; [|split]]]; auto.
  - cbn [step]. unfold of_graph, get. rewrite Eg. cbn [bind]. unfold Graph_copy. rewrite <- Eh. rewrite E. reflexivity.
  - apply st_nth. cbn [pGraphs pHeap]. rewrite nth_error_app2, Nat.sub_diag by lia. auto.
  - intro NF. apply S2. destruct s as (h & g). cbn [fst snd] in *. subst h. apply (reach_wj _ _ _ HR NF). eapply nth_error_In; eauto.
Qed.
Lemma clear_runs (s : GSt) : wnames s -> exists h', clear s = GRet tt (h', mkGraph (gRoot (snd s)) [] [] [] []).
Proof.
  destruct s as (h & g). intro W. unfold clear, gmod. cbn [fst snd].
  assert (H : exists h', for_each (gNodes g) clear_step h = Ok h'); [|destruct H as (h' & ->); cbn [bind]; eauto].
  assert (L : forall a, In a (gNodes g) -> a < length (hNodes h)) by (apply (wn_node _ W)). clear W. revert h L.
  induction (gNodes g) as [|a l IH]; intros h L; cbn [for_each]; [eauto|]. unfold clear_step at 1.
  destruct (nth_error (hNodes h) a) as [nd|] eqn:E; [|apply nth_error_None in E; specialize (L a (or_introl eq_refl)); lia].
  unfold get. rewrite E. cbn [bind]. unfold set_node. rewrite set_ok by (apply L; now left). cbn [bind]. apply IH. cbn [hNodes]. intros b Hb. rewrite upd_length. apply L. now right.
Qed.
Lemma gsim_id (O : nat -> Prop) h h' g : own O (h, g) -> wnames (h, g) -> (forall a, O a -> nth_error (hNodes h') a = nth_error (hNodes h) a) ->
  (exists l, hJoints h' = hJoints h ++ l) -> gsim (fun a => a) O (h, g) (h', g).
Proof.
  intros HO W HN (l & HJ). assert (JA : forall p, p < length (hJoints h) -> nth_error (hJoints h') p = nth_error (hJoints h) p) by (intros p Hp; rewrite HJ; now apply nth_error_app1).
  destruct HO as [A B C D]. cbn [fst snd] in *. constructor; cbn [fst snd]; auto.
  - intros a Ha. destruct (nth_error (hNodes h) a) as [nd|] eqn:E; [|apply nth_error_None in E; specialize (A a Ha); lia]. exists nd. split; auto. rewrite HN, E by auto. f_equal. unfold node_to. destruct nd as [b arcs]. f_equal. cbn [nArcs].
    rewrite <- (map_id arcs) at 1. apply map_ext. intros [x j n]. reflexivity.
  - now rewrite map_id.
  - intro n. now destruct (mfind (gBody g) n).
  - apply map_ext_in. intros p Hp. assert (Q := JA p (proj1 (wn_jnt _ W p Hp))). unfold joint_at. destruct (nth_error (hJoints h) p) as [j|] eqn:E.
    + rewrite (nth_error_nth _ _ _ Q), (nth_error_nth _ _ _ E). reflexivity.
    + apply nth_error_None in E. pose proof (proj1 (wn_jnt _ W p Hp)) as Q2. cbn [fst] in Q2. lia.
  - intros p Hp. pose proof (proj1 (wn_jnt _ W p Hp)) as Q2. cbn [fst] in Q2. rewrite HJ, app_length. lia.
  - intro n. unfold jointByName, mat_. cbn [fst snd]. destruct (mfind (gJoint g) n) as [p|] eqn:E; cbn [bind]; auto. unfold get. rewrite JA; auto. apply (wn_jmap _ W n p E).
Qed.
Theorem untouched fuel fuel' os os' P P' k s : run_ops fuel os prog0 = Some P -> graph_st P k = Some s -> (forall o, In o os' -> target o <> Some k) ->
  run_ops fuel' os' P = Some P' -> exists s', graph_st P' k = Some s' /\ same_view s s' /\ (gok s -> gok s').
Proof.
  intros HR Hk NT HR'. apply st_nth in Hk as (Eg & Eh). destruct s as (h & g). cbn [fst snd] in *. subst h.
  destruct (run_sep _ _ _ _ _ sep0 HR) as (Os & S). assert (Lk : k < length (pGraphs P)) by (apply nth_error_Some; congruence).
  destruct (run_apart fuel' k os' P P' Os S Lk NT HR') as (A & B & C). assert (W : wnames (pHeap P, g)) by (apply (reach_wn _ _ _ HR); eapply nth_error_In; eauto).
  assert (HO := sp_own _ _ S k g Eg). exists (pHeap P', g). split; [apply st_nth; cbn [fst snd]; split; [rewrite A; exact Eg|reflexivity]|].
  split; [exact (gsim_view _ _ _ _ (gsim_id _ _ _ _ HO W B C))|]. intros (G1 & G2).
  assert (HO2 : own (fun a => In a (gNodes g)) (pHeap P, g)).
  { constructor; cbn [fst snd]; [apply (wn_node _ W)|auto| |apply (gk_next _ G1)]. intros n a Ha. exact (proj1 (proj1 (wn_body _ W n a) Ha)). }
  assert (GS : gsim (fun a => a) (fun a => In a (gNodes g)) (pHeap P, g) (pHeap P', g)).
  { apply gsim_id; auto. intros a Ha. apply B. exact (ow_node _ _ HO a Ha). }
  assert (HR2 : all_wn P'). { apply (run_wn fuel' os' P P'); auto. apply (reach_wn _ _ _ HR). }
  assert (W' : wnames (pHeap P', g)) by (apply HR2; apply (nth_error_In _ k); rewrite A; exact Eg).
  assert (NG : names_ok_g (pHeap P', g)). { apply ng_wj. split; auto. intros n p Hp. exact (proj1 (proj1 (ng_joint _ (gk_names _ G1) n p) Hp)). }
  split; [exact (gsim_ok (fun a => a) (pHeap P, g) _ GS NG G1)|exact (gsim_cf (fun a => a) (pHeap P, g) _ GS G2)].
Qed.
Theorem assign_same fuel fuel' os P k l s t : run_ops fuel os prog0 = Some P -> k <> l -> graph_st P k = Some t -> graph_st P l = Some s -> links_inside s ->
  exists P' s', step fuel' (OpAssign k l) P = PRet P' /\ graph_st P' k = Some s' /\ same_multibodies s s' /\ (no_fix_all os -> same_view s s') /\ (gok s -> gok s').
Proof.
  intros HR N Hk Hl LI. apply st_nth in Hk as (Ek & Ehk), Hl as (El & Ehl). destruct s as (h & gs), t as (h' & gt). cbn [fst snd] in *. subst h h'.
  assert (Ws : wnames (pHeap P, gs)) by (apply (reach_wn _ _ _ HR); eapply nth_error_In; eauto).
  assert (Wt : wnames (pHeap P, gt)) by (apply (reach_wn _ _ _ HR); eapply nth_error_In; eauto).
  destruct (run_sep _ _ _ _ _ sep0 HR) as (Os & S). assert (Ll : l < length (pGraphs P)) by (apply nth_error_Some; congruence). assert (Lk : k < length (pGraphs P)) by (apply nth_error_Some; congruence).
  destruct (clear_runs _ Wt) as (h1 & EC). cbn [snd] in EC. pose proof (K_clear (Os k) _ (sp_own _ _ S k gt Ek)) as KC. pose proof (wn_clear _ Wt) as WC. rewrite EC in KC, WC.
  destruct KC as (_ & FR). destruct WC as (_ & NX). unfold T in FR. unfold Tn in NX. cbn [fst] in FR, NX.
  assert (W1 : wnames (h1, gs)) by (eapply wnames_ext; eauto). pose proof (sp_own _ _ S l gs El) as OL.
  assert (SN : forall a, Os l a -> nth_error (hNodes h1) a = nth_error (hNodes (pHeap P)) a).
  { intros a Ha. apply (fr_node _ _ _ FR); [exact (ow_lt _ _ OL a Ha)|]. intro Hb. exact (sp_dis _ _ S k l a Lk Ll N Hb Ha). }
  assert (GS1 := gsim_id (Os l) (pHeap P) h1 gs OL Ws SN (fr_jnt _ _ _ FR)).
  assert (LI1 : links_inside (h1, gs)).
  { intros a e Ha He. cbn [fst snd] in *. apply (LI a e Ha). cbn [fst]. unfold arcs_at in *. rewrite <- SN by (exact (ow_node _ _ OL a Ha)). exact He. }
  destruct (copy_any (h1, gs) (gRoot gt) W1 LI1) as (s' & E & S1 & S2 & S3 & _). cbn [fst snd] in E. pose proof (gsim_view _ _ _ _ GS1) as SV1.
  exists (mkProg (fst s') (upd (pGraphs P) k (snd s'))), s'. split; [|split; [|split; [|split]]].
  - cbn [step]. rewrite (proj2 (Nat.eqb_neq _ _) N), El. unfold on_graph. rewrite Ek. unfold Graph_assign, gbind. rewrite EC. unfold gmod. rewrite E. reflexivity.
  - apply st_nth. cbn [pGraphs pHeap]. split; auto. now apply nth_error_upd_eq.
  - destruct SV1 as [A1 A2 A3 A4 A5 A6 A7 A8 A9], S1 as [B1 B2 B3 B4 B6 B7 B8 B9]. constructor; intros; [rewrite B1|rewrite B2|rewrite B3|rewrite B4|rewrite B6|rewrite B7|rewrite B8|rewrite B9]; auto.
  - intro NF. assert (J : jin (h1, gs)) by (apply (jin_heap (pHeap P)), (reach_wj _ _ _ HR NF); eapply nth_error_In; eauto). specialize (S2 J).
    destruct SV1 as [A1 A2 A3 A4 A5 A6 A7 A8 A9], S2 as [B1 B2 B3 B4 B5 B6 B7 B8 B9]. constructor; intros; [rewrite B1|rewrite B2|rewrite B3|rewrite B4|rewrite B5|rewrite B6|rewrite B7|rewrite B8|rewrite B9]; auto.
  - intros (G1 & G2). apply S3.
    assert (HO2 : own (fun a => In a (gNodes gs)) (pHeap P, gs)).
    { constructor; cbn [fst snd]; [apply (wn_node _ Ws)|auto| |apply (gk_next _ G1)]. intros n a Ha. exact (proj1 (proj1 (wn_body _ Ws n a) Ha)). }
    assert (GS : gsim (fun a => a) (fun a => In a (gNodes gs)) (pHeap P, gs) (h1, gs)).
    { apply gsim_id; auto. { intros a Ha. apply SN. exact (ow_node _ _ OL a Ha). } apply (fr_jnt _ _ _ FR). }
    assert (NG : names_ok_g (h1, gs)). { apply ng_wj. split; auto. intros n p Hp. exact (proj1 (proj1 (ng_joint _ (gk_names _ G1) n p) Hp)). }
    split; [exact (gsim_ok (fun a => a) (pHeap P, gs) _ GS NG G1)|exact (gsim_cf (fun a => a) (pHeap P, gs) _ GS G2)].
Qed.
Lemma assign_self fuel P k s : graph_st P k = Some s -> step fuel (OpAssign k k) P = PRet P.
Proof. intro Hk. apply st_nth in Hk as (Ek & _). cbn [step]. rewrite Nat.eqb_refl, Ek. reflexivity. Qed.
