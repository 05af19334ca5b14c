(** Histories in which every call is used carefully keep every graph consistent. *)
From Coq Require Import Reals String ZArith Bool Arith List Lia Relations.
From Verif Require Import Res ResP SMap Vec Mat Sva JointM MultiBodyM KinM GraphM Spec SpecGraph SpecGraphOp JointP GraphP GraphWalkP GraphHistP GraphSimP GraphRmP GraphCutP GraphMergeP GraphCopyP GraphSepP GraphApartP GraphFixP GraphOpExP GraphCopyExP.
Import ListNotations.
Open Scope R_scope.
Local Open Scope nat_scope.

Definition tbl_joints (Q : Joint -> Prop) (s : GSt) : Prop := forall p, In p (gJoints (snd s)) -> Q (joint_at (fst s) p).
Definition good (s : GSt) : Prop := gok s /\ link_joints joint_ok s /\ tbl_joints joint_ok s.

Lemma tbl_view Q s s' : same_view s s' -> names_ok_g s -> names_ok_g s' -> tbl_joints Q s -> tbl_joints Q s'.
Proof.
  intros SV N N' T p Hp. set (n := jname (joint_at (fst s') p)).
  assert (F' : mfind (gJoint (snd s')) n = Some p) by (apply (ng_joint _ N'); auto).
  pose proof (sv_joint _ _ SV n) as E. unfold jointByName, mat_ in E. rewrite F' in E. cbn [bind] in E.
  destruct (nth_error (hJoints (fst s')) p) as [j|] eqn:G; [|apply nth_error_None in G; pose proof (ng_jnt _ N' p Hp); lia].
  unfold get at 1 in E. rewrite G in E. destruct (mfind (gJoint (snd s)) n) as [p0|] eqn:F; cbn [bind] in E; [|discriminate].
  apply (ng_joint _ N) in F as (F1 & _). specialize (T p0 F1). unfold joint_at in *. symmetry in E. apply get_Ok in E.
  rewrite (nth_error_nth _ _ _ G). now rewrite (nth_error_nth _ _ _ E) in T.
Qed.
Lemma lj_view Q s s' : same_view s s' -> names_ok_g s -> names_ok_g s' -> link_joints Q s -> link_joints Q s'.
Proof.
  intros SV N N' L a e Ha He. set (n := bname (body_at (fst s') a)).
  assert (F' : mfind (gBody (snd s')) n = Some a) by (apply (ng_body _ N'); auto).
  pose proof (sv_node _ _ SV n) as E. unfold node_view, nodeByName, mat_ in E. rewrite F' in E. cbn [bind] in E.
  destruct (nth_error (hNodes (fst s')) a) as [nd|] eqn:G; [|apply nth_error_None in G; pose proof (ng_node _ N' a Ha); lia].
  unfold get at 1 in E. rewrite G in E. cbn [bind] in E. destruct (mfind (gBody (snd s)) n) as [b|] eqn:F; cbn [bind] in E; [|discriminate].
  apply (ng_body _ N) in F as (F1 & _). unfold get in E. destruct (nth_error (hNodes (fst s)) b) as [nd0|] eqn:G0; cbn [bind] in E; [|discriminate].
  injection E as _ E. destruct (node_at _ _ _ G) as (_ & EA & _), (node_at _ _ _ G0) as (_ & EA0 & _). rewrite EA in He.
  assert (In (aJoint e) (map aJoint (nArcs nd))) as H by (now apply in_map).
  assert (EJ : map aJoint (nArcs nd) = map aJoint (nArcs nd0)).
  { apply (f_equal (map (fun x => snd (fst x)))) in E. rewrite !map_map in E. cbn [fst snd] in E. exact E. }
  rewrite EJ in H. apply in_map_iff in H as (e0 & <- & H0). apply (L b e0 F1). now rewrite EA0.
Qed.
Lemma good_view s s' : same_view s s' -> (gok s -> gok s') -> good s -> good s'.
Proof.
  intros SV K (G & L & T). pose proof (K G) as G'. split; auto. pose proof (gk_names _ (proj1 G)). pose proof (gk_names _ (proj1 G')). split; [eapply lj_view|eapply tbl_view]; eauto.
Qed.
Lemma good_empty h r : good (h, mkGraph r [] [] [] []).
Proof. split; [apply gok_empty|]. split; [intros a e []|intros p []]. Qed.
Lemma good_addBody B s s' : good s -> addBody B s = GRet tt s' -> good s'.
Proof.
  intros (G & L & T) H. split; [exact (gok_addBody B s s' G H)|]. destruct s as (h & g). unfold addBody in H. destruct (mfind (gBody g) (bname B)) eqn:F; [discriminate|]. injection H as <-.
  split; [|exact T]. intros a e Ha He. cbn [fst snd gNodes] in *. rewrite arcs_at_alloc in He by reflexivity. apply in_app_iff in Ha as [Ha|[<-|[]]]; [exact (L a e Ha He)|].
  unfold arcs_at in He. rewrite (proj2 (nth_error_None _ _) (le_n _)) in He. destruct He.
Qed.
Lemma good_addJoint J s s' : joint_ok J -> good s -> addJoint J s = GRet tt s' -> good s'.
Proof.
  intros HJ (G & L & T) H. split; [exact (gok_addJoint J s s' G H)|]. pose proof (ng_jnt _ (gk_names _ (proj1 G))) as JL. destruct s as (h & g). unfold addJoint in H. destruct (mfind (gJoint g) (jname J)) eqn:F; [discriminate|]. injection H as <-.
  split; [exact L|]. intros p Hp. cbn [fst snd gJoints] in *. apply in_app_iff in Hp as [Hp|[<-|[]]]; [|now rewrite joint_at_new].
  unfold joint_at. cbn [hJoints]. rewrite app_nth1 by auto. exact (T p Hp).
Qed.
Lemma fwd_ok j b : joint_ok j -> joint_ok (set_forward j b).
Proof. intros (a & H). exists a. now constructor. Qed.
Lemma link_runs b1 t1 b2 t2 jn d n1 n2 p s : names_ok_g s -> mfind (gBody (snd s)) b1 = Some n1 -> mfind (gBody (snd s)) b2 = Some n2 -> mfind (gJoint (snd s)) jn = Some p ->
  exists s', linkBodies b1 t1 b2 t2 jn d s = GRet tt s'.
Proof.
  intros NG F1 F2 FJ. rewrite linkBodies_all. unfold gmod, link_all, mat_. destruct s as (h & g). cbn [fst snd] in *. rewrite F1, F2, FJ. cbn [bind].
  apply (ng_body _ NG) in F1 as (F1 & _). apply (ng_body _ NG) in F2 as (F2 & _). apply (ng_joint _ NG) in FJ as (FJ & _). cbn [fst snd] in *.
  pose proof (ng_node _ NG n1 F1) as L1. pose proof (ng_node _ NG n2 F2) as L2. pose proof (ng_jnt _ NG p FJ) as L3. cbn [fst snd] in *.
  destruct (nth_error (hJoints h) p) as [j|] eqn:E; [|apply nth_error_None in E; lia]. unfold get at 1. rewrite E. cbn [bind].
  assert (PR : forall a e h0, a < length (hNodes h0) -> exists h1, push_arc a e h0 = Ok h1 /\ length (hNodes h1) = length (hNodes h0)).
  { intros a e h0 La. unfold push_arc, get. destruct (nth_error (hNodes h0) a) as [nd|] eqn:En; [|apply nth_error_None in En; lia]. cbn [bind]. unfold set_node. rewrite set_ok by auto. cbn [bind]. eexists. split; [reflexivity|]. cbn [hNodes]. apply upd_length. }
  match goal with |- exists s', match bind (push_arc n1 ?e h) ?k with _ => _ end = _ => destruct (PR n1 e h L1) as (h1 & E1 & Q1) end. rewrite E1. cbn [bind].
  match goal with |- exists s', match bind (push_arc n2 ?e h1) ?k with _ => _ end = _ => destruct (PR n2 e h1) as (h2 & E2 & Q2) end; [lia|]. rewrite E2. cbn [bind]. eauto.
Qed.
Lemma good_link b1 t1 b2 t2 jn d s :
  good s -> (forall n1 n2, mfind (gBody (snd s)) b1 = Some n1 -> mfind (gBody (snd s)) b2 = Some n2 -> ~ conn (fst s) n1 n2 /\ link_joints (fun j => jname j <> jn) s) ->
  (exists s', linkBodies b1 t1 b2 t2 jn d s = GRet tt s' /\ good s') \/ linkBodies b1 t1 b2 t2 jn d s = GExc OutOfRange s.
Proof.
  intros (G & L & T) H. pose proof (gk_names _ (proj1 G)) as NG. destruct (mfind (gBody (snd s)) b1) as [n1|] eqn:F1; [|right; apply link_unknown; auto].
  destruct (mfind (gBody (snd s)) b2) as [n2|] eqn:F2; [|right; apply link_unknown; auto]. destruct (mfind (gJoint (snd s)) jn) as [p|] eqn:FJ; [|right; apply link_unknown; auto].
  left. destruct (H n1 n2 eq_refl eq_refl) as (NC & NL). assert (NN : n1 <> n2) by (intros ->; apply NC, rt_refl).
  assert (NLk : ~ linked s jn). { intros (a & e & Ha & He & E). exact (NL a e Ha He E). }
  destruct (link_runs b1 t1 b2 t2 jn d n1 n2 p s NG F1 F2 FJ) as (s' & E). exists s'. split; auto. split; [exact (gok_link b1 t1 b2 t2 jn d n1 n2 s s' G F1 F2 NC NLk E)|].
  destruct (link_effect b1 t1 b2 t2 jn d n1 n2 s s' NG F1 F2 NN E) as (p' & j & FJ' & EJ & JN & ES & HJ & _ & AR).
  apply (ng_joint _ NG) in FJ' as (FJ1 & _). assert (OJ : joint_ok j). { pose proof (T p' FJ1) as Q. unfold joint_at in Q. apply get_Ok in EJ. now rewrite (nth_error_nth _ _ _ EJ) in Q. }
  split.
  - intros a e Ha He. rewrite ES in Ha. rewrite AR in He. apply in_app_iff in He as [He|He]; [exact (L a e Ha He)|].
    destruct (a =? n1); [|destruct (a =? n2)]; [destruct He as [<-|[]]; now apply fwd_ok|destruct He as [<-|[]]; now apply fwd_ok|destruct He].
  - intros x Hx. rewrite ES in Hx. unfold joint_at. rewrite HJ. exact (T x Hx).
Qed.
Lemma good_cut r jn s s' : good s -> gok s' -> cut r jn s s' -> good s'.
Proof.
  intros (G & L & T) G' [_ (keep & _ & C3 & C4) (keep' & _ & C6) C7]. split; auto. split.
  - intros a e Ha He. rewrite C4 in He by auto. apply filter_In in He as (He & _). rewrite C3 in Ha. apply filter_In in Ha as (Ha & _). exact (L a e Ha He).
  - intros p Hp. rewrite C7 by auto. rewrite C6 in Hp. apply filter_In in Hp as (Hp & _). exact (T p Hp).
Qed.
Lemma cuts_lj r js s s' : cuts r js s s' -> (link_joints joint_ok s -> link_joints joint_ok s') /\ (tbl_joints joint_ok s -> tbl_joints joint_ok s').
Proof.
  induction 1 as [s|jn js s s1 s2 C B _ (IH1 & IH2)]; [auto|]. destruct C as [_ (keep & _ & C3 & C4) (keep' & _ & C6) C7]. split; intro X.
  - apply IH1. intros a e Ha He. rewrite C4 in He by auto. apply filter_In in He as (He & _). rewrite C3 in Ha. apply filter_In in Ha as (Ha & _). exact (X a e Ha He).
  - apply IH2. intros p Hp. rewrite C7 by auto. rewrite C6 in Hp. apply filter_In in Hp as (Hp & _). exact (X p Hp).
Qed.
Lemma good_removes root js s fuel : good s -> length (gNodes (snd s)) <= fuel -> (forall r, mfind (gBody (snd s)) root = Some r -> root_name_free s r) ->
  (exists s', removeJoints fuel root js s = GRet tt s' /\ good s') \/ removeJoints fuel root js s = GExc OutOfRange s.
Proof.
  intros G Hf RN. destruct (mfind (gBody (snd s)) root) as [r|] eqn:Fr.
  - left. destruct (removeJoints_cuts root r fuel js s (proj1 G) Fr (RN r eq_refl) Hf) as (s' & E & C & K & _). exists s'. split; auto. destruct (cuts_lj _ _ _ _ C). destruct G as (_ & L & T). split; auto.
  - right. unfold removeJoints, gbind at 1, glift, mat_. now rewrite Fr.
Qed.
Lemma good_remove root jn s fuel : good s -> length (gNodes (snd s)) <= fuel -> (forall r, mfind (gBody (snd s)) root = Some r -> root_name_free s r) ->
  (exists s', removeJoint fuel root jn s = GRet tt s' /\ good s') \/ removeJoint fuel root jn s = GExc OutOfRange s.
Proof.
  intros G Hf RN. destruct (mfind (gBody (snd s)) root) as [r|] eqn:Fr.
  - left. destruct (removeJoint_cuts s root r jn fuel (proj1 G) Fr (RN r eq_refl) Hf) as (s' & E & C & _ & K & _). exists s'. split; auto. exact (good_cut r jn s s' G K C).
  - right. unfold removeJoint, gbind at 1, glift, mat_. now rewrite Fr.
Qed.
Lemma good_merge root jn pos s fuel : good s -> length (gNodes (snd s)) <= fuel -> (forall r, mfind (gBody (snd s)) root = Some r -> root_name_free s r) ->
  (exists s', mergeSubBodies fuel root jn pos s = GRet tt s' /\ good s') \/ exists x, mergeSubBodies fuel root jn pos s = GExc x s.
Proof.
  intros G Hf RN. destruct (mfind (gBody (snd s)) root) as [r|] eqn:Fr.
  - assert (Hr : In r (gNodes (snd s))) by (apply (ng_body _ (gk_names _ (proj1 (proj1 G)))) in Fr; tauto).
    destruct (merge_bodies s (proj1 G) (proj1 (proj2 G)) r jn pos Hr (RN r eq_refl) root fuel Fr Hf) as [(_ & s' & E & C & K & _)|(_ & E)]; [left|right; exact E].
    exists s'. split; auto. exact (good_cut r jn s s' G K C).
  - right. exists OutOfRange. unfold mergeSubBodies, gbind at 1, glift, mat_. now rewrite Fr.
Qed.
Lemma good_fix names s : good s -> (exists s', fixJoints (snd s) names false (fst s) = Ok s' /\ good s') \/ fixJoints (snd s) names false (fst s) = Throw OutOfRange.
Proof.
  intro G. destruct (gok_inside _ (proj1 G)) as (NG & LI). destruct (copy_start s NG LI) as ((h1 & g1) & E1 & SV & NG1 & LI1 & GO).
  pose proof (good_view _ _ SV GO G) as (G1 & L1 & T1).
  destruct (Forall_Exists_dec (fun n => In n (joint_names s)) (fun n => in_dec string_dec n (joint_names s)) names) as [F|X].
  - left. assert (HN1 : forall n, In n names -> mfind (gJoint g1) n <> None).
    { intros n Hn. apply (ng_in_names (h1, g1) n NG1). rewrite (sv_joints _ _ SV). exact (proj1 (Forall_forall _ _) F n Hn). }
    unfold fixJoints. rewrite E1. cbn [bind]. rewrite fix_names_run by exact HN1. cbn [bind fst snd].
    destruct (fix_nodes_run names false (gNodes g1) h1) as (h3 & E3 & AF). { apply (ng_node _ NG1). } { eapply NoDup_map_inv, (ng_bodies _ NG1). }
    rewrite E3. cbn [bind]. exists (h3, g1). split; [reflexivity|]. pose proof AF as (EJ & EL & EB & EA). split; [exact (gok_fixed names false h1 h3 g1 AF G1)|]. split.
    + intros a e Ha He. cbn [fst snd] in *. rewrite EA, (proj2 (inb_iff _ _) Ha) in He. apply in_map_iff in He as (e0 & <- & H0). rewrite fix_arc_eq. cbn [aJoint]. unfold fixj.
      destruct (hit_name names false (aJoint e0)); [|exact (L1 a e0 Ha H0)]. exists v0. apply built_ctor.
    + intros p Hp. unfold joint_at. cbn [fst]. rewrite EJ. exact (T1 p Hp).
  - right. apply fix_unknown; auto. apply Exists_exists in X as (n & H1 & H2). eauto.
Qed.

(** *** One call. *)
Definition all_good (P : Prog) : Prop := forall k s, graph_st P k = Some s -> good s.
Definition reached (fuel : nat) (P : Prog) : Prop := exists os, run_ops fuel os prog0 = Some P /\ no_fix_all os.
Definition ends (o : pout) (P : Prog) : Prop := o = PRet P \/ exists e, o = PExc e P.
Lemma run_app fuel os os' P : run_ops fuel (os ++ os') P = match run_ops fuel os P with Some P' => run_ops fuel os' P' | None => None end.
Proof. revert P. induction os as [|o os IH]; intro P; cbn [run_ops app]; auto. destruct (step fuel o P); auto. Qed.
Lemma ends_run fuel o P P' : ends (step fuel o P) P' -> run_ops fuel [o] P = Some P'.
Proof. intros [E|(e & E)]; cbn [run_ops]; now rewrite E. Qed.
Lemma others_good fuel o P P' k s : reached fuel P -> all_good P -> ends (step fuel o P) P' -> target o <> Some k -> graph_st P k = Some s -> exists s', graph_st P' k = Some s' /\ good s'.
Proof.
  intros (os & HR & _) A E NT Hk. destruct (untouched fuel fuel os [o] P P' k s HR Hk) as (s' & E' & SV & K).
  - intros o' [<-|[]]. exact NT.
  - now apply ends_run.
  - exists s'. split; auto. exact (good_view _ _ SV K (A k s Hk)).
Qed.
Lemma st_some P k : k < length (pGraphs P) -> exists s, graph_st P k = Some s.
Proof. intro L. unfold graph_st. destruct (nth_error (pGraphs P) k) eqn:E; eauto. apply nth_error_None in E. lia. Qed.
Lemma st_lt P k s : graph_st P k = Some s -> k < length (pGraphs P).
Proof. intro H. apply st_nth in H as (H & _). apply nth_error_Some. congruence. Qed.
Lemma good_on fuel o P k s f : reached fuel P -> all_good P -> target o = Some k -> step fuel o P = on_graph P k f -> graph_st P k = Some s ->
  ((exists s', f s = GRet tt s' /\ good s') \/ exists x, f s = GExc x s) -> exists P', ends (step fuel o P) P' /\ all_good P'.
Proof.
  intros HR A T E Hk HF. pose proof (st_lt _ _ _ Hk) as Lk. pose proof Hk as Hk'. apply st_nth in Hk' as (Eg & Eh).
  assert (X : exists s', ends (step fuel o P) (mkProg (fst s') (upd (pGraphs P) k (snd s'))) /\ good s').
  { rewrite E. unfold on_graph. rewrite Eg. rewrite <- Eh. replace (fst s, snd s) with s by (now destruct s). destruct HF as [(s' & E' & G')|(x & E')]; rewrite E'.
    - exists s'. split; auto. left; reflexivity.
    - exists s. split; [right; exists x; reflexivity|exact (A k s Hk)]. }
  destruct X as (s' & En & G'). exists (mkProg (fst s') (upd (pGraphs P) k (snd s'))). split; auto. intros l t Ht. destruct (Nat.eq_dec l k) as [->|N].
  - apply st_nth in Ht as (H1 & H2). cbn [pGraphs pHeap] in *. rewrite nth_error_upd_eq in H1 by auto. injection H1 as H1. replace t with s'; auto. destruct s', t. cbn [fst snd] in *. congruence.
  - pose proof (st_lt _ _ _ Ht) as Ll. cbn [pGraphs] in Ll. rewrite upd_length in Ll. destruct (st_some P l Ll) as (t0 & Ht0).
    destruct (others_good fuel o P _ l t0 HR A En) as (t1 & H1 & H2); auto; [rewrite T; congruence|]. rewrite Ht in H1. now injection H1 as ->.
Qed.
Lemma good_new fuel o P r : reached fuel P -> all_good P -> target o = None -> step fuel o P = new_graph P r ->
  ((exists s', r = Ok s' /\ good s') \/ exists x, r = Throw x) -> exists P', ends (step fuel o P) P' /\ all_good P'.
Proof.
  intros HR A T E [(s' & -> & G')|(x & ->)]; cbn [new_graph] in E.
  - exists (mkProg (fst s') (pGraphs P ++ [snd s'])). split; [left; exact E|]. intros l t Ht. pose proof (st_lt _ _ _ Ht) as Ll. cbn [pGraphs] in Ll. rewrite app_length in Ll. cbn [length] in Ll.
    destruct (Nat.eq_dec l (length (pGraphs P))) as [->|N].
    + apply st_nth in Ht as (H1 & H2). cbn [pGraphs pHeap] in *. rewrite nth_error_app2, Nat.sub_diag in H1 by lia. injection H1 as H1. replace t with s'; auto. destruct s', t. cbn [fst snd] in *. congruence.
    + destruct (st_some P l) as (t0 & Ht0); [lia|]. assert (En : ends (step fuel o P) (mkProg (fst s') (pGraphs P ++ [snd s']))) by (left; exact E).
      destruct (others_good fuel o P _ l t0 HR A En) as (t1 & H1 & H2); auto; [rewrite T; congruence|]. rewrite Ht in H1. now injection H1 as ->.
  - exists P. split; [right; exists x; exact E|exact A].
Qed.
Lemma step_good fuel o P : reached fuel P -> all_good P -> careful_call fuel P o -> exists P', ends (step fuel o P) P' /\ all_good P'.
Proof.
  intros HR A C. destruct o as [n|k B|k J|k b1 t1 b2 t2 jn d|k root jn|k root js|k root jn pos|k|k|k l|k names al]; cbn [careful_call] in C.
  - apply (good_new fuel (OpNew n) P (Ok (pHeap P, Graph_ctor n)) HR A eq_refl eq_refl). left. eexists. split; [reflexivity|]. apply good_empty.
  - destruct (st_some P k C) as (s & Hs). apply (good_on fuel (OpAddBody k B) P k s _ HR A eq_refl eq_refl Hs). pose proof (A k s Hs) as G. destruct s as (h & g). destruct (addBody B (h, g)) as [[] s'|x s'| |] eqn:E; [left; exists s'; split; auto; exact (good_addBody B _ _ G E)|right; exists x; f_equal| |]; unfold addBody in E; destruct (mfind (gBody g) (bname B)); try discriminate. now injection E as _ <-.
  - destruct C as (C & OJ). destruct (st_some P k C) as (s & Hs). apply (good_on fuel (OpAddJoint k J) P k s _ HR A eq_refl eq_refl Hs). pose proof (A k s Hs) as G. destruct s as (h & g). destruct (addJoint J (h, g)) as [[] s'|x s'| |] eqn:E; [left; exists s'; split; auto; exact (good_addJoint J _ _ OJ G E)|right; exists x; f_equal| |]; unfold addJoint in E; destruct (mfind (gJoint g) (jname J)); try discriminate. now injection E as _ <-.
  - destruct C as (s & Hs & C). apply (good_on fuel (OpLink k b1 t1 b2 t2 jn d) P k s _ HR A eq_refl eq_refl Hs). destruct (good_link b1 t1 b2 t2 jn d s (A k s Hs) C) as [X|X]; [now left|right; eauto].
  - destruct C as (s & Hs & Hf & C). apply (good_on fuel (OpRemoveJoint k root jn) P k s _ HR A eq_refl eq_refl Hs). destruct (good_remove root jn s fuel (A k s Hs) Hf C) as [X|X]; [now left|right; eauto].
  - destruct C as (s & Hs & Hf & C). apply (good_on fuel (OpRemoveJoints k root js) P k s _ HR A eq_refl eq_refl Hs). destruct (good_removes root js s fuel (A k s Hs) Hf C) as [X|X]; [now left|right; eauto].
  - destruct C as (s & Hs & Hf & C). apply (good_on fuel (OpMerge k root jn pos) P k s _ HR A eq_refl eq_refl Hs). exact (good_merge root jn pos s fuel (A k s Hs) Hf C).
  - destruct (st_some P k C) as (s & Hs). apply (good_on fuel (OpClear k) P k s _ HR A eq_refl eq_refl Hs). destruct (clear_runs s (wn_of_ng _ (gk_names _ (proj1 (proj1 (A k s Hs)))))) as (h' & E). left. eexists. split; [exact E|apply good_empty].
  - destruct (st_some P k C) as (s & Hs). pose proof Hs as Hs'. apply st_nth in Hs' as (Eg & Eh). destruct (gok_inside _ (proj1 (A k s Hs))) as (NG & LI). destruct (copy_start s NG LI) as (s1 & E1 & SV & _ & _ & GO).
    apply (good_new fuel (OpCopy k) P _ HR A eq_refl eq_refl). left. exists s1. split; [|exact (good_view _ _ SV GO (A k s Hs))]. unfold of_graph, get. rewrite Eg. cbn [bind]. now rewrite <- Eh.
  - destruct C as (Ck & Cl). destruct (st_some P k Ck) as (t & Ht), (st_some P l Cl) as (s & Hs). destruct (Nat.eq_dec k l) as [->|N].
    + exists P. split; auto. left. exact (assign_self fuel P l s Hs).
    + pose proof HR as (os & R0 & NF). destruct (gok_inside _ (proj1 (A l s Hs))) as (NG & LI). destruct (assign_same fuel fuel os P k l s t R0 N Ht Hs LI) as (P' & s' & E & Hs' & _ & SV & GO). exists P'. split; [now left|].
      intros m u Hu. destruct (Nat.eq_dec m k) as [->|Nm].
      * rewrite Hs' in Hu. injection Hu as <-. exact (good_view _ _ (SV NF) GO (A l s Hs)).
      * assert (Lm : m < length (pGraphs P)). { pose proof (st_lt _ _ _ Hu) as Q. cbn [step] in E. rewrite (proj2 (Nat.eqb_neq k l) N) in E. apply st_nth in Hs as (El & _). rewrite El in E. unfold on_graph in E. apply st_nth in Ht as (Ek & _). rewrite Ek in E.
          destruct (Graph_assign (snd s) (pHeap P, snd t)); try discriminate. injection E as <-. cbn [pGraphs] in Q. now rewrite upd_length in Q. }
        destruct (st_some P m Lm) as (u0 & Hu0). destruct (others_good fuel (OpAssign k l) P P' m u0 HR A (or_introl E)) as (u1 & H1 & H2); auto; [cbn; congruence|]. rewrite Hu in H1. now injection H1 as ->.
  - destruct C as (C & ->). destruct (st_some P k C) as (s & Hs). pose proof Hs as Hs'. apply st_nth in Hs' as (Eg & Eh).
    assert (EQ : of_graph P k (fun g => fixJoints g names false (pHeap P)) = fixJoints (snd s) names false (fst s)) by (unfold of_graph, get; rewrite Eg, Eh; reflexivity).
    apply (good_new fuel (OpFix k names false) P _ HR A eq_refl eq_refl). rewrite EQ. destruct (good_fix names s (A k s Hs)) as [X|X]; [now left|right; eauto].
Qed.
Lemma run_good fuel os : forall P, reached fuel P -> all_good P -> careful fuel os P -> exists P', run_ops fuel os P = Some P' /\ all_good P'.
Proof.
  induction os as [|o os IH]; intros P HR A C; cbn [run_ops]; [eauto|]. destruct C as (C1 & C2). destruct (step_good fuel o P HR A C1) as (P1 & En & A1).
  assert (HR1 : reached fuel P1).
  { destruct HR as (os0 & R0 & NF). exists (os0 ++ [o]). rewrite run_app, R0. split; [now apply ends_run|]. intros k names H. apply in_app_iff in H as [H|[->|[]]]; [exact (NF k names H)|]. cbn [careful_call] in C1. destruct C1; discriminate. }
  specialize (IH P1 HR1 A1 (C2 P1 En)). destruct En as [E|(e & E)]; rewrite E; exact IH.
Qed.
Theorem careful_runs fuel os : careful fuel os prog0 -> exists P, run_ops fuel os prog0 = Some P /\ (forall k s, graph_st P k = Some s -> gok s /\ link_joints joint_ok s).
Proof.
  intro C. destruct (run_good fuel os prog0) as (P & E & A); auto.
  - exists []. split; [reflexivity|]. intros k names [].
  - intros k s H. apply st_lt in H. cbn in H. lia.
  - exists P. split; auto. intros k s H. destruct (A k s H) as (G & L & _). auto.
Qed.
