(** Two graphs that are the same up to the addresses of their nodes and joints. *)
From Coq Require Import Reals String ZArith Bool Arith List Lia Relations.
From Verif Require Import Res ResP SMap Vec Mat Sva JointM MultiBodyM KinM GraphM Spec SpecGraph SpecGraphOp GraphP GraphWalkP GraphHistP.
Import ListNotations.
Open Scope R_scope.
Local Open Scope nat_scope.

Definition arc_to (f : nat -> nat) (e : Arc) : Arc := mkArc (aX e) (aJoint e) (f (aNext e)).
Definition node_to (f : nat -> nat) (nd : Node) : Node := mkNode (nBody nd) (map (arc_to f) (nArcs nd)).
Lemma for_each_eq {A S} (l : list A) (f g : A -> S -> res S) : (forall a s, In a l -> f a s = g a s) -> forall s, for_each l f s = for_each l g s.
Proof.
  induction l as [|a l IH]; intros H s; cbn [for_each]; auto. rewrite H by (now left). destruct (g a s); cbn [bind]; auto. apply IH. intros; apply H; now right.
Qed.
Lemma for_each_map {A B S} (p : A -> B) (l : list A) (f : B -> S -> res S) : forall s, for_each (map p l) f s = for_each l (fun a => f (p a)) s.
Proof. induction l as [|a l IH]; intros s; cbn [for_each map]; auto. destruct (f (p a) s); cbn [bind]; auto. Qed.

Section Sim.
Variables (f : nat -> nat) (V : nat -> Prop) (h h' : Heap).
Hypothesis INJ : forall a b, V a -> V b -> f a = f b -> a = b.
Hypothesis SIM : forall a, V a -> exists nd, nth_error (hNodes h) a = Some nd /\ nth_error (hNodes h') (f a) = Some (node_to f nd).
Hypothesis CL : forall a e, V a -> In e (arcs_at h a) -> V (aNext e).

Lemma sim_get a : V a -> exists nd, get (hNodes h) a = Ok nd /\ get (hNodes h') (f a) = Ok (node_to f nd) /\ nArcs nd = arcs_at h a /\ nBody nd = body_at h a.
Proof. intro Va. destruct (SIM a Va) as (nd & E1 & E2). exists nd. unfold get, arcs_at, body_at. rewrite E1, E2. auto. Qed.
Lemma sim_body a : V a -> body_at h' (f a) = body_at h a.
Proof. intro Va. destruct (SIM a Va) as (nd & E1 & E2). unfold body_at. now rewrite E1, E2. Qed.
Lemma sim_arcs a : V a -> arcs_at h' (f a) = map (arc_to f) (arcs_at h a).
Proof. intro Va. destruct (SIM a Va) as (nd & E1 & E2). unfold arcs_at. now rewrite E1, E2. Qed.
Definition Vo (o : option nat) : Prop := match o with Some b => V b | None => True end.
Lemma sim_from from e : Vo from -> V (aNext e) -> is_from (option_map f from) (arc_to f e) = is_from from e.
Proof.
  intros Hf He. destruct from as [b|]; cbn; auto. destruct (Nat.eqb_spec (aNext e) b) as [->|N]; [apply Nat.eqb_refl|].
  apply Nat.eqb_neq. intro E. apply N. apply INJ; auto.
Qed.
Lemma sim_xfrom a from X : V a -> Vo from -> x_from (map (arc_to f) (arcs_at h a)) (option_map f from) X = x_from (arcs_at h a) from X.
Proof.
  intros Va Hf. unfold x_from. assert (H : forall e, In e (arcs_at h a) -> V (aNext e)) by (intros; eapply CL; eauto). revert H.
  induction (arcs_at h a) as [|e l IH]; intro H; cbn [map find]; auto. rewrite sim_from by (auto; apply H; now left).
  destruct (is_from from e); auto. apply IH. intros; apply H; now right.
Qed.
Lemma sim_makeTree fuel : forall a from j p s0 pr X Xb acc, V a -> Vo from ->
  makeTree fuel h' (f a) (option_map f from) j p s0 pr X Xb acc = makeTree fuel h a from j p s0 pr X Xb acc.
Proof.
  induction fuel as [|n IH]; intros a from j p s0 pr X Xb acc Va Hf; cbn [makeTree]; auto.
  destruct (sim_get a Va) as (nd & E1 & E2 & EA & EB). rewrite E1, E2. cbn [bind]. cbn [node_to nArcs nBody]. rewrite EA, sim_xfrom by auto. cbv zeta.
  rewrite for_each_map. apply for_each_eq. intros e ac He. rewrite sim_from; auto; [|eapply CL; eauto]. destruct (is_from from e); auto.
  cbn [arc_to aNext aJoint aX]. rewrite <- (IH (aNext e) (Some a)); [reflexivity| |exact Va]. eapply CL; eauto.
Qed.
Lemma sim_transform fuel : forall a from Xb m, V a -> Vo from ->
  computeTransform fuel h' (f a) (option_map f from) Xb m = computeTransform fuel h a from Xb m.
Proof.
  induction fuel as [|n IH]; intros a from Xb m Va Hf; cbn [computeTransform]; auto.
  destruct (sim_get a Va) as (nd & E1 & E2 & EA & EB). rewrite E1, E2. cbn [bind]. cbn [node_to nArcs nBody]. rewrite EA, sim_xfrom by auto. cbv zeta.
  rewrite for_each_map. apply for_each_eq. intros e ac He. rewrite sim_from; auto; [|eapply CL; eauto]. destruct (is_from from e); auto.
  cbn [arc_to aNext aJoint aX]. rewrite <- (IH (aNext e) (Some a)); [reflexivity| |exact Va]. eapply CL; eauto.
Qed.
Lemma sim_succ fuel : forall a from m, V a -> Vo from ->
  computeSuccessors fuel h' (f a) (option_map f from) m = computeSuccessors fuel h a from m.
Proof.
  induction fuel as [|n IH]; intros a from m Va Hf; cbn [computeSuccessors]; auto.
  destruct (sim_get a Va) as (nd & E1 & E2 & EA & EB). rewrite E1, E2. cbn [bind]. cbn [node_to nArcs nBody]. rewrite EA.
  rewrite for_each_map. apply for_each_eq. intros e ac He. rewrite sim_from; auto; [|eapply CL; eauto]. destruct (is_from from e); auto.
  unfold ajn. cbn [arc_to aNext aJoint aX]. rewrite <- (IH (aNext e) (Some a)); [reflexivity| |exact Va]. eapply CL; eauto.
Qed.
Lemma sim_pred fuel : forall a from pj m, V a -> Vo from ->
  computePredecessor fuel h' (f a) (option_map f from) pj m = computePredecessor fuel h a from pj m.
Proof.
  induction fuel as [|n IH]; intros a from pj m Va Hf; cbn [computePredecessor]; auto.
  destruct (sim_get a Va) as (nd & E1 & E2 & EA & EB). rewrite E1, E2. cbn [bind]. cbn [node_to nArcs nBody]. rewrite EA.
  rewrite for_each_map. apply for_each_eq. intros e ac He. rewrite sim_from; auto; [|eapply CL; eauto]. destruct (is_from from e); auto.
  unfold ajn. cbn [arc_to aNext aJoint aX]. rewrite <- (IH (aNext e) (Some a)); [reflexivity| |exact Va]. eapply CL; eauto.
Qed.
End Sim.

(** *** Graphs. *)
Record gsim (f : nat -> nat) (V : nat -> Prop) (s s' : GSt) : Prop := {
  gs_inj : forall a b, V a -> V b -> f a = f b -> a = b;
  gs_sim : forall a, V a -> exists nd, nth_error (hNodes (fst s)) a = Some nd /\ nth_error (hNodes (fst s')) (f a) = Some (node_to f nd);
  gs_cl : forall a e, V a -> In e (arcs_at (fst s) a) -> V (aNext e);
  gs_root : gRoot (snd s') = gRoot (snd s);
  gs_nodes : gNodes (snd s') = map f (gNodes (snd s));
  gs_V : forall a, In a (gNodes (snd s)) -> V a;
  gs_body : forall n, mfind (gBody (snd s')) n = option_map f (mfind (gBody (snd s)) n);
  gs_bodyV : forall n a, mfind (gBody (snd s)) n = Some a -> V a;
  gs_joints : map (joint_at (fst s')) (gJoints (snd s')) = map (joint_at (fst s)) (gJoints (snd s));
  gs_jlive : forall p, In p (gJoints (snd s')) -> p < length (hJoints (fst s'));
  gs_joint : forall n, jointByName n s' = jointByName n s
}.
Lemma gsim_view f V s s' : gsim f V s s' -> same_view s s'.
Proof.
  intros [INJ SIM CL RO NO HV BO BV JO JL JN]. destruct s as (h & g), s' as (h' & g'). cbn [fst snd] in *.
  assert (SB : forall a, V a -> body_at h' (f a) = body_at h a) by (exact (sim_body f V h h' SIM)).
  constructor; cbn [fst snd]; auto.
  - unfold body_names. cbn [fst snd]. rewrite NO, map_map. apply map_ext_in. intros a Ha. rewrite SB; auto.
  - unfold joint_names. cbn [fst snd]. rewrite <- (map_map (joint_at h') jname), JO, map_map. reflexivity.
  - intro n. unfold node_view, nodeByName, mat_. cbn [fst snd]. rewrite BO. destruct (mfind (gBody g) n) as [a|] eqn:E; cbn [option_map bind]; auto.
    destruct (sim_get f V h h' SIM a (BV _ _ E)) as (nd & E1 & E2 & EA & EB). rewrite E1, E2. cbn [bind node_to nBody nArcs]. do 2 f_equal. rewrite map_map, EA.
    apply map_ext_in. intros e He. cbn [arc_to aX aJoint aNext]. rewrite SB; auto. eapply CL; eauto.
  - intros. unfold makeMultiBody, mat_. rewrite BO. destruct (mfind (gBody g) root) as [a|] eqn:E; cbn [option_map bind]; auto.
    rewrite RO. rewrite <- (sim_makeTree f V h h' INJ SIM CL fuel a None); [reflexivity| |exact I]. eapply BV; eauto.
  - intros. unfold bodiesBaseTransform, mat_. cbn [fst snd]. rewrite BO. destruct (mfind (gBody g) root) as [a|] eqn:E; cbn [option_map bind]; auto.
    rewrite <- (sim_transform f V h h' INJ SIM CL fuel a None); [reflexivity| |exact I]. eapply BV; eauto.
  - intros. unfold successorJoints, mat_. cbn [fst snd]. rewrite BO. destruct (mfind (gBody g) root) as [a|] eqn:E; cbn [option_map bind]; auto.
    rewrite <- (sim_succ f V h h' INJ SIM CL fuel a None); [reflexivity| |exact I]. eapply BV; eauto.
  - intros. unfold predecessorJoint, mat_. cbn [fst snd]. rewrite BO. destruct (mfind (gBody g) root) as [a|] eqn:E; cbn [option_map bind]; auto.
    rewrite RO. rewrite <- (sim_pred f V h h' INJ SIM CL fuel a None); [reflexivity| |exact I]. eapply BV; eauto.
Qed.

(** Consistency goes over. *)
Lemma NoDup_map_on {A B} (f : A -> B) l : (forall a b, In a l -> In b l -> f a = f b -> a = b) -> NoDup l -> NoDup (map f l).
Proof.
  induction l as [|a l IH]; intros H ND; cbn [map]; [constructor|]. inversion ND; subst. constructor.
  - intro X. apply in_map_iff in X as (b & E & Hb). apply H2. rewrite (H a b); auto; [now left|now right].
  - apply IH; auto. intros; apply H; auto; now right.
Qed.
Lemma last_map {A B} (f : A -> B) l d : last (map f l) (f d) = f (last l d).
Proof. induction l as [|a l IH]; auto. destruct l; auto. Qed.
Lemma last_dflt {A} (l : list A) a d d' : last (a :: l) d = last (a :: l) d'.
Proof. revert a. induction l as [|b l IH]; intro a; [reflexivity|]. exact (IH b). Qed.
Lemma gsim_ok f s s' : gsim f (fun a => In a (gNodes (snd s))) s s' -> names_ok_g s' -> graph_ok s -> graph_ok s'.
Proof.
  intros S NG' G. pose proof (gsim_view _ _ _ _ S) as SV. destruct S as [INJ SIM CL RO NO HV BO BV JO JL JN].
  destruct s as (h & g), s' as (h' & g'). cbn [fst snd] in *.
  pose proof (sim_arcs f _ h h' SIM) as SA. cbn beta in SA.
  assert (IN : forall a' e', In a' (gNodes g') -> In e' (arcs_at h' a') -> exists a e, a' = f a /\ e' = arc_to f e /\ In a (gNodes g) /\ In e (arcs_at h a)).
  { intros a' e' Ha He. rewrite NO in Ha. apply in_map_iff in Ha as (a & <- & Ha). rewrite SA in He by auto. apply in_map_iff in He as (e & <- & He). exists a, e. auto. }
  constructor; cbn [fst snd]; auto.
  - intros a' e' Ha He. destruct (IN _ _ Ha He) as (a & e & -> & -> & Ha' & He'). rewrite NO. cbn [arc_to aNext]. apply in_map. exact (gk_next _ G a e Ha' He').
  - intros a' e' Ha He. destruct (IN _ _ Ha He) as (a & e & -> & -> & Ha' & He'). rewrite (sv_joints _ _ SV). exact (gk_joint _ G a e Ha' He').
  - intros a' e' Ha He. destruct (IN _ _ Ha He) as (a & e & -> & -> & Ha' & He'). destruct (gk_pair _ G a e Ha' He') as (e2 & H1 & H2 & H3). cbn [fst snd] in *.
    exists (arc_to f e2). cbn [arc_to aNext aJoint]. rewrite SA by (exact (gk_next _ G a e Ha' He')). split; [now apply in_map|]. split; [congruence|exact H3].
  - intros a' Ha. rewrite NO in Ha. apply in_map_iff in Ha as (a & <- & Ha). rewrite SA by auto. rewrite map_map. exact (gk_once _ G a Ha).
  - intros a' b' e e' Ha Hb N He He' E. destruct (IN _ _ Ha He) as (a & e1 & -> & -> & Ha1 & He1). destruct (IN _ _ Hb He') as (b & e2 & -> & -> & Hb1 & He2).
    destruct (gk_link _ G a b e1 e2) as (X & Y); auto. try exact E. cbn [arc_to aNext]. split; congruence.
Qed.
Lemma gsim_cf f s s' : gsim f (fun a => In a (gNodes (snd s))) s s' -> cycle_free (fst s) (snd s) -> cycle_free (fst s') (snd s').
Proof.
  intros S [C1 C2 C3]. destruct S as [INJ SIM CL RO NO HV BO BV JO JL JN]. destruct s as (h & g), s' as (h' & g'). cbn [fst snd] in *.
  pose proof (sim_arcs f _ h h' SIM) as SA. cbn beta in SA.
  assert (ADJ : forall a b, In a (gNodes g) -> In b (gNodes g) -> adj h' (f a) (f b) -> adj h a b).
  { intros a b Ha Hb (e & He & E). rewrite SA in He by auto. apply in_map_iff in He as (e1 & <- & He). cbn [arc_to aNext] in E. exists e1. split; [exact He|]. exact (INJ _ _ (CL a e1 Ha He) Hb E). }
  constructor.
  - intros a Ha A. rewrite NO in Ha. apply in_map_iff in Ha as (b & <- & Hb). apply (C1 b Hb). apply ADJ; auto.
  - intros a Ha. rewrite NO in Ha. apply in_map_iff in Ha as (b & <- & Hb). rewrite SA, map_map by auto. cbn [arc_to aNext]. rewrite <- (map_map aNext f). apply NoDup_map_on; auto.
    intros x y Hx Hy. apply in_map_iff in Hx as (e & <- & He), Hy as (e2 & <- & He2). apply INJ; eapply CL; eauto.
  - intros c Hc (L & ND & W & E).
    assert (X : exists c0, c = map f c0 /\ forall a, In a c0 -> In a (gNodes g)).
    { clear -Hc NO. induction c as [|a c IH]; [exists []; split; [auto|intros a []]|]. destruct IH as (c0 & -> & H); [intros; apply Hc; now right|].
      assert (Ha := Hc a (or_introl eq_refl)). rewrite NO in Ha. apply in_map_iff in Ha as (b & <- & Hb). exists (b :: c0). split; auto. intros x [<-|Hx]; auto. }
    destruct X as (c0 & -> & Hc0). apply (C3 c0 Hc0). rewrite map_length in L. split; auto. split; [eapply NoDup_map_inv; eauto|]. split.
    + clear -W Hc0 ADJ. induction c0 as [|a c0 IH]; [exact I|]. destruct c0 as [|b c0]; [exact I|]. destruct W as (W1 & W2). split.
      * apply ADJ; auto; apply Hc0; cbn; auto.
      * apply IH; auto. intros; apply Hc0; now right.
    + destruct c0 as [|a c0]; [cbn in L; lia|]. apply ADJ; [apply Hc0, last_in; discriminate|apply Hc0; now left|].
      replace (f (last (a :: c0) 0)) with (last (map f (a :: c0)) 0); [exact E|]. rewrite <- (last_map f). cbn [map]. apply last_dflt.
Qed.
