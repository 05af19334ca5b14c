(** Documents that are not read safely. *)
From Coq Require Import Reals String ZArith Bool Arith List Lia.
From Verif Require Import Res ResP SMap Vec Sva JointM JointP MultiBodyM KinM GraphM ParserM YamlM Spec SpecGraph SpecParser SpecDoc SpecRead ReadSafeP ParserBodyP ParserRtP DocExP.
Import ListNotations.
Open Scope nat_scope.

Lemma gap_all d fuel g p : In d gap_docs -> keeps_all p -> from_urdf fuel g d p = UB.
Proof.
  intros H (K1 & K2 & K3). destruct p as [fx fl rf tr ba rv su]. cbn [pp_filtered pp_remove_virtual pp_base] in K1, K2, K3. subst fl rv ba.
  unfold from_urdf. assert (E : parse_urdf d (mkPP fx [] rf tr "" false su) = UB); [|now rewrite E].
  unfold gap_docs in H. cbv zeta in H. repeat (destruct H as [<-|H]; [reflexivity|]). destruct H.
Qed.
Lemma short_all fuel g p : keeps_all p -> from_yaml fuel g short_doc p = UB.
Proof.
  intros (K1 & K2 & K3). destruct p as [fx fl rf tr ba rv su]. cbn [pp_filtered pp_remove_virtual pp_base] in K1, K2, K3. subst fl rv ba.
  unfold from_yaml. assert (E : parse_yaml short_doc (mkPP fx [] rf tr "" false su) = UB); [|now rewrite E]. reflexivity.
Qed.

(** A circle of three links. *)
Definition circle_heap (h : Heap) : Prop := exists B0 B1 B2 e0 e0' e1 e1' e2 e2',
  hNodes h = [mkNode B0 [e0; e0']; mkNode B1 [e1; e1']; mkNode B2 [e2; e2']] /\
  aNext e0 = 1 /\ aNext e0' = 2 /\ aNext e1 = 0 /\ aNext e1' = 2 /\ aNext e2 = 1 /\ aNext e2' = 0.
Lemma circle_tree h : circle_heap h -> forall fuel j p sc pa X Xb acc,
  makeTree fuel h 0 None j p sc pa X Xb acc = Diverge /\ makeTree fuel h 0 (Some 2) j p sc pa X Xb acc = Diverge /\
  makeTree fuel h 1 (Some 0) j p sc pa X Xb acc = Diverge /\ makeTree fuel h 2 (Some 1) j p sc pa X Xb acc = Diverge.
Proof.
  intros (B0 & B1 & B2 & e0 & e0' & e1 & e1' & e2 & e2' & EH & N0 & N0' & N1 & N1' & N2 & N2').
  induction fuel as [|fuel IH]; [now repeat split|]. intros. cbn [makeTree]. rewrite EH. cbn [get nth_error bind nArcs for_each is_from]. rewrite N0, N1, N1', N2, N2'. cbn [Nat.eqb bind].
  repeat split; (match goal with |- bind ?t _ = _ => assert (E : t = Diverge) by apply IH; now rewrite E end).
Qed.
Lemma circle_u fuel g p : keeps_all p -> from_urdf fuel g circle_doc p = Diverge.
Proof.
  intros (K1 & K2 & K3). destruct p as [fx fl rf tr ba rv su]. cbn [pp_filtered pp_remove_virtual pp_base] in K1, K2, K3. subst fl rv ba.
  assert (E : exists h gr l, parse_urdf circle_doc (mkPP fx [] rf tr "" false su) = Ok ("a"%string, "r"%string, (h, gr), l) /\ mfind (gBody gr) "a" = Some 0 /\ circle_heap h).
  { do 3 eexists. split; [lazy -[vscale sym_lower ptid ends_with MatrixFromRPY]; reflexivity|]. split; [reflexivity|]. do 9 eexists. cbn [hNodes]. split; [reflexivity|]. do 5 (split; [reflexivity|]). reflexivity. }
  destruct E as (h & gr & l & E & EB & HC). unfold from_urdf. rewrite E. cbn [bind]. unfold make_result, makeMultiBody_fixed, makeMultiBody_type, makeMultiBody, mat_. rewrite EB. cbn [bind].
  match goal with |- context [makeTree ?f ?h ?a ?b ?j ?x ?y ?z ?X ?Y ?acc] => assert (E2 : makeTree f h a b j x y z X Y acc = Diverge) by now apply circle_tree end. now rewrite E2.
Qed.
Lemma circle_y fuel g p : keeps_all p -> from_yaml fuel g circle_ydoc p = Diverge.
Proof.
  intros (K1 & K2 & K3). destruct p as [fx fl rf tr ba rv su]. cbn [pp_filtered pp_remove_virtual pp_base] in K1, K2, K3. subst fl rv ba.
  assert (E : exists h gr l, parse_yaml circle_ydoc (mkPP fx [] rf tr "" false su) = Ok ("a"%string, "r"%string, (h, gr), l) /\ mfind (gBody gr) "a" = Some 0 /\ circle_heap h).
  { do 3 eexists. split; [lazy -[vscale sym_lower ptid ends_with MatrixFromRPY]; reflexivity|]. split; [reflexivity|]. do 9 eexists. cbn [hNodes]. split; [reflexivity|]. do 5 (split; [reflexivity|]). reflexivity. }
  destruct E as (h & gr & l & E & EB & HC). unfold from_yaml. rewrite E. cbn [bind]. unfold make_result, makeMultiBody_fixed, makeMultiBody_type, makeMultiBody, mat_. rewrite EB. cbn [bind].
  match goal with |- context [makeTree ?f ?h ?a ?b ?j ?x ?y ?z ?X ?Y ?acc] => assert (E2 : makeTree f h a b j x y z X Y acc = Diverge) by now apply circle_tree end. now rewrite E2.
Qed.
Lemma circle_u_complete : urdf_complete circle_doc.
Proof.
  split.
  - intros l [<-|[<-|[<-|[]]]]; (split; [discriminate|exact I]).
  - intros u [<-|[<-|[<-|[]]]]; (split; [discriminate|]); (split; [discriminate|]); (split; [eexists; reflexivity|]); (split; [eexists; reflexivity|exact I]).
Qed.
Lemma circle_y_range : yaml_in_range circle_ydoc.
Proof. intros deg js j _ E Hj. injection E as <-. destruct Hj as [<-|[<-|[<-|[]]]]; exact I. Qed.
