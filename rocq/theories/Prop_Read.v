(** Property C82: reading any document. *)
From Coq Require Import Reals String ZArith Bool Arith List Lia.
From Verif Require Import Res SMap Vec Sva JointM MultiBodyM KinM GraphM ParserM YamlM Spec SpecParser SpecDoc SpecRead ReadSafeP ReadRefP DocExP.
Import ListNotations.
Open Scope nat_scope.

(** C82: whatever the document, the options and the depth of the recursion, reading it performs no
    undefined operation, and a result can be used. Missing: documents in which an element that
    the reader takes for granted is absent. *)
Theorem C82_urdf_partial : forall fuel g d p, urdf_complete d ->
  from_urdf fuel g d p <> UB /\ forall r, from_urdf fuel g d p = Ok r -> usable r.
Proof. exact urdf_good. Qed.
Print Assumptions C82_urdf_partial.
Theorem C82_yaml_partial : forall fuel g d p, yaml_in_range d ->
  from_yaml fuel g d p <> UB /\ forall r, from_yaml fuel g d p = Ok r -> usable r.
Proof. exact yaml_good. Qed.
Print Assumptions C82_yaml_partial.
(** A robot of three links, and the circle of three links, which is not a tree. *)
Example C82_case : urdf_complete (Some exdoc_u) /\ urdf_complete circle_doc /\ yaml_in_range (Some exdoc_y) /\ yaml_in_range circle_ydoc.
Proof.
  split; [|split; [|split]].
  - destruct exdoc_u_ok as (H1 & H2). split.
    + intros l Hl. destruct (H1 l Hl) as (N & K). split; [exact N|]. destruct (ul_inertial l); [|exact I]. destruct K as (_ & K). exact K.
    + intros u Hu. destruct (H2 u Hu) as (K1 & K2 & K3 & K4 & _ & K6). split; [exact K1|]. split; [exact K2|]. split; [exact K3|]. split; [exact K4|exact K6].
  - exact circle_u_complete.
  - intros deg js j E1 E2 Hj. injection E1 as <-. unfold yjoint_in_range. destruct (yj_limits j) as [l|] eqn:EL; [|exact I]. left. injection E2 as <-. cbn [In] in Hj. intuition (subst j; cbn in EL; try discriminate; injection EL as <-; reflexivity).
  - exact circle_y_range.
Qed.
(** An absent element is read through a null pointer, whatever the options that keep the links. *)
Theorem C82_urdf_gap_refuted : forall d fuel g p, In d gap_docs -> keeps_all p -> from_urdf fuel g d p = UB.
Proof. exact gap_all. Qed.
Print Assumptions C82_urdf_gap_refuted.
(** A limit is read past its end. *)
Theorem C82_yaml_short_refuted : forall fuel g p, keeps_all p -> from_yaml fuel g short_doc p = UB.
Proof. exact short_all. Qed.
Print Assumptions C82_yaml_short_refuted.
(** A circle of links is not rejected: the recursion exceeds every depth. *)
Theorem C82_urdf_circle_refuted : urdf_complete circle_doc /\ forall fuel g p, keeps_all p -> from_urdf fuel g circle_doc p = Diverge.
Proof. split; [exact circle_u_complete|exact circle_u]. Qed.
Print Assumptions C82_urdf_circle_refuted.
Theorem C82_yaml_circle_refuted : yaml_in_range circle_ydoc /\ forall fuel g p, keeps_all p -> from_yaml fuel g circle_ydoc p = Diverge.
Proof. split; [exact circle_y_range|exact circle_y]. Qed.
Print Assumptions C82_yaml_circle_refuted.
Example C82_refuted_case : keeps_all exdoc_p /\ List.length gap_docs = 8. Proof. split; [exact exdoc_keeps|reflexivity]. Qed.
