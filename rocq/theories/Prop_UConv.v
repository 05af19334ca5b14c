(** Property C83: the converter between the two formats. *)
From Coq Require Import Reals String Ascii ZArith Bool Arith List Lia.
From Verif Require Import Res SMap Vec Sva JointM MultiBodyM KinM GraphM ParserM YamlM UConvM Spec SpecGraph SpecParser SpecDoc SpecUConv ParserRotP ParserExP UConvP UConvRtP DocExP.
Import ListNotations.
Open Scope nat_scope.

(** C83: the four uses in the help text. The text that is converted is the standard input or
    the file, with its last line ended. *)
Theorem C83_uses : forall fuel g E,
  (some_data E -> forall c, ended (e_stdin E) c ->
     (forall t, conv_main fuel g E [] = Ok (Print t) <-> converted fuel g E c t) /\
     (forall o, no_help [o] -> e_can_write E o = true -> forall p t, conv_main fuel g E [o] = Ok (Save p t) <-> p = o /\ converted fuel g E c t)) /\
  (no_data E -> forall i s c, e_file E i = Some s -> ended s c ->
     (no_help [i] -> forall t, conv_main fuel g E [i] = Ok (Print t) <-> converted fuel g E c t) /\
     (forall o, e_can_write E o = true -> forall p t, conv_main fuel g E [i; o] = Ok (Save p t) <-> p = o /\ converted fuel g E c t)).
Proof. exact main_uses. Qed.
Print Assumptions C83_uses.
Example C83_uses_case : some_data exc_E /\ no_help ["out.yaml"%string] /\ e_can_write exc_E "out.yaml" = true /\ exists c, ended (e_stdin exc_E) c.
Proof.
  split; [split; [reflexivity|discriminate]|]. split; [split; discriminate|]. split; [reflexivity|]. exists (UConvM.getContent true (e_stdin exc_E)). apply ended_content.
Qed.
(** A document that is converted describes the same robot in the other format. Missing: what the
    other format cannot describe (C76), and the concrete syntax. *)
Theorem C83_urdf_to_yaml_partial : forall fuel g E c rb name, euler_ok (w_euler (e_writer E)) -> (exists a b, first_robot c (a ++ "<")%string b) -> e_xml E c = Some rb -> ur_name rb = Some name ->
  (forall l, In l (ur_links rb) -> ulink_ok l /\ forall b, urdf_body_of default_params l b -> yaml_able_body b) ->
  (forall u, In u (ur_joints rb) -> ujoint_ok u /\ fst (ujoint_names u) <> "Root"%string /\
     forall lims k, urdf_link_of default_params lims u k -> yaml_able_joint lims (dl_joint k) /\ yaml_able_frame (w_euler (e_writer E)) (dl_X k)) ->
  tree_names (map ulink_name (ur_links rb)) (map ujoint_names (ur_joints rb)) -> hd EmptyString (map ulink_name (ur_links rb)) <> EmptyString -> List.length (ur_links rb) <= fuel ->
  exists r d r', converted fuel g E c (e_yml_text E d) /\ from_urdf fuel g (Some rb) default_params = Ok r /\ from_yaml fuel g d default_params = Ok r' /\ same_robot r r'.
Proof. exact convert_u. Qed.
Print Assumptions C83_urdf_to_yaml_partial.
Example C83_urdf_case : forall g, exists r d r', converted 2 g exc_E "<robot name='robot'/>" (e_yml_text exc_E d) /\ from_urdf 2 g (Some exc_u) default_params = Ok r /\ from_yaml 2 g d default_params = Ok r' /\ same_robot r r'.
Proof.
  intro g. destruct exw_ok as (_ & E2). apply (C83_urdf_to_yaml_partial 2 g exc_E "<robot name='robot'/>" exc_u "robot"%string E2); try reflexivity.
  - exists ""%string, " name='robot'/>"%string. apply exc_first_u.
  - exact exc_u_links.
  - exact exc_u_joints.
  - apply exc_names. repeat constructor; cbn; intuition discriminate.
  - discriminate.
Qed.
Theorem C83_yaml_to_urdf_partial : forall fuel g E c rb name deg ls js, exact_text (e_writer E) -> euler_ok (w_euler (e_writer E)) -> (exists a b, first_robot c a (":" ++ b)%string /\ ~ exists a', a = (a' ++ "<")%string) ->
  e_yml E c = Some rb -> yr_name rb = Some name -> yr_deg rb = Some deg -> yr_links rb = Some ls -> yr_joints rb = Some js ->
  (forall i l, nth_error ls i = Some l -> ylink_ok l /\ forall b, yaml_body_of default_params deg (ylink_name (S i) l) l b -> urdf_able_body b) ->
  (forall i j, nth_error js i = Some j -> yjoint_ok default_params (fst (yjoint_names (S i) j)) j /\ fst (yjoint_names (S i) j) <> "Root"%string /\
     forall lims k, yaml_link_of default_params deg lims (yjoint_names (S i) j) j k -> urdf_able_joint (pp_suffix default_params) lims (dl_joint k) /\ urdf_able_frame (w_euler (e_writer E)) (dl_X k)) ->
  tree_names (numbered ylink_name 1 ls) (numbered yjoint_names 1 js) -> hd EmptyString (numbered ylink_name 1 ls) <> EmptyString -> List.length ls <= fuel ->
  exists r d r', converted fuel g E c (e_xml_text E d) /\ from_yaml fuel g (Some rb) default_params = Ok r /\ from_urdf fuel g d default_params = Ok r' /\ same_robot r r'.
Proof. exact convert_y. Qed.
Print Assumptions C83_yaml_to_urdf_partial.
Example C83_yaml_case : forall g, exists r d r', converted 2 g exc_E "robot: {}" (e_xml_text exc_E d) /\ from_yaml 2 g (Some exc_y) default_params = Ok r /\ from_urdf 2 g d default_params = Ok r' /\ same_robot r r'.
Proof.
  intro g. destruct exw_ok as (E1 & E2). apply (C83_yaml_to_urdf_partial 2 g exc_E "robot: {}" exc_y "robot"%string false exc_ls exc_js E1 E2); try reflexivity.
  - exists ""%string, " {}"%string. split; [apply exc_first_y|]. intros ([|x y] & H); discriminate.
  - exact exc_y_links.
  - exact exc_y_joints.
  - apply (exc_names "link1" "link2" "joint1"). repeat constructor; cbn; intuition discriminate.
  - discriminate.
Qed.
(** A comment that says "robot" makes the converter reject a document, ... *)
Theorem C83_comment_refuted : forall fuel g E f x, no_data E -> no_help [f] ->
  (e_file E f = Some ("<!-- my robot -->" ++ x)%string -> whole_lines ("<!-- my robot -->" ++ x)%string -> conv_main fuel g E [f] = Ok (Exit (-1))) /\
  (e_file E f = Some ("# my robot" ++ String nl x)%string -> whole_lines ("# my robot" ++ String nl x)%string -> conv_main fuel g E [f] = Ok (Exit (-1))).
Proof. intros. split; intros; [eapply comment_urdf; eauto|eapply comment_yaml; eauto]. Qed.
Print Assumptions C83_comment_refuted.
(** ... with data on the standard input and two files the files are ignored, ... *)
Theorem C83_both_refuted : forall fuel g E i o, some_data E -> conv_main fuel g E [i; o] = conv_main fuel g E [].
Proof. intros fuel g E i o (A & B). exact (main_ignored fuel g E i o A B). Qed.
Print Assumptions C83_both_refuted.
(** ... and data that comes after the program has started is not read. *)
Theorem C83_late_refuted : forall fuel g E, e_avail E = false -> conv_main fuel g E [] = Ok (Exit (-1)).
Proof. exact late_input. Qed.
Print Assumptions C83_late_refuted.
