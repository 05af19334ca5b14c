(** Vocabulary for the statements about the converter. *)
From Coq Require Import Reals String Ascii ZArith Bool Arith List.
From Verif Require Import Res SMap Vec Sva JointM MultiBodyM KinM GraphM ParserM YamlM UConvM Spec SpecParser SpecDoc.
Import ListNotations.
Open Scope string_scope.

Definition contains (s pat : string) : Prop := exists a b, s = a ++ pat ++ b.
(** The first "robot" of the text is between [a] and [b]. *)
Definition first_robot (s a b : string) : Prop := s = a ++ "robot" ++ b /\ ~ contains (a ++ "robo") "robot".
(** A text of complete lines. *)
Definition whole_lines (s : string) : Prop := s = "" \/ exists a, s = a ++ String nl "".
(** What the text is converted to. *)
Definition converted (fuel : nat) (g : Garbage) (E : Env) (c t : string) : Prop :=
  (exists a b r d, first_robot c (a ++ "<") b /\ from_urdf fuel g (e_xml E c) default_params = Ok r /\ to_yaml (w_euler (e_writer E)) r = Ok d /\ t = e_yml_text E d) \/
  (exists a b r d, first_robot c a (":" ++ b) /\ ~ (exists a', a = a' ++ "<") /\ from_yaml fuel g (e_yml E c) default_params = Ok r /\ to_urdf (e_writer E) r = Ok d /\ t = e_xml_text E d).
Definition no_help (args : list string) : Prop := args <> ["-h"] /\ args <> ["--help"].
(** The same robot: bodies, joints, transforms, configuration, limits and name. *)
Definition same_robot (r r' : PResult) : Prop :=
  pr_mb r' = pr_mb r /\ pr_mbc r' = pr_mbc r /\ pr_name r' = pr_name r /\
  forall i j, (0 < i)%nat -> nth_error (mb_joints (pr_mb r)) i = Some j -> same_limits (pr_limits r) (pr_limits r') (jname j).
(** Nothing on the standard input when the program starts; something. *)
Definition no_data (E : Env) : Prop := e_avail E = false \/ e_stdin E = "".
Definition some_data (E : Env) : Prop := e_avail E = true /\ e_stdin E <> "".
(** The text with its last line ended. *)
Definition ended (s s' : string) : Prop := (whole_lines s /\ s' = s) \/ (~ whole_lines s /\ s' = s ++ String nl "").
