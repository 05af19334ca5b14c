(** The converter between the two formats (urdf_yaml_conv.cpp). *)
From Coq Require Import Reals String Ascii ZArith Bool Arith List.
From Verif Require Import Res SMap Vec Sva JointM MultiBodyM KinM GraphM ParserM YamlM.
Import ListNotations.
Open Scope string_scope.

(** What the program finds in its environment: the standard input, and whether any of it is
    available when it starts ([in_avail]); files; the libraries that turn text into documents
    and documents into text. *)
Record Env := mkEnv {
  e_stdin : string; e_avail : bool; e_file : string -> option string; e_can_write : string -> bool;
  e_xml : string -> UDoc; e_yml : string -> YDoc; e_xml_text : UDoc -> string; e_yml_text : YDoc -> string; e_writer : Writer }.
(** urdf_yaml_conv.cpp 23-29: the loop over std::getline, which also ends a last line that has no
    end. *)
Definition nl : ascii := "010"%char.
Fixpoint get_lines (line s : string) : string :=
  match s with
  | EmptyString => if String.eqb line "" then "" else line ++ String nl ""
  | String c s => if Ascii.eqb c nl then line ++ String nl (get_lines "" s) else get_lines (line ++ String c "") s
  end.
(** urdf_yaml_conv.cpp 11-30, getContent. *)
Definition getContent (avail : bool) (s : string) : string := if avail then get_lines "" s else "".
(** urdf_yaml_conv.cpp 91-116: which reader is used. *)
Inductive kind := KUrdf | KYaml | KNeither | KNone.
Definition char_is (s : string) (i : nat) (c : ascii) : bool := match String.get i s with Some a => Ascii.eqb a c | None => false end.
Definition detect (content : string) : kind :=
  match String.index 0 "robot" content with
  | None => KNone
  | Some pos =>
      if (0 <? pos)%nat && char_is content (pos - 1) "<"%char then KUrdf
      else if (pos + 5 <? String.length content)%nat && char_is content (pos + 5) ":"%char then KYaml
      else KNeither
  end.
(** urdf.h 39-45, yaml.h 111-117: the default arguments of the readers. *)
Definition default_params : PParams := mkPP true [] true true "" false "_spherical".
(** The end of the program: std::exit(code), the text on the standard output (std::endl adds an end
    of line, which is left out), or the text in a file. An exception is not caught. *)
Inductive ending := Exit (code : Z) | Print (text : string) | Save (path text : string).
(** urdf_yaml_conv.cpp 98-128: the text of the conversion, or the program ends. *)
Definition convert (fuel : nat) (g : Garbage) (E : Env) (content : string) : res (option string) :=
  match detect content with
  | KNone | KNeither => Ok None
  | KUrdf => r <- from_urdf fuel g (e_xml E content) default_params ;; d <- to_yaml (w_euler (e_writer E)) r ;; Ok (Some (e_yml_text E d))
  | KYaml => r <- from_yaml fuel g (e_yml E content) default_params ;; d <- to_urdf (e_writer E) r ;; Ok (Some (e_xml_text E d))
  end.
(** urdf_yaml_conv.cpp 32-150, main. [args] is argv without the name of the program. *)
Definition conv_main (fuel : nat) (g : Garbage) (E : Env) (args : list string) : res ending :=
  let argc := S (List.length args) in
  if (argc =? 2)%nat && (String.eqb (nth 0 args "") "-h" || String.eqb (nth 0 args "") "--help") then Ok (Exit 0)
  else if (3 <? argc)%nat then Ok (Exit (-1))
  else
    let stdin := getContent (e_avail E) (e_stdin E) in
    let file_input := (String.length stdin =? 0)%nat in
    let file_output := (file_input && (argc =? 3)%nat) || (negb file_input && (argc =? 2)%nat) in
    if file_input && (argc =? 1)%nat then Ok (Exit (-1))
    else
      match (if file_input then match e_file E (nth 0 args "") with Some s => Some (getContent true s) | None => None end else Some stdin) with
      | None => Ok (Exit (-1))
      | Some content =>
          t <- convert fuel g E content ;;
          match t with
          | None => Ok (Exit (-1))
          | Some t =>
              if file_output then
                let path := nth (argc - 2) args "" in
                (if e_can_write E path then Ok (Save path t) else Ok (Exit (-1)))
              else Ok (Print t)
          end
      end.
