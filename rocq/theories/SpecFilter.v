(** Specification for C93: what the parameters that leave out or fix links do, as an edition of the
    document. *)
From Coq Require Import Reals String ZArith Bool Arith List.
From Verif Require Import Res JointM MultiBodyM ParserM YamlM SpecDoc.
Import ListNotations.
Open Scope bool_scope.

(** The parameters without filter. *)
Definition no_filter (p : PParams) : PParams := mkPP (pp_fixed p) [] false (pp_transform p) (pp_base p) false (pp_suffix p).
(** A link is left out if it is virtual (it has no inertia) and virtual links are, or if it is filtered
    and filtered links are. A filtered link that is not left out has its joint fixed. *)
Definition filtered (p : PParams) (n : string) : bool := existsb (String.eqb n) (pp_filtered p).
Definition left_out (p : PParams) (n : string) (virtual : bool) : bool := (virtual && pp_remove_virtual p) || (filtered p n && pp_remove_filtered p).
Definition kept_fixed (p : PParams) (n : string) (virtual : bool) : bool := negb (left_out p n virtual) && filtered p n.
Definition absent {A} (o : option A) : bool := match o with Some _ => false | None => true end.

(** ** URDF. *)
Definition u_out (p : PParams) (l : ULink) : bool := left_out p (ulink_name l) (absent (ul_inertial l)).
Definition u_fixed (p : PParams) (l : ULink) : bool := kept_fixed p (ulink_name l) (absent (ul_inertial l)).
Definition is_named {A} (name : A -> string) (Q : A -> bool) (ls : list A) (n : string) : bool := existsb (fun l => Q l && String.eqb n (name l)) ls.
Definition u_parent (u : UJoint) : string := fst (snd (ujoint_names u)).
Definition u_child (u : UJoint) : string := snd (snd (ujoint_names u)).
Definition u_fix (u : UJoint) : UJoint := mkUJ (uj_name u) (Some "fixed"%string) (uj_parent u) (uj_child u) (uj_origin u) (uj_axis u) (uj_mimic u) (uj_limit u).
Definition urdf_edited (p : PParams) (rb : URobot) : URobot :=
  let ls := ur_links rb in
  mkUR (ur_name rb) (filter (fun l => negb (u_out p l)) ls)
    (map (fun u => if is_named ulink_name (u_fixed p) ls (u_child u) then u_fix u else u)
       (filter (fun u => negb (is_named ulink_name (u_out p) ls (u_parent u)) && negb (is_named ulink_name (u_out p) ls (u_child u))) (ur_joints rb))).
(** Links have names, joints have ends. *)
Definition urdf_named (rb : URobot) : Prop :=
  (forall l, In l (ur_links rb) -> ul_name l <> None) /\
  (forall u, In u (ur_joints rb) -> (exists n, uj_parent u = Some (Some n)) /\ (exists n, uj_child u = Some (Some n))).

(** ** YAML. *)
Definition y_name (l : YLink) : string := text (yl_name l) EmptyString.
Definition y_out (p : PParams) (l : YLink) : bool := left_out p (y_name l) (absent (yl_inertial l)).
Definition y_fixed (p : PParams) (l : YLink) : bool := kept_fixed p (y_name l) (absent (yl_inertial l)).
Definition y_parent (j : YJoint) : string := text (yj_parent j) EmptyString.
Definition y_child (j : YJoint) : string := text (yj_child j) EmptyString.
Definition y_fix (j : YJoint) : YJoint := mkYJ (yj_name j) (Some "fixed"%string) (yj_parent j) (yj_child j) (yj_axis j) (yj_frame j) (yj_limits j).
Definition yaml_edited (p : PParams) (rb : YRobot) : YRobot :=
  let ls := text (yr_links rb) [] in
  mkYR (yr_name rb) (yr_deg rb) (option_map (filter (fun l => negb (y_out p l))) (yr_links rb))
    (option_map (fun js => map (fun j => if is_named y_name (y_fixed p) ls (y_child j) then y_fix j else j)
       (filter (fun j => negb (is_named y_name (y_out p) ls (y_parent j)) && negb (is_named y_name (y_out p) ls (y_child j))) js)) (yr_joints rb)).
(** Names are given. *)
Definition yaml_named (rb : YRobot) : Prop :=
  (forall ls l, yr_links rb = Some ls -> In l ls -> yl_name l <> None) /\
  (forall js j, yr_joints rb = Some js -> In j js -> yj_name j <> None /\ yj_parent j <> None /\ yj_child j <> None).

(** ** Documents of which only a part is reached. *)
(** The links that are reached from the root through the joints. *)
Inductive doc_reached (links : list DLink) (root : string) : string -> Prop :=
| doc_root : doc_reached links root root
| doc_next k : In k links -> doc_reached links root (dl_parent k) -> doc_reached links root (dl_child k).
(** Name, parent and child of a YAML joint that gives them. *)
Definition y_names (j : YJoint) : string * (string * string) := (text (yj_name j) EmptyString, (y_parent j, y_child j)).
(** The robot has the bodies that are reached from the first one, and their joints. *)
Definition reached_part (bodies : list Body) (links : list DLink) (root : Joint) (mb : MultiBody) : Prop :=
  exists first keep, hd_error bodies = Some first /\ robot_of (filter keep bodies) links root mb /\
    forall b, In b bodies -> (keep b = true <-> doc_reached links (bname first) (bname b)).
