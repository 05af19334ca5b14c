(** Vocabulary for the statements about reading any document. *)
From Coq Require Import Reals String ZArith Bool Arith List.
From Verif Require Import Res SMap Vec Sva JointM MultiBodyM KinM GraphM ParserM YamlM Spec SpecParser.
Import ListNotations.
Open Scope R_scope.

(** The elements and attributes that the URDF reader takes for granted. Nothing is said of the
    values, of the names, of which links the joints are between, nor of cycles. *)
Definition ulink_complete (l : ULink) : Prop :=
  ul_name l <> None /\ match ul_inertial l with Some u => ui_mass u <> None /\ ui_inertia u <> None | None => True end.
Definition ujoint_complete (u : UJoint) : Prop :=
  uj_name u <> None /\ uj_type u <> None /\ (exists n, uj_parent u = Some (Some n)) /\ (exists n, uj_child u = Some (Some n)) /\
  match uj_mimic u with Some m => um_joint m <> None | None => True end.
Definition urdf_complete (d : UDoc) : Prop :=
  match d with Some rb => (forall l, In l (ur_links rb) -> ulink_complete l) /\ (forall u, In u (ur_joints rb) -> ujoint_complete u) | None => True end.

(** Limits given as sequences when angles are in degrees: not shorter than the number of degrees
    of freedom of the type. *)
Definition most_dof (t : option string) : nat :=
  match t with
  | Some t => if existsb (String.eqb t) ["free"; "floating"]%string then 6 else if existsb (String.eqb t) ["spherical"; "ball"]%string then 3 else 1
  | None => 1
  end.
Definition yjoint_in_range (deg : bool) (j : YJoint) : Prop :=
  match yj_limits j with
  | Some l => as_or (y_deg l) deg = false \/
      (forall n, (n <= most_dof (yj_type j))%nat -> ~ short n (y_lower l) /\ ~ short n (y_upper l) /\ ~ short n (y_velocity l))
  | None => True
  end.
Definition yaml_in_range (d : YDoc) : Prop :=
  match d with
  | Some rb => forall deg js j, yr_deg rb = Some deg -> yr_joints rb = Some js -> In j js -> yjoint_in_range deg j
  | None => True
  end.
(** The result can be used: the multibody is well-formed and the configuration fits it. *)
Definition usable (r : PResult) : Prop := wf_mb (pr_mb r) /\ mbc_ok (pr_mb r) (pr_mbc r).

(** ** Documents that are not read safely. *)
Definition bare_link (n : string) : ULink := mkUL (Some n) None.
Definition bare_joint (n a b : string) : UJoint := mkUJ (Some n) (Some "fixed"%string) (Some (Some a)) (Some (Some b)) None None None None.
(** A link without name; an inertial without mass; without inertia; a joint without name, type,
    parent, child; a mimic that names no joint. *)
Definition gap_docs : list UDoc :=
  let r ls js := Some (mkUR (Some "r"%string) ls js) in
  let two := [bare_link "a"; bare_link "b"] in
  let ine := mkUI None None None None None None in
  let ab := (Some (Some "a"), Some (Some "b"))%string in
  [ r [mkUL None None] [];
    r [mkUL (Some "a"%string) (Some (mkUIn None None (Some ine)))] [];
    r [mkUL (Some "a"%string) (Some (mkUIn None (Some None) None))] [];
    r two [mkUJ None (Some "fixed"%string) (fst ab) (snd ab) None None None None];
    r two [mkUJ (Some "j"%string) None (fst ab) (snd ab) None None None None];
    r two [mkUJ (Some "j"%string) (Some "fixed"%string) None (snd ab) None None None None];
    r two [mkUJ (Some "j"%string) (Some "fixed"%string) (fst ab) None None None None None];
    r two [mkUJ (Some "j"%string) (Some "revolute"%string) (fst ab) (snd ab) None None (Some (mkUM None None None)) None] ].
(** Angles in degrees, and one limit given for three. *)
Definition short_doc : YDoc :=
  Some (mkYR (Some "r"%string) (Some true) (Some [mkYL (Some "a"%string) None; mkYL (Some "b"%string) None])
    (Some [mkYJ (Some "j"%string) (Some "spherical"%string) (Some "a"%string) (Some "b"%string) None None (Some (mkYLim (Some (YSeq [YNum (Fin 0)])) None None None None))])).
(** Three links in a circle. *)
Definition circle_doc : UDoc :=
  Some (mkUR (Some "r"%string) [bare_link "a"; bare_link "b"; bare_link "c"] [bare_joint "ab" "a" "b"; bare_joint "bc" "b" "c"; bare_joint "ca" "c" "a"]).
Definition circle_ydoc : YDoc :=
  let l n := mkYL (Some n) None in let j n a b := mkYJ (Some n) (Some "fixed"%string) (Some a) (Some b) None None None in
  Some (mkYR (Some "r"%string) (Some false) (Some [l "a"; l "b"; l "c"]%string) (Some [j "ab" "a" "b"; j "bc" "b" "c"; j "ca" "c" "a"]%string)).
