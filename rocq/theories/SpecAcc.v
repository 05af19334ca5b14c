(** Vocabulary for the statements about reading and editing a multibody. *)
From Coq Require Import Reals String ZArith Bool Arith List.
From Verif Require Import Res Vec Sva Mat JointM MultiBodyM Spec SpecConf AccM.
Import ListNotations.
Open Scope nat_scope.

(** The two accessors of a vector agree on its indices; elsewhere the checked one throws
    out_of_range, and the other one is undefined. *)
Definition reads {A} (l : list A) (checked unchecked : Z -> res A) : Prop :=
  (forall i x, nth_error l i = Some x -> checked (Z.of_nat i) = Ok x /\ unchecked (Z.of_nat i) = Ok x) /\
  (forall z, (z < 0 \/ Z.of_nat (length l) <= z)%Z -> checked z = Throw OutOfRange /\ unchecked z = UB).

(** The multibodies have the same joints, the same links between them, the same names for
    the indices and the same positions of the joints in the vectors. *)
Definition same_structure (mb mb' : MultiBody) : Prop :=
  mb_joints mb' = mb_joints mb /\ mb_pred mb' = mb_pred mb /\ mb_succ mb' = mb_succ mb /\
  mb_parent mb' = mb_parent mb /\ mb_bodyInd mb' = mb_bodyInd mb /\ mb_jointInd mb' = mb_jointInd mb /\
  mb_posParam mb' = mb_posParam mb /\ mb_posDof mb' = mb_posDof mb /\
  mb_nrParams mb' = mb_nrParams mb /\ mb_nrDof mb' = mb_nrDof mb.

(** [l'] is [l] with [x] at the position [i]. *)
Definition replaced {A} (l : list A) (i : nat) (x : A) (l' : list A) : Prop :=
  length l' = length l /\ nth_error l' i = Some x /\ forall k, k <> i -> nth_error l' k = nth_error l k.

(** The calls that edit a multibody through the checked interface, and what remains of the
    multibody after a sequence of calls whose exceptions are caught. *)
Inductive Edit :=
  | EBody (i : Z) (b : Body)
  | EBodies (bs : list Body)
  | ETransform (i : Z) (X : PT)
  | ETransforms (Xs : list PT).
Definition edit (e : Edit) (mb : MultiBody) : res MultiBody :=
  match e with
  | EBody i b => sPutBody mb i b
  | EBodies bs => sBodies mb bs
  | ETransform i X => sPutTransform mb i X
  | ETransforms Xs => sTransforms mb Xs
  end.
(** [edited mb es mb']: the calls [es] lead from [mb] to [mb']; each one returns, or throws one
    of the documented exceptions and changes nothing. *)
Inductive edited : MultiBody -> list Edit -> MultiBody -> Prop :=
  | edited_nil : forall mb, edited mb [] mb
  | edited_ok : forall mb e mb1 es mb2, edit e mb = Ok mb1 -> edited mb1 es mb2 -> edited mb (e :: es) mb2
  | edited_throw : forall mb e x es mb2, edit e mb = Throw x -> x = OutOfRange \/ x = RuntimeError ->
      edited mb es mb2 -> edited mb (e :: es) mb2.

(** Each body that a call writes has the name of the body it replaces. *)
Definition keeps_names (mb : MultiBody) (e : Edit) : Prop :=
  match e with
  | EBody i b => forall b0, body mb i = Ok b0 -> bname b = bname b0
  | EBodies bs => length bs = nrBodies mb -> map bname bs = body_names mb
  | _ => True
  end.
