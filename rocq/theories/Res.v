(** Outcomes of C++ code, checked containers and loops.

    Nothing here models a file of /repo: this is the vocabulary in which the
    functions of /repo are transcribed. *)
From Coq Require Import List Arith ZArith Lia.
Import ListNotations.

(** The exception classes thrown by RBDyn; [StringThrown] is a std::string, not an exception class. *)
Inductive exn := DomainError | OutOfRange | RuntimeError | InvalidArgument | LengthError | StringThrown.

(** Outcome of a C++ computation: a value, an exception, undefined behaviour
    (out-of-range access, violated Eigen assertion, dereference of end()), or a
    recursion that does not return. *)
Inductive res (A : Type) :=
| Ok (a : A)
| Throw (e : exn)
| UB
| Diverge.
Arguments Ok {A} _.
Arguments Throw {A} _.
Arguments UB {A}.
Arguments Diverge {A}.

Definition bind {A B} (r : res A) (f : A -> res B) : res B :=
  match r with
  | Ok a => f a
  | Throw e => Throw e
  | UB => UB
  | Diverge => Diverge
  end.

Declare Scope res_scope.
Delimit Scope res_scope with res.
Notation "x <- r ;; k" := (bind r (fun x => k))
  (at level 61, r at next level, right associativity) : res_scope.
Notation "r ;;; k" := (bind r (fun _ => k))
  (at level 61, right associativity) : res_scope.
Open Scope res_scope.

(** [std::vector::operator[]]: undefined behaviour out of range. *)
Definition get {A} (l : list A) (i : nat) : res A :=
  match nth_error l i with Some a => Ok a | None => UB end.

(** [std::vector::at] / [std::map::at]: exception out of range. *)
Definition get_at {A} (l : list A) (i : nat) : res A :=
  match nth_error l i with Some a => Ok a | None => Throw OutOfRange end.

Fixpoint upd {A} (l : list A) (i : nat) (a : A) : list A :=
  match l, i with
  | [], _ => []
  | _ :: l, O => a :: l
  | x :: l, S i => x :: upd l i a
  end.

(** [v[i] = a]: undefined behaviour out of range. *)
Definition set {A} (l : list A) (i : nat) (a : A) : res (list A) :=
  if i <? length l then Ok (upd l i a) else UB.

(** Indexing by an [int] cast to [size_t]: a negative value is a huge index. *)
Definition getz {A} (l : list A) (z : Z) : res A :=
  if (z <? 0)%Z then UB else get l (Z.to_nat z).
Definition setz {A} (l : list A) (z : Z) (a : A) : res (list A) :=
  if (z <? 0)%Z then UB else set l (Z.to_nat z) a.

(** [for (i = lo; i < lo + n; ++i)] *)
Fixpoint for_from {St} (lo n : nat) (f : nat -> St -> res St) (s : St) : res St :=
  match n with
  | O => Ok s
  | S n => s' <- f lo s ;; for_from (S lo) n f s'
  end.
Definition for_up {St} (n : nat) (f : nat -> St -> res St) (s : St) : res St :=
  for_from 0 n f s.

(** [for (i = n - 1; i >= 0; --i)] *)
Fixpoint for_down {St} (n : nat) (f : nat -> St -> res St) (s : St) : res St :=
  match n with
  | O => Ok s
  | S n => s' <- f n s ;; for_down n f s'
  end.

(** [for (auto x : l)] *)
Fixpoint for_each {A St} (l : list A) (f : A -> St -> res St) (s : St) : res St :=
  match l with
  | [] => Ok s
  | a :: l => s' <- f a s ;; for_each l f s'
  end.

Fixpoint map_res {A B} (f : A -> res B) (l : list A) : res (list B) :=
  match l with
  | [] => Ok []
  | a :: l => b <- f a ;; bs <- map_res f l ;; Ok (b :: bs)
  end.
