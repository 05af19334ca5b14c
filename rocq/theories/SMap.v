(** std::map / std::unordered_map keyed by std::string, as association lists.
    Iteration order is never observed by the modelled code except where said. *)
From Coq Require Import String Bool List.
From Verif Require Import Res.
Import ListNotations.
Local Open Scope list_scope.

Definition smap (A : Type) := list (string * A).

(** [m.find(k)] *)
Fixpoint mfind {A} (m : smap A) (k : string) : option A :=
  match m with
  | [] => None
  | (k', a) :: m => if String.eqb k k' then Some a else mfind m k
  end.

(** [m[k] = a] *)
Fixpoint mset {A} (m : smap A) (k : string) (a : A) : smap A :=
  match m with
  | [] => [(k, a)]
  | (k', a') :: m => if String.eqb k k' then (k, a) :: m else (k', a') :: mset m k a
  end.

(** [m.erase(k)] by key: the map without [k]. *)
Definition mdel {A} (m : smap A) (k : string) : smap A :=
  filter (fun p => negb (String.eqb k (fst p))) m.

(** [m.at(k)] *)
Definition mat_ {A} (m : smap A) (k : string) : res A :=
  match mfind m k with Some a => Ok a | None => Throw OutOfRange end.

(** [m.find(k)->second]: undefined behaviour when the key is absent. *)
Definition mfind_deref {A} (m : smap A) (k : string) : res A :=
  match mfind m k with Some a => Ok a | None => UB end.

Lemma mfind_mset_eq {A} (m : smap A) k a : mfind (mset m k a) k = Some a.
Proof.
  induction m as [|[k' a'] m IH]; simpl.
  - now rewrite String.eqb_refl.
  - destruct (String.eqb k k') eqn:E; simpl.
    + now rewrite String.eqb_refl.
    + now rewrite E.
Qed.

Lemma mfind_mset_neq {A} (m : smap A) k k' a : k' <> k -> mfind (mset m k a) k' = mfind m k'.
Proof.
  intros N. induction m as [|[k2 a2] m IH]; simpl.
  - apply String.eqb_neq in N. now rewrite N.
  - destruct (String.eqb k k2) eqn:E; simpl.
    + apply String.eqb_eq in E. subst. apply String.eqb_neq in N. now rewrite N.
    + destruct (String.eqb k' k2); auto.
Qed.

Lemma mfind_mdel_eq {A} (m : smap A) k : mfind (mdel m k) k = None.
Proof.
  induction m as [|[k' a'] m IH]; simpl; auto.
  destruct (String.eqb k k') eqn:E; simpl; auto. now rewrite E.
Qed.

Lemma mfind_mdel_neq {A} (m : smap A) k k' : k' <> k -> mfind (mdel m k) k' = mfind m k'.
Proof.
  intros N. induction m as [|[k2 a2] m IH]; simpl; auto.
  destruct (String.eqb k k2) eqn:E; simpl.
  - apply String.eqb_eq in E. subst. apply String.eqb_neq in N. now rewrite N.
  - destruct (String.eqb k' k2); auto.
Qed.

Lemma mfind_In {A} (m : smap A) k a : mfind m k = Some a -> In (k, a) m.
Proof.
  induction m as [|[k' a'] m IH]; simpl; intros H; try discriminate.
  destruct (String.eqb k k') eqn:E.
  - apply String.eqb_eq in E. left. congruence.
  - right. auto.
Qed.
