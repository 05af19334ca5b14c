(** Dynamically sized Eigen vectors and matrices. Eigen is not part of /repo. *)
From Coq Require Import Reals Arith List Bool.
From Verif Require Import Res.
Import ListNotations.
Open Scope R_scope.

(** Eigen::MatrixXd: sizes and coefficients; coefficients outside the sizes are
    meaningless and never read by the model without a bound check. *)
Record Mat := mkMat { mrows : nat; mcols : nat; ment : nat -> nat -> R }.

Definition mat_zero (r c : nat) : Mat := mkMat r c (fun _ _ => 0).

(** Coefficient access [M(i, j)] with Eigen's bound assertion. *)
Definition mget (M : Mat) (i j : nat) : res R :=
  if (i <? mrows M)%nat && (j <? mcols M)%nat then Ok (ment M i j) else UB.

Definition in_block (r nr c nc i j : nat) : bool :=
  (r <=? i)%nat && (i <? r + nr)%nat && (c <=? j)%nat && (j <? c + nc)%nat.

(** [M.block(r, c, nr, nc) = B] for a B of size nr x nc; Eigen asserts that the
    block is inside M. *)
Definition set_block (M : Mat) (r c nr nc : nat) (B : nat -> nat -> R) : res Mat :=
  if (r + nr <=? mrows M)%nat && (c + nc <=? mcols M)%nat
  then Ok (mkMat (mrows M) (mcols M)
                 (fun i j => if in_block r nr c nc i j then B (i - r)%nat (j - c)%nat else ment M i j))
  else UB.
(** [M.block(r, c, nr, nc)] *)
Definition get_block (M : Mat) (r c nr nc : nat) : res (nat -> nat -> R) :=
  if (r + nr <=? mrows M)%nat && (c + nc <=? mcols M)%nat
  then Ok (fun i j => ment M (r + i)%nat (c + j)%nat)
  else UB.

(** [v.segment(p, n) = s] for a segment of n coefficients. *)
Fixpoint set_from (v : list R) (p : nat) (s : list R) : list R :=
  match s with
  | [] => v
  | x :: s => set_from (upd v p x) (S p) s
  end.
Definition set_seg (v : list R) (p : nat) (s : list R) : res (list R) :=
  if (p + length s <=? length v)%nat then Ok (set_from v p s) else UB.

(** Sum of [f 0 .. f (n-1)], and a matrix times a vector. *)
Fixpoint rsum (n : nat) (f : nat -> R) : R :=
  match n with O => 0 | S n => rsum n f + f n end.
Definition mat_vec (M : Mat) (x : list R) (i : nat) : R :=
  rsum (mcols M) (fun j => ment M i j * nth j x 0).
