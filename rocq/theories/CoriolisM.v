(** Model of src/RBDyn/Coriolis.cpp and src/RBDyn/RBDyn/Coriolis.h. *)
From Coq Require Import Reals String ZArith Bool Arith List.
From Verif Require Import Res Vec Sva Mat JointM MultiBodyM DynM JacM CoMM.
Import ListNotations.
Open Scope R_scope.

(** Coriolis.h 40-45, the members of Coriolis. *)
Record Cor := mkCor {
  co_mat : Mat;                    (* coriolis_ *)
  co_res : Mat;                    (* res_ *)
  co_jacs : list Jac;              (* jacs_ *)
  co_blocks : list (list Block)    (* compactPaths_ *)
}.

(** Coriolis.cpp 14-31, one iteration of the constructor; state (jacs_, compactPaths_, res_). [g], [gr]: contents
    of the uninitialised matrices. *)
Definition cor_init_step (g : nat -> nat -> nat -> SV) (gr : nat -> nat -> nat -> R) (mb : MultiBody) (i : nat)
    (s : list Jac * list (list Block) * Mat) : res (list Jac * list (list Block) * Mat) :=
  let '(jacs, blocks, r) := s in
  b <- get (mb_bodies mb) i ;;
  let mass := imass (binertia b) in
  let com := if Rlt_dec 0 mass then vscale (/ mass) (imom (binertia b)) else v0 in
  J <- Jacobian_ctor (g i) mb (bname b) com ;;
  bs <- compactPath mb J ;;
  let r := if (mrows r <? jac_dof J)%nat then mkMat (jac_dof J) (jac_dof J) (gr i) else r in
  Ok (jacs ++ [J], blocks ++ [bs], r).
(** Coriolis.cpp 10-32, the constructor. *)
Definition Coriolis_ctor (g : nat -> nat -> nat -> SV) (gm : nat -> nat -> R) (gr : nat -> nat -> nat -> R)
    (mb : MultiBody) : res Cor :=
  s <- for_up (nrBodies mb) (cor_init_step g gr mb) ([], [], mat_zero 0 0) ;;
  let '(jacs, blocks, r) := s in Ok (mkCor (mkMat (mb_nrDof mb) (mb_nrDof mb) gm) r jacs blocks).

(** Coriolis.cpp 54-71: an entry of the product written into res_, for the columns ja of jac and (jb, db) of jac
    and jacDot. The point of the Jacobian is [point]. *)
Definition cor_entry (I : RBI) (point : V3) (X : PT) (VW : SV) (ja jb db : SV) : R :=
  let rot := mtr (rotE X) in
  let rDot := mmul (mcross (sang VW)) rot in
  let mass := imass I in
  let inertia := msub (sym_mat (iine I)) (mmul (mcross (vscale mass point)) (mtr (mcross point))) in
  let ir := mmul inertia (mtr rot) in
  mass * vdot (slin ja) (slin db) +
  vdot (sang ja) (vadd (mapp (mmul rot ir) (sang db)) (mapp (mmul rDot ir) (sang jb))).

(** Coriolis.cpp 43-76, one iteration; state (jacs_, res_, coriolis_). *)
Definition cor_step (mb : MultiBody) (m : MBC) (c : Cor) (i : nat) (s : list Jac * Mat * Mat) : res (list Jac * Mat * Mat) :=
  let '(jacs, r, M) := s in
  J <- get jacs i ;;
  J <- jacobian mb m J ;;
  J <- jacobianDot mb m J ;;
  jacs <- set jacs i J ;;
  X <- get (bodyPosW m) i ;;
  VW <- get (bodyVelW m) i ;;
  b <- get (mb_bodies mb) i ;;
  let d := jac_dof J in
  if (length (jc_dot J) =? d)%nat then
    r <- set_block r 0 0 d d
           (fun x y => cor_entry (binertia b) (jac_point J) X VW (nth x (jc_jac J) sv0) (nth y (jc_jac J) sv0) (nth y (jc_dot J) sv0)) ;;
    bs <- get (co_blocks c) i ;;
    B <- get_block r 0 0 d d ;;
    M <- expandAdd_compact bs (mkMat d d B) M ;;
    Ok (jacs, r, M)
  else UB.
(** Coriolis.cpp 34-79, coriolis. *)
Definition coriolis (mb : MultiBody) (m : MBC) (c : Cor) : res Cor :=
  s <- for_up (nrBodies mb) (cor_step mb m c) (co_jacs c, co_res c, mat_clear (co_mat c)) ;;
  let '(jacs, r, M) := s in Ok (mkCor M r jacs (co_blocks c)).
