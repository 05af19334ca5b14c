(** Vocabulary for the statements about the Coriolis matrix. *)
From Coq Require Import Reals String ZArith Bool Arith List.
From Verif Require Import Res Vec Sva Mat JointM MultiBodyM JacM CoriolisM Spec SpecJac SpecCoM.
Import ListNotations.
Open Scope R_scope.

(** c is a Coriolis object of mb: Jacobians of the centres of mass. What its matrices hold is arbitrary; the buffer is
    large enough for every body. *)
Record cor_of (mb : MultiBody) (c : Cor) : Prop := {
  coo_mat : mrows (co_mat c) = mb_nrDof mb /\ mcols (co_mat c) = mb_nrDof mb;
  coo_jacs : length (co_jacs c) = nrBodies mb;
  coo_body : forall i, (i < nrBodies mb)%nat -> exists J bs,
    nth_error (co_jacs c) i = Some J /\ jacobian_of mb i (own_com mb i) J /\
    nth_error (co_blocks c) i = Some bs /\ compactPath mb J = Ok bs /\
    (path_dof mb (jc_path J) <= mrows (co_res c))%nat /\ (path_dof mb (jc_path J) <= mcols (co_res c))%nat
}.
