(** Vocabulary for the statements about the chain extracted by subMultiBody. *)
From Coq Require Import Reals String ZArith Bool Arith List.
From Verif Require Import Res Vec Sva Mat JointM MultiBodyM JacM Spec SpecDyn SpecJac SpecRel.
Import ListNotations.
Open Scope R_scope.

(** c is a state of the chain with the positions and speeds that m has along the path. *)
Definition along (path : list nat) (m c : MBC) : Prop :=
  q c = map (fun k => nth k (q m) []) path /\ alpha c = map (fun k => nth k (alpha m) []) path.
(** The bodies of ch are those of the path, one after the other, each attached to the previous one. *)
Definition is_chain (mb : MultiBody) (path : list nat) (ch : MultiBody) : Prop :=
  wf_mb ch /\ rigid_mb ch /\ nrBodies ch = length path /\
  mb_pred ch = map (fun k => (Z.of_nat k - 1)%Z) (seq 0 (length path)) /\
  mb_nrDof ch = path_dof mb path /\
  forall k, (k < length path)%nat -> nth_error (mb_bodies ch) k = nth_error (mb_bodies mb) (nth k path 0%nat).
(** The joints and their placements are those of the path. *)
Definition same_joints (mb : MultiBody) (path : list nat) (ch : MultiBody) : Prop :=
  forall k, (k < length path)%nat ->
    nth_error (mb_joints ch) k = nth_error (mb_joints mb) (nth k path 0%nat) /\
    nth_error (mb_Xt ch) k = nth_error (mb_Xt mb) (nth k path 0%nat).

(** At the body where the branches to b and r part (unless that is the root), the placements of the
    two joints may be exchanged. *)
Definition placements_commute (mb : MultiBody) (b r : nat) : Prop :=
  forall i k d, d <> 0%nat -> nth_error (mb_pred mb) i = Some (Z.of_nat d) -> nth_error (mb_pred mb) k = Some (Z.of_nat d) -> i <> k ->
    anc mb i b -> anc mb k r ->
    let Xi := nth i (mb_Xt mb) ptid in let Xk := nth k (mb_Xt mb) ptid in ptmul (ptinv Xk) Xi = ptmul Xi (ptinv Xk).
(** The root does not move and is placed at the origin. *)
Definition fixed_root (mb : MultiBody) : Prop :=
  (forall j, nth_error (mb_joints mb) 0 = Some j -> jtyp j = Fixed) /\ nth_error (mb_Xt mb) 0 = Some ptid.
