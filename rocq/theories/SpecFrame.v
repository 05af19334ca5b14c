(** Specification for C87: the same robot seen from another world frame.

    [X] gives the pose of the old world frame in the new one: [trR X] is the position of the old
    origin in the new frame, and [rotE X] turns the new coordinates of a direction into the old
    ones. *)
From Coq Require Import Reals String ZArith Bool Arith List.
From Verif Require Import Res Vec Sva Mat JointM MultiBodyM KinM JacM CoriolisM DynM IntegM.
Import ListNotations.
Open Scope R_scope.

(** The value of an outcome is transformed; a failure stays the same failure. *)
Definition rmap {A B} (f : A -> B) (r : res A) : res B :=
  match r with Ok a => Ok (f a) | Throw e => Throw e | UB => UB | Diverge => Diverge end.

(** New coordinates of a direction, of a point, of a motion or force vector taken at a point that is not moved
    (only turned), of a wrench or a motion taken at the origin of the world. *)
Definition new_dir (X : PT) (v : V3) : V3 := mapp (mtr (rotE X)) v.
Definition new_point (X : PT) (p : V3) : V3 := vadd (trR X) (mapp (mtr (rotE X)) p).
Definition new_turned (X : PT) (v : SV) : SV := mkSV (new_dir X (sang v)) (new_dir X (slin v)).
Definition new_wrench (X : PT) (f : SV) : SV :=
  mkSV (vadd (new_dir X (sang f)) (vcross (trR X) (new_dir X (slin f)))) (new_dir X (slin f)).
Definition new_motion (X : PT) (v : SV) : SV :=
  mkSV (new_dir X (sang v)) (vadd (new_dir X (slin v)) (vcross (trR X) (new_dir X (sang v)))).

(** The transforms of the joints without predecessor are followed by X, the others are kept. *)
Fixpoint move_roots (X : PT) (pred : list Z) (l : list PT) : list PT :=
  match l, pred with
  | x :: l, p :: pred => (if (p =? -1)%Z then ptmul x X else x) :: move_roots X pred l
  | l, _ => l
  end.
Definition move_mb (X : PT) (mb : MultiBody) : MultiBody :=
  mkMB (mb_bodies mb) (mb_joints mb) (mb_pred mb) (mb_succ mb) (mb_parent mb)
       (move_roots X (mb_pred mb) (mb_Xt mb)) (mb_bodyInd mb) (mb_jointInd mb)
       (mb_posParam mb) (mb_posDof mb) (mb_nrParams mb) (mb_nrDof mb).

(** A configuration seen from the new frame: what is relative to the joints and bodies is the same, what is
    relative to the world changes coordinates. *)
Definition move_mbc (X : PT) (mb : MultiBody) (m : MBC) : MBC :=
  mkMBC (q m) (alpha m) (alphaD m) (map (new_wrench X) (force m)) (jointConfig m) (jointVelocity m)
        (jointTorque m) (motionSubspace m)
        (map (fun P => ptmul P X) (bodyPosW m)) (move_roots X (mb_pred mb) (parentToSon m))
        (map (new_turned X) (bodyVelW m)) (bodyVelB m) (bodyAccB m) (new_dir X (gravity m)).

(** A Jacobian object whose columns are directions of the world. *)
Definition move_jac (X : PT) (J : Jac) : Jac :=
  mkJac (jc_path J) (jc_sign J) (jc_point J) (map (new_turned X) (jc_jac J)) (map (new_turned X) (jc_dot J))
        (jc_body J) (jc_ref J).
Definition turn_dot (X : PT) (J : Jac) : Jac :=
  mkJac (jc_path J) (jc_sign J) (jc_point J) (jc_jac J) (map (new_turned X) (jc_dot J)) (jc_body J) (jc_ref J).
(** The members of the Coriolis object: the Jacobians have columns in the world, the matrices are the same. *)
Definition move_cor (X : PT) (c : Cor) : Cor :=
  mkCor (co_mat c) (co_res c) (map (move_jac X) (co_jacs c)) (co_blocks c).

(** A user's simulation loop: n times forwardKinematics, forwardVelocity, forwardDynamics and integration, with
    the given torques and external forces. *)
Fixpoint simulate (solve : Mat -> list R -> list R) (fuel : nat) (mb : MultiBody) (step prec : R) (n : nat) (s : FD * MBC)
    : res (FD * MBC) :=
  match n with
  | O => Ok s
  | S n =>
    m <- forwardKinematics mb (snd s) ;;
    m <- forwardVelocity mb m ;;
    r <- forwardDynamics solve mb m (fst s) ;;
    m <- integration fuel mb (snd r) step prec ;;
    simulate solve fuel mb step prec n (fst r, m)
  end.
