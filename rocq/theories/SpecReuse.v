(** Vocabulary for the reuse of objects: what an object may have been through before a call. *)
From Coq Require Import Reals String ZArith Bool Arith List.
From Verif Require Import Res SMap Vec Sva Mat JointM MultiBodyM KinM DynM JacM CoMM MomM CoriolisM IDIMM ISM IkM Spec SpecDyn.
Import ListNotations.
Open Scope R_scope.

(** What is seen of an outcome: the part f of the value, or the failure. *)
Definition seen {A B} (f : A -> B) (r : res A) : res B :=
  match r with Ok a => Ok (f a) | Throw e => Throw e | UB => UB | Diverge => Diverge end.
(** An object as its constructor left it, followed by any number of calls that returned. *)
Inductive history {St : Type} (new : St -> Prop) (call : St -> St -> Prop) : St -> Prop :=
| hi_new s : new s -> history new call s
| hi_call s s' : history new call s -> call s s' -> history new call s'.

(** Two matrices that show the same: sizes and coefficients. *)
Definition same_mat (M N : Mat) : Prop :=
  mrows M = mrows N /\ mcols M = mcols N /\
  forall r c, (r < mrows M)%nat -> (c < mcols M)%nat -> ment M r c = ment N r c.
(** Two outcomes that show the same: equal failures, or values related by Q. *)
Definition same_outcome {A} (Q : A -> A -> Prop) (x y : res A) : Prop :=
  match x, y with
  | Ok a, Ok b => Q a b
  | Throw e, Throw e' => e = e'
  | UB, UB => True
  | Diverge, Diverge => True
  | _, _ => False
  end.

(** Jacobian: either constructor, uninitialised matrices with any contents; then any of the calls
    that change the object, on any configuration. *)
Definition jac_new (mb : MultiBody) (name : string) (ref : option string) (J : Jac) : Prop :=
  exists g p, match ref with
              | None => Jacobian_ctor g mb name p = Ok J
              | Some r => Jacobian_ref_ctor g mb name r p = Ok J
              end.
Inductive jac_call (mb : MultiBody) (J : Jac) : Jac -> Prop :=
| jc_jacobian m J' : jacobian mb m J = Ok J' -> jac_call mb J J'
| jc_jacobian_at m X J' : jacobian_at mb m X J = Ok J' -> jac_call mb J J'
| jc_bodyJacobian m J' : bodyJacobian mb m J = Ok J' -> jac_call mb J J'
| jc_vector m v J' : vectorJacobian mb m v J = Ok J' -> jac_call mb J J'
| jc_vectorBody m v J' : vectorBodyJacobian mb m v J = Ok J' -> jac_call mb J J'
| jc_jacobianDot m J' : jacobianDot mb m J = Ok J' -> jac_call mb J J'
| jc_bodyJacobianDot m J' : bodyJacobianDot mb m J = Ok J' -> jac_call mb J J'
| jc_set p : jac_call mb J (set_point p J).
Definition jac_history mb name ref := history (jac_new mb name ref) (jac_call mb).

(** InverseDynamics: the object is its member f_. *)
Definition id_new (mb : MultiBody) (f : list SV) : Prop := exists g, f = ID_ctor g mb.
Inductive id_call (mb : MultiBody) (f : list SV) : list SV -> Prop :=
| idc_id m f' m' : inverseDynamics mb f m = Ok (f', m') -> id_call mb f f'
| idc_ni m f' m' : inverseDynamicsNoInertia mb f m = Ok (f', m') -> id_call mb f f'.
Definition id_history mb := history (id_new mb) (id_call mb).

(** ForwardDynamics. *)
Definition fd_new (mb : MultiBody) (s : FD) : Prop := exists gR gS gI, s = FD_ctor gR gS gI mb.
Inductive fd_call (solve : Mat -> list R -> list R) (mb : MultiBody) (s : FD) : FD -> Prop :=
| fdc_fd m s' m' : forwardDynamics solve mb m s = Ok (s', m') -> fd_call solve mb s s'
| fdc_H m s' : computeH mb m s = Ok s' -> fd_call solve mb s s'
| fdc_C m s' : computeC mb m s = Ok s' -> fd_call solve mb s s'.
Definition fd_history solve mb := history (fd_new mb) (fd_call solve mb).

(** IDIM: the object is its member Y_. *)
Definition idim_history mb := history (fun Y => Y = IDIM_ctor mb) (fun Y Y' => exists m, computeY mb m Y = Ok Y').

(** CoMJacobianDummy, CoMJacobian, CentroidalMomentumMatrix with the weights w (None: the constructor without weights). *)
Definition comd_new mb (w : option (list R)) (d : CoMD) : Prop :=
  exists g gm, match w with None => CoMD_ctor g gm mb = Ok d | Some w => CoMD_ctor_w g gm mb w = Ok d end.
Inductive comd_call (mb : MultiBody) (d : CoMD) : CoMD -> Prop :=
| cdc_jac m d' : comd_jacobian mb m d = Ok d' -> comd_call mb d d'
| cdc_dot m d' : comd_jacobianDot mb m d = Ok d' -> comd_call mb d d'.
Definition comd_history mb w := history (comd_new mb w) (comd_call mb).
Definition comj_new mb (c : CoMJ) : Prop :=
  exists g gm, CoMJ_ctor g gm mb = Ok c \/ exists w, CoMJ_ctor_w g gm mb w = Ok c.
Inductive comj_call (mb : MultiBody) (c : CoMJ) : CoMJ -> Prop :=
| cjc_jac m c' : comj_jacobian mb m c = Ok c' -> comj_call mb c c'
| cjc_dot m c' : comj_jacobianDot mb m c = Ok c' -> comj_call mb c c'
| cjc_nacc m v c' : comj_normalAcceleration mb m c = Ok (v, c') -> comj_call mb c c'
| cjc_weight w c' : set_weight mb w c = Ok c' -> comj_call mb c c'
| cjc_update c' : updateInertialParameters mb c = Ok c' -> comj_call mb c c'.
Definition comj_history mb := history (comj_new mb) (comj_call mb).
Definition cmm_new mb (w : option (list R)) (c : CMM) : Prop :=
  exists g gm, match w with None => CMM_ctor g gm mb = Ok c | Some w => CMM_ctor_w g gm mb w = Ok c end.
Inductive cmm_call (mb : MultiBody) (c : CMM) : CMM -> Prop :=
| cmc_mat m com c' : computeMatrix mb m com c = Ok c' -> cmm_call mb c c'
| cmc_dot m com comDot c' : computeMatrixDot mb m com comDot c = Ok c' -> cmm_call mb c c'
| cmc_both m com comDot c' : computeMatrixAndMatrixDot mb m com comDot c = Ok c' -> cmm_call mb c c'
| cmc_nacc m com comDot v c' : normalMomentumDot mb m com comDot c = Ok (v, c') -> cmm_call mb c c'.
Definition cmm_history mb w := history (cmm_new mb w) (cmm_call mb).

(** Coriolis. *)
Definition cor_history mb :=
  history (fun c => exists g gm gr, Coriolis_ctor g gm gr mb = Ok c) (fun c c' => exists m, coriolis mb m c = Ok c').

(** InverseStatics: inverseStatics works on the member f_. *)
Inductive is_call (mb : MultiBody) (s : ISd) : ISd -> Prop :=
| isc_statics m f' m' : inverseStatics mb (id_f s) m = Ok (f', m') ->
    is_call mb s (mkISd f' (id_df s) (id_diff s) (id_jac s) (id_full s) (id_set s))
| isc_diff m jacs s' m' : computeTorqueJacobianJoint mb m jacs s = Ok (s', m') -> is_call mb s s'.
Definition is_history mb := history (fun s => exists g gf, ISd_ctor g gf mb = Ok s) (is_call mb).

(** The same object when the widest Jacobian of the forces always has N columns. *)
Inductive is_call_of (N : nat) (mb : MultiBody) (s : ISd) : ISd -> Prop :=
| isn_statics m f' m' : inverseStatics mb (id_f s) m = Ok (f', m') ->
    is_call_of N mb s (mkISd f' (id_df s) (id_diff s) (id_jac s) (id_full s) (id_set s))
| isn_diff m jacs s' m' : list_max (map mcols jacs) = N -> computeTorqueJacobianJoint mb m jacs s = Ok (s', m') -> is_call_of N mb s s'.
Definition is_history_of N mb := history (fun s => exists g gf, ISd_ctor g gf mb = Ok s) (is_call_of N mb).

(** InverseKinematics. *)
Definition ik_history svd rotErr mb ef :=
  history (fun I => exists g, IK_ctor g mb ef = Ok I)
          (fun I I' => exists fuel target m m' b, inverseKinematics svd rotErr fuel mb target I m = Ok (I', m', b)).
