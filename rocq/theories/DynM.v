(** Model of src/RBDyn/ID.cpp and src/RBDyn/FD.cpp. *)
From Coq Require Import Reals String ZArith Bool Arith List.
From Verif Require Import Res Vec Sva Mat JointM MultiBodyM.
Import ListNotations.
Open Scope R_scope.

(** ** InverseDynamics. The object's only member is f_ (ID.h), passed and returned
    explicitly. *)

(** ID.cpp 16, the constructor: nrBodies uninitialised force vectors. *)
Definition ID_ctor (g : nat -> SV) (mb : MultiBody) : list SV := map g (seq 0 (nrBodies mb)).

(** ID.cpp 100-121, computeJointTorques; state: (jointTorque, f_). *)
Definition torque_step (mb : MultiBody) (m : MBC) (i : nat)
    (s : list (list R) * list SV) : res (list (list R) * list SV) :=
  let (jt, f) := s in
  j <- get (mb_joints mb) i ;;
  jt <- for_up (jdof j)
          (fun d jt =>
             ms <- get (motionSubspace m) i ;; c <- get ms d ;;
             fi <- get f i ;; ti <- get jt i ;;
             ti' <- set ti d (svdot c fi) ;; set jt i ti') jt ;;
  pr <- get (mb_pred mb) i ;;
  if negb (pr =? -1)%Z then
    X <- get (parentToSon m) i ;;
    fp <- getz f pr ;;
    fi <- get f i ;;
    f <- setz f pr (svadd fp (pttrans X fi)) ;;
    Ok (jt, f)
  else Ok (jt, f).
Definition computeJointTorques (mb : MultiBody) (f : list SV) (m : MBC) : res (list SV * MBC) :=
  s <- for_down (nrBodies mb) (torque_step mb m) (jointTorque m, f) ;;
  Ok (snd s, with_jointTorque (fst s) m).

(** ID.cpp 18-45, inverseDynamics: the forward loop; state: (bodyAccB, f_). *)
Definition id_step (mb : MultiBody) (m : MBC) (a0 : SV) (i : nat)
    (s : list SV * list SV) : res (list SV * list SV) :=
  let (acc, f) := s in
  X <- get (parentToSon m) i ;;
  vj <- get (jointVelocity m) i ;;
  j <- get (mb_joints mb) i ;;
  adi <- get (alphaD m) i ;;
  at_ <- tanAccel j adi ;;
  vb <- get (bodyVelB m) i ;;
  pr <- get (mb_pred mb) i ;;
  ap <- (if negb (pr =? -1)%Z then getz acc pr else Ok a0) ;;
  let ai := svadd (svadd (ptm X ap) at_) (scross vb vj) in
  acc <- set acc i ai ;;
  b <- get (mb_bodies mb) i ;;
  Xw <- get (bodyPosW m) i ;;
  fe <- get (force m) i ;;
  f <- set f i (svsub (svadd (rbim (binertia b) ai) (scrossDual vb (rbim (binertia b) vb)))
                      (ptdual Xw fe)) ;;
  Ok (acc, f).
Definition inverseDynamics (mb : MultiBody) (f : list SV) (m : MBC) : res (list SV * MBC) :=
  s <- for_up (nrBodies mb) (id_step mb m (mkSV v0 (gravity m))) (bodyAccB m, f) ;;
  computeJointTorques mb (snd s) (with_bodyAccB (fst s) m).

(** ID.cpp 47-55, inverseDynamicsNoInertia. *)
Definition inverseDynamicsNoInertia (mb : MultiBody) (f : list SV) (m : MBC) : res (list SV * MBC) :=
  f <- for_up (nrBodies mb)
         (fun i f => Xw <- get (bodyPosW m) i ;; fe <- get (force m) i ;; set f i (ptdual Xw fe)) f ;;
  computeJointTorques mb f m.

(** ID.cpp 57-89, sInverseDynamics and sInverseDynamicsNoInertia: same checks. *)
Definition id_checks (mb : MultiBody) (m : MBC) : res unit :=
  checkMatchAlphaD mb m ;;; checkMatchForce mb m ;;; checkMatchJointConf mb m ;;;
  checkMatchJointVelocity mb m ;;; checkMatchBodyPos mb m ;;; checkMatchParentToSon mb m ;;;
  checkMatchBodyVel mb m ;;; checkMatchMotionSubspace mb m ;;; checkMatchBodyAcc mb m ;;;
  checkMatchJointTorque mb m.
Definition sInverseDynamics mb f m := id_checks mb m ;;; inverseDynamics mb f m.
Definition sInverseDynamicsNoInertia mb f m := id_checks mb m ;;; inverseDynamicsNoInertia mb f m.

(** ** ForwardDynamics (FD.h, data members). F_ is a vector of 6 x dof matrices. *)
Record FD := mkFD {
  fd_H : Mat;
  fd_C : list R;
  fd_I : list RBI;
  fd_F : list (list SV);
  fd_acc : list SV;
  fd_f : list SV;
  fd_tmp : list R;
  fd_dofPos : list nat
}.

(** FD.cpp 16-30, the constructor; [g..] are uninitialised values. The dofPos_ loop
    accumulates joint(i).dof() over the joints. *)
Definition FD_ctor (gR : nat -> nat -> R) (gS : nat -> nat -> SV) (gI : nat -> RBI) (mb : MultiBody) : FD :=
  let nd := mb_nrDof mb in
  let s := fold_left (fun s j => (fst s ++ [snd s], (snd s + jdof j)%nat)) (mb_joints mb) ([], 0%nat) in
  mkFD (mkMat nd nd gR) (map (gR 0%nat) (seq 0 nd)) (map gI (seq 0 (nrBodies mb)))
       (map (fun p => map (fun c => gS (fst p) c) (seq 0 (jdof (snd p))))
            (combine (seq 0 (nrJoints mb)) (mb_joints mb)))
       (map (gS 0%nat) (seq 0 (nrBodies mb))) (map (gS 1%nat) (seq 0 (nrBodies mb)))
       (map (gR 1%nat) (seq 0 nd)) (fst s).

Definition with_H v s := mkFD v (fd_C s) (fd_I s) (fd_F s) (fd_acc s) (fd_f s) (fd_tmp s) (fd_dofPos s).
Definition with_C v s := mkFD (fd_H s) v (fd_I s) (fd_F s) (fd_acc s) (fd_f s) (fd_tmp s) (fd_dofPos s).
Definition with_I v s := mkFD (fd_H s) (fd_C s) v (fd_F s) (fd_acc s) (fd_f s) (fd_tmp s) (fd_dofPos s).
Definition with_F v s := mkFD (fd_H s) (fd_C s) (fd_I s) v (fd_acc s) (fd_f s) (fd_tmp s) (fd_dofPos s).
Definition with_acc v s := mkFD (fd_H s) (fd_C s) (fd_I s) (fd_F s) v (fd_f s) (fd_tmp s) (fd_dofPos s).
Definition with_f v s := mkFD (fd_H s) (fd_C s) (fd_I s) (fd_F s) (fd_acc s) v (fd_tmp s) (fd_dofPos s).
Definition with_tmp v s := mkFD (fd_H s) (fd_C s) (fd_I s) (fd_F s) (fd_acc s) (fd_f s) v (fd_dofPos s).

(** [A.transpose() * B] for two 6-row matrices given by columns, of the sizes the
    destination block has (Eigen asserts it). *)
Definition smat_tmul (A B : list SV) (r c : nat) : res (nat -> nat -> R) :=
  if (length A =? r)%nat && (length B =? c)%nat
  then Ok (fun a b => svdot (nth a A sv0) (nth b B sv0)) else UB.

(** FD.cpp 72-91, the while loop over the ancestors of [i]; state (H_, F_[ui]).
    [fuel] bounds the number of iterations; running out of it is [Diverge], which on
    fuel = number of joints + 1 happens only if pred has a cycle through j. *)
Fixpoint anc_loop (mb : MultiBody) (m : MBC) (dofPos : list nat) (i di : nat) (fuel : nat)
    (j : nat) (H : Mat) (F : list SV) : res (Mat * list SV) :=
  match fuel with
  | O => Diverge
  | S fuel =>
      pr <- get (mb_pred mb) j ;;
      if negb (pr =? -1)%Z then
        X <- get (parentToSon m) j ;;
        F <- for_up di (fun d F => c <- get F d ;; set F d (pttrans X c)) F ;;
        let j := Z.to_nat pr in
        jj <- getz (mb_joints mb) pr ;;
        if negb (jdof jj =? 0)%nat then
          pi <- get dofPos i ;; pj <- get dofPos j ;;
          ms <- get (motionSubspace m) j ;;
          B <- smat_tmul F ms di (jdof jj) ;;
          H <- set_block H pi pj di (jdof jj) B ;;
          B' <- get_block H pi pj di (jdof jj) ;;
          H <- set_block H pj pi (jdof jj) di (fun a b => B' b a) ;;
          anc_loop mb m dofPos i di fuel j H F
        else anc_loop mb m dofPos i di fuel j H F
      else Ok (H, F)
  end.

(** FD.cpp 57-92, one iteration of the backward loop of computeH. *)
Definition h_step (mb : MultiBody) (m : MBC) (i : nat) (s : FD) : res FD :=
  pr <- get (mb_pred mb) i ;;
  s <- (if negb (pr =? -1)%Z then
          X <- get (parentToSon m) i ;;
          Ip <- getz (fd_I s) pr ;; Ii <- get (fd_I s) i ;;
          I' <- setz (fd_I s) pr (rbiadd Ip (pttransI X Ii)) ;;
          Ok (with_I I' s)
        else Ok s) ;;
  j <- get (mb_joints mb) i ;;
  Fi <- get (fd_F s) i ;;
  Fi <- for_up (jdof j)
          (fun d F => Ii <- get (fd_I s) i ;; ms <- get (motionSubspace m) i ;; c <- get ms d ;;
                      set F d (rbim Ii c)) Fi ;;
  pi <- get (fd_dofPos s) i ;;
  ms <- get (motionSubspace m) i ;;
  B <- smat_tmul ms Fi (jdof j) (jdof j) ;;
  H <- set_block (fd_H s) pi pi (jdof j) (jdof j) B ;;
  r <- anc_loop mb m (fd_dofPos s) i (jdof j) (S (nrJoints mb)) i H Fi ;;
  F <- set (fd_F s) i (snd r) ;;
  Ok (with_F F (with_H (fst r) s)).

(** FD.cpp 44-93, computeH. *)
Definition computeH (mb : MultiBody) (m : MBC) (s : FD) : res FD :=
  let s := with_H (mat_zero (mrows (fd_H s)) (mcols (fd_H s))) s in
  s <- for_up (nrBodies mb)
         (fun i s => b <- get (mb_bodies mb) i ;; I' <- set (fd_I s) i (binertia b) ;; Ok (with_I I' s)) s ;;
  for_down (nrBodies mb) (h_step mb m) s.

(** FD.cpp 95-131, computeC: forward loop, then backward loop. *)
Definition c_step1 (mb : MultiBody) (m : MBC) (a0 : SV) (i : nat) (s : FD) : res FD :=
  X <- get (parentToSon m) i ;;
  vj <- get (jointVelocity m) i ;;
  vb <- get (bodyVelB m) i ;;
  pr <- get (mb_pred mb) i ;;
  ap <- (if negb (pr =? -1)%Z then getz (fd_acc s) pr else Ok a0) ;;
  let ai := svadd (ptm X ap) (scross vb vj) in
  acc <- set (fd_acc s) i ai ;;
  b <- get (mb_bodies mb) i ;;
  Xw <- get (bodyPosW m) i ;;
  fe <- get (force m) i ;;
  f <- set (fd_f s) i (svsub (svadd (rbim (binertia b) ai) (scrossDual vb (rbim (binertia b) vb)))
                             (ptdual Xw fe)) ;;
  Ok (with_f f (with_acc acc s)).
Definition c_step2 (mb : MultiBody) (m : MBC) (i : nat) (s : FD) : res FD :=
  j <- get (mb_joints mb) i ;;
  pi <- get (fd_dofPos s) i ;;
  ms <- get (motionSubspace m) i ;;
  fi <- get (fd_f s) i ;;
  C <- (if (length ms =? jdof j)%nat
        then set_seg (fd_C s) pi (map (fun c => svdot c fi) ms) else UB) ;;
  let s := with_C C s in
  pr <- get (mb_pred mb) i ;;
  if negb (pr =? -1)%Z then
    X <- get (parentToSon m) i ;;
    fp <- getz (fd_f s) pr ;;
    f <- setz (fd_f s) pr (svadd fp (pttrans X fi)) ;;
    Ok (with_f f s)
  else Ok s.
Definition computeC (mb : MultiBody) (m : MBC) (s : FD) : res FD :=
  s <- for_up (nrBodies mb) (c_step1 mb m (mkSV v0 (gravity m))) s ;;
  for_down (nrBodies mb) (c_step2 mb m) s.

(** FD.cpp 32-42, forwardDynamics. [solve] stands for Eigen's LDLT factorisation and
    solve, which is not part of /repo: a parameter of the model. *)
Definition forwardDynamics (solve : Mat -> list R -> list R) (mb : MultiBody) (m : MBC) (s : FD)
    : res (FD * MBC) :=
  s <- computeH mb m s ;;
  s <- computeC mb m s ;;
  t <- paramToVector (jointTorque m) (fd_tmp s) ;;
  if (length t =? length (fd_C s))%nat then
    let x := solve (fd_H s) (map (fun p => fst p - snd p) (combine t (fd_C s))) in
    aD <- vectorToParam x (alphaD m) ;;
    Ok (with_tmp x s, with_alphaD aD m)
  else UB.

(** FD.cpp 133-166, sForwardDynamics, sComputeH, sComputeC. *)
Definition sForwardDynamics solve mb m s :=
  checkMatchParentToSon mb m ;;; checkMatchMotionSubspace mb m ;;; checkMatchJointVelocity mb m ;;;
  checkMatchBodyVel mb m ;;; checkMatchBodyPos mb m ;;; checkMatchForce mb m ;;;
  checkMatchJointTorque mb m ;;; checkMatchAlphaD mb m ;;; forwardDynamics solve mb m s.
Definition sComputeH mb m s :=
  checkMatchParentToSon mb m ;;; checkMatchMotionSubspace mb m ;;; computeH mb m s.
Definition sComputeC mb m s :=
  checkMatchParentToSon mb m ;;; checkMatchMotionSubspace mb m ;;; checkMatchJointVelocity mb m ;;;
  checkMatchBodyVel mb m ;;; checkMatchBodyPos mb m ;;; checkMatchForce mb m ;;; computeC mb m s.
