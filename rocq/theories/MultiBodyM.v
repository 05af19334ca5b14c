(** Model of src/RBDyn/MultiBody.cpp, src/RBDyn/RBDyn/MultiBody.h,
    src/RBDyn/MultiBodyConfig.cpp and src/RBDyn/RBDyn/MultiBodyConfig.h. *)
From Coq Require Import Reals String ZArith Bool Arith List.
From Verif Require Import Res SMap Vec Sva Mat JointM.
Import ListNotations.
Open Scope R_scope.

(** MultiBody.h 351-369, the data members. [int] indices are unbounded integers
    (overflow of int is not modelled); positions and counts are naturals. *)
Record MultiBody := mkMB {
  mb_bodies : list Body;
  mb_joints : list Joint;
  mb_pred : list Z;
  mb_succ : list Z;
  mb_parent : list Z;
  mb_Xt : list PT;
  mb_bodyInd : smap Z;
  mb_jointInd : smap Z;
  mb_posParam : list nat;
  mb_posDof : list nat;
  mb_nrParams : nat;
  mb_nrDof : nat
}.

(** MultiBody.h 55-65. *)
Definition nrBodies (mb : MultiBody) : nat := length (mb_bodies mb).
Definition nrJoints (mb : MultiBody) : nat := length (mb_joints mb).

(** State of the constructor loop. *)
Record mbctor := mkMBC0 {
  c_bi : smap Z; c_ji : smap Z; c_pp : list nat; c_pd : list nat; c_np : nat; c_nd : nat }.

(** MultiBody.cpp 18-41, the constructor. *)
Definition MultiBody_ctor (bodies : list Body) (joints : list Joint)
    (pred succ parent : list Z) (Xt : list PT) : res MultiBody :=
  s <- for_up (length bodies)
         (fun i s =>
            b <- get bodies i ;;
            j <- get joints i ;;
            pp <- set (c_pp s) i (c_np s) ;;
            pd <- set (c_pd s) i (c_nd s) ;;
            Ok (mkMBC0 (mset (c_bi s) (bname b) (Z.of_nat i))
                       (mset (c_ji s) (jname j) (Z.of_nat i))
                       pp pd (c_np s + jparams j) (c_nd s + jdof j)))
         (mkMBC0 [] [] (repeat 0%nat (length joints)) (repeat 0%nat (length joints)) 0 0) ;;
  Ok (mkMB bodies joints pred succ parent Xt (c_bi s) (c_ji s) (c_pp s) (c_pd s) (c_np s) (c_nd s)).

(** MultiBody.h 76-79, 100-103: setters bodies(b), transforms(Xt) and their
    element versions body(num, b), transform(num, Xt). *)
Definition mb_with_bodies (mb : MultiBody) (b : list Body) : MultiBody :=
  mkMB b (mb_joints mb) (mb_pred mb) (mb_succ mb) (mb_parent mb) (mb_Xt mb)
       (mb_bodyInd mb) (mb_jointInd mb) (mb_posParam mb) (mb_posDof mb) (mb_nrParams mb) (mb_nrDof mb).
Definition mb_with_Xt (mb : MultiBody) (X : list PT) : MultiBody :=
  mkMB (mb_bodies mb) (mb_joints mb) (mb_pred mb) (mb_succ mb) (mb_parent mb) X
       (mb_bodyInd mb) (mb_jointInd mb) (mb_posParam mb) (mb_posDof mb) (mb_nrParams mb) (mb_nrDof mb).
Definition set_body (mb : MultiBody) (i : nat) (b : Body) : res MultiBody :=
  bs <- set (mb_bodies mb) i b ;; Ok (mb_with_bodies mb bs).
Definition set_transform (mb : MultiBody) (i : nat) (X : PT) : res MultiBody :=
  xs <- set (mb_Xt mb) i X ;; Ok (mb_with_Xt mb xs).

(** MultiBody.h 158-167, bodyIndexByName, jointIndexByName: find()->second. *)
Definition bodyIndexByName (mb : MultiBody) (n : string) : res Z := mfind_deref (mb_bodyInd mb) n.
Definition jointIndexByName (mb : MultiBody) (n : string) : res Z := mfind_deref (mb_jointInd mb) n.
(** MultiBody.h 331-343, sBodyIndexByName, sJointIndexByName: at(). *)
Definition sBodyIndexByName (mb : MultiBody) (n : string) : res Z := mat_ (mb_bodyInd mb) n.
Definition sJointIndexByName (mb : MultiBody) (n : string) : res Z := mat_ (mb_jointInd mb) n.

(** std::vector::at with an int argument cast to size_t. *)
Definition atz {A} (l : list A) (z : Z) : res A :=
  if (z <? 0)%Z then Throw OutOfRange else get_at l (Z.to_nat z).
(** MultiBody.h 217-325, safe accessors. *)
Definition sBodies (mb : MultiBody) (b : list Body) : res MultiBody :=
  if (length b =? length (mb_bodies mb))%nat then Ok (mb_with_bodies mb b) else Throw RuntimeError.
Definition sTransforms (mb : MultiBody) (X : list PT) : res MultiBody :=
  if (length X =? length (mb_Xt mb))%nat then Ok (mb_with_Xt mb X) else Throw RuntimeError.
Definition sBody (mb : MultiBody) (i : Z) : res Body := atz (mb_bodies mb) i.
Definition sJoint (mb : MultiBody) (i : Z) : res Joint := atz (mb_joints mb) i.
Definition sPredecessor (mb : MultiBody) (i : Z) : res Z := atz (mb_pred mb) i.
Definition sSuccessor (mb : MultiBody) (i : Z) : res Z := atz (mb_succ mb) i.
Definition sParent (mb : MultiBody) (i : Z) : res Z := atz (mb_parent mb) i.
Definition sTransform (mb : MultiBody) (i : Z) : res PT := atz (mb_Xt mb) i.
Definition sJointPosInParam (mb : MultiBody) (i : Z) : res nat := atz (mb_posParam mb) i.
Definition sJointPosInDof (mb : MultiBody) (i : Z) : res nat := atz (mb_posDof mb) i.

(** MultiBodyConfig.h 23-71, the data members. motionSubspace matrices are lists of
    columns; they always have six rows (Matrix<double, 6, Dynamic>). *)
Record MBC := mkMBC {
  q : list (list R);
  alpha : list (list R);
  alphaD : list (list R);
  force : list SV;
  jointConfig : list PT;
  jointVelocity : list SV;
  jointTorque : list (list R);
  motionSubspace : list (list SV);
  bodyPosW : list PT;
  parentToSon : list PT;
  bodyVelW : list SV;
  bodyVelB : list SV;
  bodyAccB : list SV;
  gravity : V3
}.

Definition with_q v (m : MBC) := mkMBC v (alpha m) (alphaD m) (force m) (jointConfig m) (jointVelocity m) (jointTorque m) (motionSubspace m) (bodyPosW m) (parentToSon m) (bodyVelW m) (bodyVelB m) (bodyAccB m) (gravity m).
Definition with_alpha v (m : MBC) := mkMBC (q m) v (alphaD m) (force m) (jointConfig m) (jointVelocity m) (jointTorque m) (motionSubspace m) (bodyPosW m) (parentToSon m) (bodyVelW m) (bodyVelB m) (bodyAccB m) (gravity m).
Definition with_alphaD v (m : MBC) := mkMBC (q m) (alpha m) v (force m) (jointConfig m) (jointVelocity m) (jointTorque m) (motionSubspace m) (bodyPosW m) (parentToSon m) (bodyVelW m) (bodyVelB m) (bodyAccB m) (gravity m).
Definition with_force v (m : MBC) := mkMBC (q m) (alpha m) (alphaD m) v (jointConfig m) (jointVelocity m) (jointTorque m) (motionSubspace m) (bodyPosW m) (parentToSon m) (bodyVelW m) (bodyVelB m) (bodyAccB m) (gravity m).
Definition with_jointConfig v (m : MBC) := mkMBC (q m) (alpha m) (alphaD m) (force m) v (jointVelocity m) (jointTorque m) (motionSubspace m) (bodyPosW m) (parentToSon m) (bodyVelW m) (bodyVelB m) (bodyAccB m) (gravity m).
Definition with_jointVelocity v (m : MBC) := mkMBC (q m) (alpha m) (alphaD m) (force m) (jointConfig m) v (jointTorque m) (motionSubspace m) (bodyPosW m) (parentToSon m) (bodyVelW m) (bodyVelB m) (bodyAccB m) (gravity m).
Definition with_jointTorque v (m : MBC) := mkMBC (q m) (alpha m) (alphaD m) (force m) (jointConfig m) (jointVelocity m) v (motionSubspace m) (bodyPosW m) (parentToSon m) (bodyVelW m) (bodyVelB m) (bodyAccB m) (gravity m).
Definition with_motionSubspace v (m : MBC) := mkMBC (q m) (alpha m) (alphaD m) (force m) (jointConfig m) (jointVelocity m) (jointTorque m) v (bodyPosW m) (parentToSon m) (bodyVelW m) (bodyVelB m) (bodyAccB m) (gravity m).
Definition with_bodyPosW v (m : MBC) := mkMBC (q m) (alpha m) (alphaD m) (force m) (jointConfig m) (jointVelocity m) (jointTorque m) (motionSubspace m) v (parentToSon m) (bodyVelW m) (bodyVelB m) (bodyAccB m) (gravity m).
Definition with_parentToSon v (m : MBC) := mkMBC (q m) (alpha m) (alphaD m) (force m) (jointConfig m) (jointVelocity m) (jointTorque m) (motionSubspace m) (bodyPosW m) v (bodyVelW m) (bodyVelB m) (bodyAccB m) (gravity m).
Definition with_bodyVelW v (m : MBC) := mkMBC (q m) (alpha m) (alphaD m) (force m) (jointConfig m) (jointVelocity m) (jointTorque m) (motionSubspace m) (bodyPosW m) (parentToSon m) v (bodyVelB m) (bodyAccB m) (gravity m).
Definition with_bodyVelB v (m : MBC) := mkMBC (q m) (alpha m) (alphaD m) (force m) (jointConfig m) (jointVelocity m) (jointTorque m) (motionSubspace m) (bodyPosW m) (parentToSon m) (bodyVelW m) v (bodyAccB m) (gravity m).
Definition with_bodyAccB v (m : MBC) := mkMBC (q m) (alpha m) (alphaD m) (force m) (jointConfig m) (jointVelocity m) (jointTorque m) (motionSubspace m) (bodyPosW m) (parentToSon m) (bodyVelW m) (bodyVelB m) v (gravity m).
Definition with_gravity v (m : MBC) := mkMBC (q m) (alpha m) (alphaD m) (force m) (jointConfig m) (jointVelocity m) (jointTorque m) (motionSubspace m) (bodyPosW m) (parentToSon m) (bodyVelW m) (bodyVelB m) (bodyAccB m) v.

(** Values of default-constructed PTransformd, MotionVecd/ForceVecd and of freshly
    resized Eigen matrices: uninitialised memory, so any function of the field and
    index. *)
Record Garbage := mkGarbage { gPT : nat -> nat -> PT; gSV : nat -> nat -> SV }.

(** MultiBodyConfig.cpp 18-38, MultiBodyConfig(mb). std::vector<double>::resize
    zero-fills; transforms, motion/force vectors and subspace matrices are left
    uninitialised, so they come from [g]. *)
Definition MBC_ctor (g : Garbage) (mb : MultiBody) : MBC :=
  let nj := nrJoints mb in
  let nb := nrBodies mb in
  let zeros (f : Joint -> nat) := map (fun j => repeat 0 (f j)) (mb_joints mb) in
  mkMBC (zeros jparams) (zeros jdof) (zeros jdof)
        (map (gSV g 0%nat) (seq 0 nb))
        (map (gPT g 0%nat) (seq 0 nj))
        (map (gSV g 1%nat) (seq 0 nj))
        (zeros jdof)
        (map (fun p => map (fun c => gSV g 5%nat (fst p * 6 + c)%nat) (seq 0 (jdof (snd p))))
             (combine (seq 0 nj) (mb_joints mb)))
        (map (gPT g 1%nat) (seq 0 nb))
        (map (gPT g 2%nat) (seq 0 nb))
        (map (gSV g 2%nat) (seq 0 nb))
        (map (gSV g 3%nat) (seq 0 nb))
        (map (gSV g 4%nat) (seq 0 nb))
        (mkV3 0 (981/100) 0).

(** MultiBodyConfig.cpp 40-57, zero(mb): loops over q.size() and force.size(). *)
Definition MBC_zero (mb : MultiBody) (m : MBC) : res MBC :=
  m <- for_up (length (q m))
         (fun i m =>
            j <- get (mb_joints mb) i ;;
            q' <- set (q m) i (zeroParam j) ;;
            a' <- set (alpha m) i (zeroDof j) ;;
            ad' <- set (alphaD m) i (zeroDof j) ;;
            t' <- set (jointTorque m) i (zeroDof j) ;;
            Ok (with_jointTorque t' (with_alphaD ad' (with_alpha a' (with_q q' m))))) m ;;
  for_up (length (force m))
    (fun i m => f' <- set (force m) i sv0 ;; Ok (with_force f' m)) m.

(** MultiBodyConfig.h 250-270, checkMatchBodiesVector, checkMatchJointsVector. *)
Definition checkMatchBodiesVector {A} (mb : MultiBody) (v : list A) : res unit :=
  if (length v =? nrBodies mb)%nat then Ok tt else Throw DomainError.
Definition checkMatchJointsVector {A} (mb : MultiBody) (v : list A) : res unit :=
  if (length v =? nrJoints mb)%nat then Ok tt else Throw DomainError.

(** The per-joint loop shared by checkMatchJointTorque, checkMatchMotionSubspace,
    checkMatchQ, checkMatchAlpha and checkMatchAlphaD. *)
Definition checkEach {A} (mb : MultiBody) (v : list (list A)) (f : Joint -> nat) : res unit :=
  for_up (length v)
    (fun i _ => vi <- get v i ;; j <- get (mb_joints mb) i ;;
                if (length vi =? f j)%nat then Ok tt else Throw DomainError) tt.

(** MultiBodyConfig.cpp 367-484. *)
Definition checkMatchBodyPos mb m := checkMatchBodiesVector mb (bodyPosW m).
Definition checkMatchParentToSon mb m := checkMatchJointsVector mb (parentToSon m).
Definition checkMatchBodyVel mb m :=
  checkMatchBodiesVector mb (bodyVelW m) ;;; checkMatchBodiesVector mb (bodyVelB m).
Definition checkMatchBodyAcc mb m := checkMatchBodiesVector mb (bodyAccB m).
Definition checkMatchJointConf mb m := checkMatchJointsVector mb (jointConfig m).
Definition checkMatchJointVelocity mb m := checkMatchJointsVector mb (jointVelocity m).
Definition checkMatchJointTorque mb m :=
  checkMatchJointsVector mb (jointTorque m) ;;; checkEach mb (jointTorque m) jdof.
Definition checkMatchMotionSubspace mb m :=
  checkMatchJointsVector mb (motionSubspace m) ;;; checkEach mb (motionSubspace m) jdof.
Definition checkMatchQ mb m :=
  checkMatchJointsVector mb (q m) ;;; checkEach mb (q m) jparams.
Definition checkMatchAlpha mb m :=
  checkMatchJointsVector mb (alpha m) ;;; checkEach mb (alpha m) jdof.
Definition checkMatchAlphaD mb m :=
  checkMatchJointsVector mb (alphaD m) ;;; checkEach mb (alphaD m) jdof.
Definition checkMatchForce mb m := checkMatchBodiesVector mb (force m).

(** MultiBodyConfig.cpp 190-201, paramToVector(v, e): e(pos) = d with Eigen's bound
    assertion. *)
Definition paramToVector (v : list (list R)) (e : list R) : res (list R) :=
  s <- for_each v
         (fun inV s => for_each inV (fun d s => e' <- set (snd s) (fst s) d ;; Ok (S (fst s), e')) s)
         (0%nat, e) ;;
  Ok (snd s).

Definition total_size {A} (v : list (list A)) : nat := length (concat v).

(** MultiBodyConfig.cpp 203-219, sParamToVector(v, e). *)
Definition sParamToVector (v : list (list R)) (e : list R) : res (list R) :=
  nb <- for_up (length v) (fun i nb => vi <- get v i ;; Ok (nb + length vi)%nat) 0%nat ;;
  if (nb =? length e)%nat then paramToVector v e else Throw OutOfRange.

(** MultiBodyConfig.cpp 221-227 and 253-259: a fresh vector ([g]: its uninitialised
    contents) of nrParams (nrDof) coefficients is filled. *)
Definition mbParamToVector (g : nat -> R) (mb : MultiBody) (v : list (list R)) : res (list R) :=
  paramToVector v (map g (seq 0 (mb_nrParams mb))).
Definition mbDofToVector (g : nat -> R) (mb : MultiBody) (v : list (list R)) : res (list R) :=
  paramToVector v (map g (seq 0 (mb_nrDof mb))).

(** The checks of MultiBodyConfig.cpp 229-251 and 261-282: sParamToVector(mb, v),
    sDofToVector(mb, v). *)
Definition checkSizes (mb : MultiBody) (v : list (list R)) (f : Joint -> nat) : res unit :=
  if (length v =? nrJoints mb)%nat then
    for_up (nrJoints mb)
      (fun i _ => j <- get (mb_joints mb) i ;; vi <- get v i ;;
                  if (f j =? length vi)%nat then Ok tt else Throw OutOfRange) tt
  else Throw OutOfRange.
Definition sMbParamToVector g mb v := checkSizes mb v jparams ;;; mbParamToVector g mb v.
Definition sMbDofToVector g mb v := checkSizes mb v jdof ;;; mbDofToVector g mb v.

(** MultiBodyConfig.cpp 284-295, vectorToParam(e, v): overwrites each d of v. The
    inner loop is a map over the entries of each inner vector. *)
Fixpoint fill_one (e : list R) (pos : nat) (inV : list R) : res (nat * list R) :=
  match inV with
  | [] => Ok (pos, [])
  | _ :: inV => d <- get e pos ;; r <- fill_one e (S pos) inV ;; Ok (fst r, d :: snd r)
  end.
Fixpoint fill_all (e : list R) (pos : nat) (v : list (list R)) : res (list (list R)) :=
  match v with
  | [] => Ok []
  | inV :: v => r <- fill_one e pos inV ;; rs <- fill_all e (fst r) v ;; Ok (snd r :: rs)
  end.
Definition vectorToParam (e : list R) (v : list (list R)) : res (list (list R)) := fill_all e 0 v.

(** MultiBodyConfig.cpp 297-313, sVectorToParam(e, v). *)
Definition sVectorToParam (e : list R) (v : list (list R)) : res (list (list R)) :=
  nb <- for_up (length v) (fun i nb => vi <- get v i ;; Ok (nb + length vi)%nat) 0%nat ;;
  if (nb =? length e)%nat then vectorToParam e v else Throw OutOfRange.

(** MultiBodyConfig.cpp 315-328, 341-354: vectorToParam(mb, e), vectorToDof(mb, e). *)
Definition mbVectorToParam (mb : MultiBody) (e : list R) : res (list (list R)) :=
  vectorToParam e (map (fun j => repeat 0 (jparams j)) (mb_joints mb)).
Definition mbVectorToDof (mb : MultiBody) (e : list R) : res (list (list R)) :=
  vectorToParam e (map (fun j => repeat 0 (jdof j)) (mb_joints mb)).
(** MultiBodyConfig.cpp 330-339, 356-365: sVectorToParam(mb, e), sVectorToDof(mb, e). *)
Definition sMbVectorToParam (mb : MultiBody) (e : list R) : res (list (list R)) :=
  if (mb_nrParams mb =? length e)%nat then mbVectorToParam mb e else Throw OutOfRange.
Definition sMbVectorToDof (mb : MultiBody) (e : list R) : res (list (list R)) :=
  if (mb_nrDof mb =? length e)%nat then mbVectorToDof mb e else Throw OutOfRange.

(** ConfigConverter (MultiBodyConfig.h 77-120): jInd_ and bInd_. *)
Record ConfigConverter := mkCC { cc_j : list Z; cc_b : list Z }.

(** MultiBodyConfig.cpp 84-101, the constructor. With no joint, the size
    nrJoints() - 1 cast to size_t makes std::vector throw length_error. *)
Definition CC_ctor (from to_ : MultiBody) : res ConfigConverter :=
  match mb_joints from with
  | [] => Throw LengthError
  | _ :: js =>
      jind <- map_res (fun j => jointIndexByName to_ (jname j)) js ;;
      bind_ <- map_res (fun b => bodyIndexByName to_ (bname b)) (mb_bodies from) ;;
      Ok (mkCC jind bind_)
  end.

(** MultiBodyConfig.cpp 103-118, convert(from, to). *)
Definition CC_convert (cc : ConfigConverter) (from to_ : MBC) : res MBC :=
  m <- for_up (length (cc_j cc))
         (fun i m =>
            ji <- get (cc_j cc) i ;;
            qi <- get (q from) (S i) ;;
            q' <- setz (q m) ji qi ;;
            ai <- get (alpha from) (S i) ;;
            a' <- setz (alpha m) ji ai ;;
            adi <- get (alphaD from) (S i) ;;
            ad' <- setz (alphaD m) ji adi ;;
            Ok (with_alphaD ad' (with_alpha a' (with_q q' m)))) to_ ;;
  for_up (length (cc_b cc))
    (fun i m => bi <- get (cc_b cc) i ;; fi <- get (force from) i ;;
                f' <- setz (force m) bi fi ;; Ok (with_force f' m)) m.

(** MultiBodyConfig.cpp 120-164, sConstructor. *)
Definition CC_sConstructor (from to_ : MultiBody) : res ConfigConverter :=
  if ((nrBodies from =? nrBodies to_)%nat && (nrJoints from =? nrJoints to_)%nat
      && forallb (fun j => match mfind (mb_jointInd to_) (jname j) with Some _ => true | None => false end)
                 (mb_joints from)
      && forallb (fun b => match mfind (mb_bodyInd to_) (bname b) with Some _ => true | None => false end)
                 (mb_bodies from))
  then CC_ctor from to_ else Throw DomainError.

(** MultiBodyConfig.cpp 166-184, sConvert. *)
Definition CC_sConvert (cc : ConfigConverter) (from to_ : MBC) : res MBC :=
  if ((length (q from) =? length (q to_))%nat && (length (alpha from) =? length (alpha to_))%nat
      && (length (alphaD from) =? length (alphaD to_))%nat
      && (length (force from) =? length (force to_))%nat)
  then CC_convert cc from to_ else Throw DomainError.

(** MultiBodyConfig.h 272-302, convertJoint(from, to), sConvertJoint(from, to) and
    convertJoint(from), whose result is value-initialised ([dflt]). *)
Definition CC_convertJoint {A} (cc : ConfigConverter) (from to_ : list A) : res (list A) :=
  for_up (length (cc_j cc))
    (fun i t => ji <- get (cc_j cc) i ;; x <- get from (S i) ;; setz t ji x) to_.
Definition CC_sConvertJoint {A} (cc : ConfigConverter) (from to_ : list A) : res (list A) :=
  if (length from =? length to_)%nat then CC_convertJoint cc from to_ else Throw DomainError.
Definition CC_convertJoint1 {A} (dflt : A) (cc : ConfigConverter) (from : list A) : res (list A) :=
  CC_convertJoint cc from (repeat dflt (length from)).
