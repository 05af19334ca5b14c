(** Model of src/RBDyn/Jacobian.cpp and src/RBDyn/RBDyn/Jacobian.h. *)
From Coq Require Import Reals String ZArith Bool Arith List.
From Verif Require Import Res SMap Vec Sva Mat JointM MultiBodyM.
Import ListNotations.
Open Scope R_scope.

(** Jacobian.h 18-31, struct Block. *)
Record Block := mkBlock { bl_dof : nat; bl_jac : nat; bl_len : nat }.

(** Jacobian.h 466-475, the data members. jac_ and jacDot_ always have six rows and are
    lists of columns. jointsPath_ holds naturals: the constructors only store an index
    after having read a joint at that index. *)
Record Jac := mkJac {
  jc_path : list nat;
  jc_sign : list R;
  jc_point : PT;
  jc_jac : list SV;
  jc_dot : list SV;
  jc_body : Z;
  jc_ref : Z
}.
Definition with_jac v (J : Jac) := mkJac (jc_path J) (jc_sign J) (jc_point J) v (jc_dot J) (jc_body J) (jc_ref J).
Definition with_dot v (J : Jac) := mkJac (jc_path J) (jc_sign J) (jc_point J) (jc_jac J) v (jc_body J) (jc_ref J).

(** Jacobian.h 329-339, point() and point(p); 324-327, dof(). *)
Definition jac_point (J : Jac) : V3 := trR (jc_point J).
Definition set_point (p : V3) (J : Jac) : Jac :=
  mkJac (jc_path J) (jc_sign J) (pttr p) (jc_jac J) (jc_dot J) (jc_body J) (jc_ref J).
Definition jac_dof (J : Jac) : nat := length (jc_jac J).

(** Jacobian.cpp 31-38, the while loop of the first constructor; state (jointsPath_,
    jointsSign_, dof). [fuel]: number of iterations allowed, running out of it is
    [Diverge]; with fuel = number of joints + 1 this happens only when parent() has a cycle. *)
Fixpoint jac_walk (mb : MultiBody) (fuel : nat) (index : Z) (path : list nat) (sign : list R) (dof : nat)
    : res (list nat * list R * nat) :=
  match fuel with
  | O => Diverge
  | S fuel =>
      if (index =? -1)%Z then Ok (path, sign, dof)
      else
        j <- getz (mb_joints mb) index ;;
        p <- getz (mb_parent mb) index ;;
        jac_walk mb fuel p (Z.to_nat index :: path) (1 :: sign) (dof + jdof j)
  end.

(** Jacobian.cpp 22-42, Jacobian(mb, bodyName, point). [g]: uninitialised coefficients of
    the resized matrices. *)
Definition Jacobian_ctor (g : nat -> nat -> SV) (mb : MultiBody) (name : string) (point : V3) : res Jac :=
  b <- sBodyIndexByName mb name ;;
  r <- jac_walk mb (S (nrJoints mb)) b [] [] 0 ;;
  let '(path, sign, dof) := r in
  Ok (mkJac path sign (pttr point) (map (g 0%nat) (seq 0 dof)) (map (g 1%nat) (seq 0 dof)) b 0).

(** Jacobian.cpp 55-67, the while loop of the second constructor: stops at the reference
    body or at the root; returns also the final index. *)
Fixpoint ref_walk (mb : MultiBody) (ref : Z) (fuel : nat) (index : Z) (path : list nat) (sign : list R) (dof : nat)
    : res (Z * list nat * list R * nat) :=
  match fuel with
  | O => Diverge
  | S fuel =>
      if (index =? -1)%Z then Ok (index, path, sign, dof)
      else if (index =? ref)%Z then Ok (index, path, sign, dof)
      else
        j <- getz (mb_joints mb) index ;;
        p <- getz (mb_parent mb) index ;;
        ref_walk mb ref fuel p (Z.to_nat index :: path) (1 :: sign) (dof + jdof j)
  end.

(** std::find(...) != end for an int in a vector of indices. *)
Definition zmem (z : Z) (l : list nat) : bool := existsb (fun k => (Z.of_nat k =? z)%Z) l.

(** Jacobian.cpp 72-83, the do-while loop climbing from the reference body. [front] is the
    part of jointsPath_ inserted by this loop (its first count entries), [back] the rest;
    jointsSign_ gets a -1 at the front for each. *)
Fixpoint ref_climb (mb : MultiBody) (fuel : nat) (index : Z) (front back : list nat) (sign : list R) (dof : nat)
    : res (Z * list nat * list R * nat) :=
  match fuel with
  | O => Diverge
  | S fuel =>
      j <- getz (mb_joints mb) index ;;
      p <- getz (mb_parent mb) index ;;
      let front := front ++ [Z.to_nat index] in
      let sign := -1 :: sign in
      let dof := (dof + jdof j)%nat in
      if zmem p back then Ok (p, front, sign, dof) else ref_climb mb fuel p front back sign dof
  end.

(** Jacobian.cpp 87-91: number of entries of jointsPath_ + count before the common joint,
    looking from the second entry on (the index is incremented before the first test). *)
Fixpoint common_from (l : list nat) (z : Z) : res nat :=
  match l with
  | [] => UB
  | k :: l => if (Z.of_nat k =? z)%Z then Ok 0%nat else n <- common_from l z ;; Ok (S n)
  end.

(** Jacobian.cpp 44-103, Jacobian(mb, bodyName, refBodyName, point). *)
Definition Jacobian_ref_ctor (g : nat -> nat -> SV) (mb : MultiBody) (name refName : string) (point : V3) : res Jac :=
  b <- sBodyIndexByName mb name ;;
  ref <- sBodyIndexByName mb refName ;;
  r <- ref_walk mb ref (S (nrJoints mb)) b [] [] 0 ;;
  let '(index, path, sign, dof) := r in
  r <- (if (index =? ref)%Z then Ok (path, sign, dof)
        else
          c <- ref_climb mb (S (nrJoints mb)) ref [] path sign dof ;;
          let '(index, front, sign, dof) := c in
          if (index >? 0)%Z then
            n <- common_from (tl path) index ;;
            let n := S n in
            js <- map_res (get (mb_joints mb)) (firstn (S n) path) ;;
            Ok (front ++ skipn (S n) path,
                firstn (length front) sign ++ skipn (length front + S n) sign,
                (dof - list_sum (map jdof js))%nat)
          else Ok (front ++ path, sign, dof)) ;;
  let '(path, sign, dof) := r in
  Ok (mkJac path sign (pttr point) (map (g 0%nat) (seq 0 dof)) (map (g 1%nat) (seq 0 dof)) b ref).

(** [std::vector::back()] *)
Definition back {A} (l : list A) : res A := match rev l with [] => UB | a :: _ => Ok a end.

(** Jacobian.cpp 105-159, subMultiBody. *)
Definition sub_Xt (mb : MultiBody) (J : Jac) (index i : nat) : res PT :=
  sg <- get (jc_sign J) index ;;
  match index with
  | O => if Req_EM_T sg (-1) then Ok (pttr v0) else get (mb_Xt mb) i
  | S prev =>
      sp <- get (jc_sign J) prev ;;
      if Req_EM_T sp (-1) then
        ip <- get (jc_path J) prev ;;
        Xp <- get (mb_Xt mb) ip ;;
        if Req_EM_T sg (-1) then Ok (ptinv Xp)
        else Xi <- get (mb_Xt mb) i ;; Ok (ptmul (ptinv Xp) Xi)
      else get (mb_Xt mb) i
  end.
Definition subMultiBody (mb : MultiBody) (J : Jac) : res MultiBody :=
  let n := length (jc_path J) in
  bodies <- map_res (get (mb_bodies mb)) (jc_path J) ;;
  joints <- map_res (fun index =>
      i <- get (jc_path J) index ;; j <- get (mb_joints mb) i ;; sg <- get (jc_sign J) index ;;
      Ok (if Req_EM_T sg (-1) then set_forward j (negb (jfwd j)) else j)) (seq 0 n) ;;
  Xt <- map_res (fun index => i <- get (jc_path J) index ;; sub_Xt mb J index i) (seq 0 n) ;;
  let up := map (fun k => (Z.of_nat k - 1)%Z) (seq 0 n) in
  MultiBody_ctor bodies joints up (map Z.of_nat (seq 0 n)) up Xt.

(** Jacobian.cpp 161-193, jacobian_: the columns are written from curJ on; state (curJ, jac). *)
Definition jac_step (mb : MultiBody) (m : MBC) (X : PT) (J : Jac) (index : nat) (s : nat * list SV)
    : res (nat * list SV) :=
  i <- get (jc_path J) index ;;
  Xi <- get (bodyPosW m) i ;;
  let X_i_N := ptmul X (ptinv Xi) in
  j <- get (mb_joints mb) i ;;
  jac <- for_up (jdof j)
           (fun d jac =>
              sg <- get (jc_sign J) index ;;
              ms <- get (motionSubspace m) i ;; c <- get ms d ;;
              set jac (fst s + d) (ptm X_i_N (svscale sg c))) (snd s) ;;
  Ok ((fst s + jdof j)%nat, jac).
Definition jacobian_ (mb : MultiBody) (m : MBC) (X : PT) (J : Jac) : res Jac :=
  s <- for_up (length (jc_path J)) (jac_step mb m X J) (0%nat, jc_jac J) ;;
  Ok (with_jac (snd s) J).

(** Jacobian.cpp 200-208 and 219-227: change of base to the reference body. *)
Definition to_ref (m : MBC) (J : Jac) : res Jac :=
  if (jc_ref J >? 0)%Z then
    X <- getz (bodyPosW m) (jc_ref J) ;;
    Ok (with_jac (map (fun c => mkSV (mapp (rotE X) (sang c)) (mapp (rotE X) (slin c))) (jc_jac J)) J)
  else Ok J.

(** Jacobian.cpp 195-209, jacobian(mb, mbc, X_0_p). *)
Definition jacobian_at (mb : MultiBody) (m : MBC) (X : PT) (J : Jac) : res Jac :=
  J <- jacobian_ mb m X J ;; to_ref m J.
(** Jacobian.cpp 211-229, jacobian(mb, mbc). *)
Definition jacobian (mb : MultiBody) (m : MBC) (J : Jac) : res Jac :=
  N <- back (jc_path J) ;;
  XN <- get (bodyPosW m) N ;;
  J <- jacobian_ mb m (pttr (trR (ptmul (jc_point J) XN))) J ;;
  to_ref m J.
(** Jacobian.cpp 231-237, bodyJacobian. *)
Definition bodyJacobian (mb : MultiBody) (m : MBC) (J : Jac) : res Jac :=
  N <- back (jc_path J) ;;
  XN <- get (bodyPosW m) N ;;
  jacobian_ mb m (ptmul (jc_point J) XN) J.

(** Jacobian.cpp 239-275, vectorJacobian, and 277-308, vectorBodyJacobian: only the last
    three rows are written; [Ef] gives the rotation applied in each. *)
Definition vec_step (mb : MultiBody) (m : MBC) (Ef : PT -> M3) (X_Np : PT) (vec : V3) (J : Jac)
    (index : nat) (s : nat * list SV) : res (nat * list SV) :=
  i <- get (jc_path J) index ;;
  Xi <- get (bodyPosW m) i ;;
  let X_i_N := ptmul X_Np (ptinv Xi) in
  let X_i_Nv := ptmul (pttr vec) X_i_N in
  let diff := vsub (trR X_i_N) (trR X_i_Nv) in
  j <- get (mb_joints mb) i ;;
  jac <- for_up (jdof j)
           (fun d jac =>
              ms <- get (motionSubspace m) i ;; c <- get ms d ;;
              old <- get jac (fst s + d) ;;
              set jac (fst s + d) (mkSV (sang old) (mapp (Ef X_i_N) (vcross diff (sang c))))) (snd s) ;;
  Ok ((fst s + jdof j)%nat, jac).
Definition vectorJacobian (mb : MultiBody) (m : MBC) (vec : V3) (J : Jac) : res Jac :=
  N <- back (jc_path J) ;;
  XN <- get (bodyPosW m) N ;;
  s <- for_up (length (jc_path J))
         (vec_step mb m (fun X_i_N => mmul (mtr (rotE XN)) (rotE X_i_N)) (ptmul (jc_point J) XN) vec J)
         (0%nat, jc_jac J) ;;
  Ok (with_jac (snd s) J).
Definition vectorBodyJacobian (mb : MultiBody) (m : MBC) (vec : V3) (J : Jac) : res Jac :=
  N <- back (jc_path J) ;;
  XN <- get (bodyPosW m) N ;;
  s <- for_up (length (jc_path J)) (vec_step mb m rotE (ptmul (jc_point J) XN) vec J) (0%nat, jc_jac J) ;;
  Ok (with_jac (snd s) J).

(** Jacobian.cpp 310-348, jacobianDot, and 350-382, bodyJacobianDot: [col X_i_Np V S] is the
    column written for the subspace column S, the transform X_i_Np and the velocity
    X_VNp_i_Np; state (curJ, jacDot). *)
Definition dot_step (mb : MultiBody) (m : MBC) (col : PT -> SV -> SV -> SV) (X_0_Np : PT) (X_VNp : SV) (J : Jac)
    (index : nat) (s : nat * list SV) : res (nat * list SV) :=
  i <- get (jc_path J) index ;;
  Xi <- get (bodyPosW m) i ;;
  let X_i_Np := ptmul X_0_Np (ptinv Xi) in
  Vi <- get (bodyVelB m) i ;;
  let V := svsub (ptm X_i_Np Vi) X_VNp in
  j <- get (mb_joints mb) i ;;
  for_up (jdof j)
    (fun d s => ms <- get (motionSubspace m) i ;; c <- get ms d ;;
                jac <- set (snd s) (fst s) (col X_i_Np V c) ;; Ok (S (fst s), jac)) s.
Definition jacobianDot (mb : MultiBody) (m : MBC) (J : Jac) : res Jac :=
  N <- back (jc_path J) ;;
  XN <- get (bodyPosW m) N ;;
  VN <- get (bodyVelB m) N ;;
  VWN <- get (bodyVelW m) N ;;
  let E_N_0 := ptrot (mtr (rotE XN)) in
  let E_VN := mkSV (sang VWN) v0 in
  s <- for_up (length (jc_path J))
         (dot_step mb m
            (fun X_i_Np V c => svadd (scross E_VN (ptm (ptmul E_N_0 X_i_Np) c))
                                     (ptm E_N_0 (scross V (ptm X_i_Np c))))
            (ptmul (jc_point J) XN) (ptm (jc_point J) VN) J)
         (0%nat, jc_dot J) ;;
  Ok (with_dot (snd s) J).
Definition bodyJacobianDot (mb : MultiBody) (m : MBC) (J : Jac) : res Jac :=
  N <- back (jc_path J) ;;
  XN <- get (bodyPosW m) N ;;
  VN <- get (bodyVelB m) N ;;
  s <- for_up (length (jc_path J))
         (dot_step mb m (fun X_i_Np V c => scross V (ptm X_i_Np c))
            (ptmul (jc_point J) XN) (ptm (jc_point J) VN) J)
         (0%nat, jc_dot J) ;;
  Ok (with_dot (snd s) J).

(** Jacobian.cpp 384-390, velocity(mb, mbc, X_b_p); 392-398, velocity(mb, mbc); 400-404,
    bodyVelocity. *)
Definition velocity_at (m : MBC) (X_b_p : PT) (J : Jac) : res SV :=
  N <- back (jc_path J) ;; V <- get (bodyVelB m) N ;; Ok (ptm X_b_p V).
Definition velocity (m : MBC) (J : Jac) : res SV :=
  N <- back (jc_path J) ;; X <- get (bodyPosW m) N ;; V <- get (bodyVelB m) N ;;
  Ok (ptm (mkPT (mtr (rotE X)) (trR (jc_point J))) V).
Definition bodyVelocity (m : MBC) (J : Jac) : res SV :=
  N <- back (jc_path J) ;; V <- get (bodyVelB m) N ;; Ok (ptm (jc_point J) V).

(** Jacobian.cpp 406-419, normalAccB_. *)
Definition normalAccB_ (m : MBC) (path : list nat) : res SV :=
  for_each path
    (fun i accel =>
       X <- get (parentToSon m) i ;; vj <- get (jointVelocity m) i ;; vb <- get (bodyVelB m) i ;;
       Ok (svadd (ptm X accel) (scross vb vj))) sv0.

(** Jacobian.cpp 857-864, 866-873, 875-879: from the normal acceleration of body N. *)
Definition normalAcceleration_N_at (m : MBC) (A : SV) (X_b_p : PT) (V_b_p : SV) (J : Jac) : res SV :=
  N <- back (jc_path J) ;; V <- get (bodyVelB m) N ;;
  Ok (svadd (ptm X_b_p A) (scross V_b_p (ptm X_b_p V))).
Definition normalAcceleration_N (m : MBC) (A : SV) (J : Jac) : res SV :=
  N <- back (jc_path J) ;; X <- get (bodyPosW m) N ;; VW <- get (bodyVelW m) N ;; V <- get (bodyVelB m) N ;;
  let X_Np_w := mkPT (mtr (rotE X)) (trR (jc_point J)) in
  Ok (svadd (ptm X_Np_w A) (scross (mkSV (sang VW) v0) (ptm X_Np_w V))).
Definition bodyNormalAcceleration_N (A : SV) (J : Jac) : SV := ptm (jc_point J) A.

(** Jacobian.cpp 421-437: the versions computing the normal acceleration of the path. *)
Definition normalAcceleration_at (m : MBC) (X_b_p : PT) (V_b_p : SV) (J : Jac) : res SV :=
  A <- normalAccB_ m (jc_path J) ;; normalAcceleration_N_at m A X_b_p V_b_p J.
Definition normalAcceleration (m : MBC) (J : Jac) : res SV :=
  A <- normalAccB_ m (jc_path J) ;; normalAcceleration_N m A J.
Definition bodyNormalAcceleration (m : MBC) (J : Jac) : res SV :=
  A <- normalAccB_ m (jc_path J) ;; Ok (bodyNormalAcceleration_N A J).
(** Jacobian.cpp 439-460: the versions reading a precomputed vector. *)
Definition normalAcceleration_pre_at (m : MBC) (accB : list SV) (X_b_p : PT) (V_b_p : SV) (J : Jac) : res SV :=
  N <- back (jc_path J) ;; A <- get accB N ;; normalAcceleration_N_at m A X_b_p V_b_p J.
Definition normalAcceleration_pre (m : MBC) (accB : list SV) (J : Jac) : res SV :=
  N <- back (jc_path J) ;; A <- get accB N ;; normalAcceleration_N m A J.
Definition bodyNormalAcceleration_pre (accB : list SV) (J : Jac) : res SV :=
  N <- back (jc_path J) ;; A <- get accB N ;; Ok (bodyNormalAcceleration_N A J).

(** Jacobian.cpp 462-478, translateJacobian, and 480-492, translateBodyJacobian. jac and
    res have six rows (the code builds MotionVecd from their columns). *)
Definition translate_cols (t : PT) (jac res_ : list SV) : res (list SV) :=
  for_up (length jac) (fun i r => c <- get jac i ;; set r i (ptm t c)) res_.
Definition translateJacobian (m : MBC) (jac : list SV) (point : V3) (res_ : list SV) (J : Jac) : res (list SV) :=
  N <- back (jc_path J) ;;
  X <- get (bodyPosW m) N ;;
  let E := ptrot (mtr (rotE X)) in
  translate_cols (ptmul (ptmul E (pttr point)) (ptinv E)) jac res_.
Definition translateBodyJacobian (jac : list SV) (point : V3) (res_ : list SV) : res (list SV) :=
  translate_cols (pttr point) jac res_.

(** [M.block(r, c, nr, nc) += B] *)
Definition add_block (M : Mat) (r c nr nc : nat) (B : nat -> nat -> R) : res Mat :=
  if (r + nr <=? mrows M)%nat && (c + nc <=? mcols M)%nat
  then Ok (mkMat (mrows M) (mcols M)
                 (fun i j => if in_block r nr c nc i j then ment M i j + B (i - r)%nat (j - c)%nat else ment M i j))
  else UB.

(** Jacobian.cpp 502-514, addFullJacobian(mb, jac, res); state (jacPos, res). *)
Definition addFullJacobian (mb : MultiBody) (J : Jac) (jac res_ : Mat) : res Mat :=
  s <- for_each (jc_path J)
         (fun i s =>
            j <- get (mb_joints mb) i ;;
            p <- get (mb_posDof mb) i ;;
            B <- get_block jac 0 (fst s) (mrows jac) (jdof j) ;;
            M <- add_block (snd s) 0 p (mrows jac) (jdof j) B ;;
            Ok ((fst s + jdof j)%nat, M)) (0%nat, res_) ;;
  Ok (snd s).
(** Jacobian.cpp 494-500, fullJacobian. *)
Definition fullJacobian (mb : MultiBody) (J : Jac) (jac res_ : Mat) : res Mat :=
  M <- set_block res_ 0 0 (mrows jac) (mb_nrDof mb) (fun _ _ => 0) ;;
  addFullJacobian mb J jac M.
(** Jacobian.cpp 516-524, addFullJacobian(compactPath, jac, res). *)
Definition addFullJacobian_compact (blocks : list Block) (jac res_ : Mat) : res Mat :=
  for_each blocks
    (fun b M => B <- get_block jac 0 (bl_jac b) (mrows jac) (bl_len b) ;;
                add_block M 0 (bl_dof b) (mrows jac) (bl_len b) B) res_.

(** Jacobian.cpp 533-551, expandAdd(mb, jac, res): a NDEBUG assertion on the size of res is
    part of the contract (UB otherwise); state (rowJac, res) and (colJac, res). *)
Definition expandAdd (mb : MultiBody) (J : Jac) (jac res_ : Mat) : res Mat :=
  s <- for_each (jc_path J)
         (fun i s =>
            ji <- get (mb_joints mb) i ;; pi <- get (mb_posDof mb) i ;;
            t <- for_each (jc_path J)
                   (fun j t =>
                      jj <- get (mb_joints mb) j ;; pj <- get (mb_posDof mb) j ;;
                      B <- get_block jac (fst s) (fst t) (jdof ji) (jdof jj) ;;
                      M <- add_block (snd t) pi pj (jdof ji) (jdof jj) B ;;
                      Ok ((fst t + jdof jj)%nat, M)) (0%nat, snd s) ;;
            Ok ((fst s + jdof ji)%nat, snd t)) (0%nat, res_) ;;
  Ok (snd s).
(** Jacobian.cpp 526-531, expand. *)
Definition expand (mb : MultiBody) (J : Jac) (jac : Mat) : res Mat :=
  expandAdd mb J jac (mat_zero (mb_nrDof mb) (mb_nrDof mb)).
(** Jacobian.cpp 580-592, expandAdd(compactPath, jacMat, res). *)
Definition expandAdd_compact (blocks : list Block) (jac res_ : Mat) : res Mat :=
  for_each blocks
    (fun b1 M => for_each blocks
       (fun b2 M => B <- get_block jac (bl_jac b1) (bl_jac b2) (bl_len b1) (bl_len b2) ;;
                    add_block M (bl_dof b1) (bl_dof b2) (bl_len b1) (bl_len b2) B) M) res_.

(** Jacobian.cpp 553-578, compactPath: state (res, start_block, startJac, len_block). *)
Definition compactPath (mb : MultiBody) (J : Jac) : res (list Block) :=
  k <- get (jc_path J) 0 ;;
  p <- get (mb_posDof mb) k ;;
  j <- get (mb_joints mb) k ;;
  s <- for_each (tl (jc_path J))
         (fun i s =>
            let '(blocks, sb, sj, lb) := s in
            start <- get (mb_posDof mb) i ;;
            j <- get (mb_joints mb) i ;;
            if negb (start =? sb + lb)%nat
            then Ok (blocks ++ [mkBlock sb sj lb], start, (sj + lb)%nat, jdof j)
            else Ok (blocks, sb, sj, (lb + jdof j)%nat)) ([], p, 0%nat, jdof j) ;;
  let '(blocks, sb, sj, lb) := s in
  Ok (blocks ++ [mkBlock sb sj lb]).

(** Jacobian.cpp 600-604 and its copies: *max_element(jointsPath_) against the number of
    joints; the maximum of an empty path dereferences end(). *)
Definition checkPath (mb : MultiBody) (J : Jac) : res unit :=
  match jc_path J with
  | [] => UB
  | _ => if (list_max (jc_path J) <? nrJoints mb)%nat then Ok tt else Throw DomainError
  end.
(** Jacobian.cpp 594-715, 717-758: the safe versions. *)
Definition jac_checks mb m J :=
  checkMatchBodyPos mb m ;;; checkMatchMotionSubspace mb m ;;; checkPath mb J.
Definition sJacobian_at mb m X J := jac_checks mb m J ;;; jacobian_at mb m X J.
Definition sJacobian mb m J := jac_checks mb m J ;;; jacobian mb m J.
Definition sBodyJacobian mb m J := jac_checks mb m J ;;; bodyJacobian mb m J.
Definition sVectorJacobian mb m v J := jac_checks mb m J ;;; vectorJacobian mb m v J.
Definition sVectorBodyJacobian mb m v J := jac_checks mb m J ;;; vectorBodyJacobian mb m v J.
Definition sSubMultiBody mb J := checkPath mb J ;;; subMultiBody mb J.
Definition jacdot_checks mb m J :=
  checkMatchBodyPos mb m ;;; checkMatchBodyVel mb m ;;; checkMatchMotionSubspace mb m ;;; checkPath mb J.
Definition sJacobianDot mb m J := jacdot_checks mb m J ;;; jacobianDot mb m J.
Definition sBodyJacobianDot mb m J := jacdot_checks mb m J ;;; bodyJacobianDot mb m J.
(** Jacobian.cpp 689-715, sTranslateJacobian; jac and res have six rows. *)
Definition sTranslateJacobian (m : MBC) (jac : list SV) (point : V3) (res_ : list SV) (J : Jac) : res (list SV) :=
  N <- back (jc_path J) ;;
  if negb (N <? length (bodyPosW m))%nat then Throw DomainError
  else if negb (length jac =? jac_dof J)%nat then Throw DomainError
  else if negb (length res_ =? jac_dof J)%nat then Throw DomainError
  else translateJacobian m jac point res_ J.
(** Jacobian.cpp 717-746, sFullJacobian. *)
Definition sFullJacobian (mb : MultiBody) (J : Jac) (jac res_ : Mat) : res Mat :=
  checkPath mb J ;;;
  if negb ((mcols jac =? jac_dof J)%nat && (mrows jac =? 6)%nat) then Throw DomainError
  else if negb ((mcols res_ =? mb_nrDof mb)%nat && (mrows res_ =? 6)%nat) then Throw DomainError
  else fullJacobian mb J jac res_.
(** Jacobian.cpp 748-855: sVelocity, sBodyVelocity, sNormalAcceleration,
    sBodyNormalAcceleration and their versions. *)
Definition sVelocity_at mb m X J := checkMatchBodyPos mb m ;;; checkMatchBodyVel mb m ;;; velocity_at m X J.
Definition sVelocity mb m J := checkMatchBodyPos mb m ;;; checkMatchBodyVel mb m ;;; velocity m J.
Definition sBodyVelocity mb m J := checkMatchBodyVel mb m ;;; bodyVelocity m J.
Definition nacc_checks mb m :=
  checkMatchBodyPos mb m ;;; checkMatchBodyVel mb m ;;; checkMatchJointConf mb m ;;; checkMatchParentToSon mb m.
Definition sNormalAcceleration_at mb m X V J := nacc_checks mb m ;;; normalAcceleration_at m X V J.
Definition sNormalAcceleration mb m J := nacc_checks mb m ;;; normalAcceleration m J.
Definition sNormalAcceleration_pre_at mb m accB X V J :=
  checkMatchBodyPos mb m ;;; checkMatchBodyVel mb m ;;; checkMatchBodiesVector mb accB ;;;
  normalAcceleration_pre_at m accB X V J.
Definition sNormalAcceleration_pre mb m accB J :=
  checkMatchBodyPos mb m ;;; checkMatchBodyVel mb m ;;; checkMatchBodiesVector mb accB ;;;
  normalAcceleration_pre m accB J.
Definition sBodyNormalAcceleration mb m J :=
  checkMatchJointConf mb m ;;; checkMatchParentToSon mb m ;;; bodyNormalAcceleration m J.
Definition sBodyNormalAcceleration_pre mb (m : MBC) accB J :=
  checkMatchBodiesVector mb accB ;;; bodyNormalAcceleration_pre accB J.
