(** Model of src/RBDyn/MultiBodyGraph.cpp and src/RBDyn/RBDyn/MultiBodyGraph.h.

    Bodies and joints of a graph live behind std::shared_ptr: they are modelled as cells of a
    heap and a pointer is the number of the cell. Cells are never freed in the model
    (lifetime of the memory is not modelled); null pointers do not occur except where said. *)
From Coq Require Import Reals String ZArith Bool Arith List.
From Verif Require Import Res SMap Vec Sva JointM MultiBodyM.
Import ListNotations.
Open Scope R_scope.

(** MultiBodyGraph.h 41-53, Arc; [aNext] is the shared_ptr to the successor. *)
Record Arc := mkArc { aX : PT; aJoint : Joint; aNext : nat }.
(** MultiBodyGraph.h 59-65, Node. *)
Record Node := mkNode { nBody : Body; nArcs : list Arc }.
(** The memory shared by all the graphs of a program. *)
Record Heap := mkHeap { hNodes : list Node; hJoints : list Joint }.
(** MultiBodyGraph.h 288-293, the data members. *)
Record Graph := mkGraph {
  gRoot : string;
  gNodes : list nat;
  gJoints : list nat;
  gBody : smap nat;
  gJoint : smap nat
}.
Definition GSt : Type := Heap * Graph.

(** Outcome of an operation that may modify the graph: an exception leaves a state behind. *)
Inductive gout (A : Type) := GRet (a : A) (s : GSt) | GExc (e : exn) (s : GSt) | GUB | GDiv.
Arguments GRet {A} _ _. Arguments GExc {A} _ _. Arguments GUB {A}. Arguments GDiv {A}.
Definition GM (A : Type) := GSt -> gout A.
Definition gret {A} (a : A) : GM A := fun s => GRet a s.
Definition gbind {A B} (x : GM A) (f : A -> GM B) : GM B := fun s =>
  match x s with GRet a s => f a s | GExc e s => GExc e s | GUB => GUB | GDiv => GDiv end.
(** Code that does not modify the graph. *)
Definition glift {A} (f : GSt -> res A) : GM A := fun s =>
  match f s with Ok a => GRet a s | Throw e => GExc e s | UB => GUB | Diverge => GDiv end.
(** Code that modifies it and throws nothing. *)
Definition gmod (f : GSt -> res GSt) : GM unit := fun s =>
  match f s with Ok s' => GRet tt s' | Throw e => GExc e s | UB => GUB | Diverge => GDiv end.
(** [for (auto x : l)] *)
Fixpoint gfor {A} (l : list A) (f : A -> GM unit) : GM unit :=
  match l with [] => gret tt | a :: l => gbind (f a) (fun _ => gfor l f) end.

Definition ajn (e : Arc) : string := jname (aJoint e).

(** Writing through a pointer to a node. *)
Definition set_node (h : Heap) (a : nat) (nd : Node) : res Heap :=
  ns <- set (hNodes h) a nd ;; Ok (mkHeap ns (hJoints h)).
Definition with_arcs (nd : Node) (l : list Arc) : Node := mkNode (nBody nd) l.
(** [vector.erase(std::find(begin, end, p))]: undefined behaviour when p is not there. *)
Fixpoint erase_find (l : list nat) (p : nat) : res (list nat) :=
  match l with
  | [] => UB
  | x :: l => if (x =? p)%nat then Ok l else l' <- erase_find l p ;; Ok (x :: l')
  end.

(** MultiBodyGraph.cpp 21-24, the constructor. *)
Definition Graph_ctor (rootName : string) : Graph := mkGraph rootName [] [] [] [].
(** MultiBodyGraph.cpp 47-59, clear. *)
Definition clear_step (a : nat) (h : Heap) : res Heap :=
  nd <- get (hNodes h) a ;; set_node h a (with_arcs nd []).
Definition clear : GM unit := gmod (fun s =>
  h <- for_each (gNodes (snd s)) clear_step (fst s) ;; Ok (h, mkGraph (gRoot (snd s)) [] [] [] [])).

(** MultiBodyGraph.cpp 61-73, addBody. *)
Definition addBody (B : Body) : GM unit := fun s =>
  let (h, g) := s in
  match mfind (gBody g) (bname B) with
  | Some _ => GExc DomainError s
  | None => let a := length (hNodes h) in
      GRet tt (mkHeap (hNodes h ++ [mkNode B []]) (hJoints h),
               mkGraph (gRoot g) (gNodes g ++ [a]) (gJoints g) (mset (gBody g) (bname B) a) (gJoint g))
  end.
(** MultiBodyGraph.cpp 75-87, addJoint. *)
Definition addJoint (J : Joint) : GM unit := fun s =>
  let (h, g) := s in
  match mfind (gJoint g) (jname J) with
  | Some _ => GExc DomainError s
  | None => let p := length (hJoints h) in
      GRet tt (mkHeap (hNodes h) (hJoints h ++ [J]),
               mkGraph (gRoot g) (gNodes g) (gJoints g ++ [p]) (gBody g) (mset (gJoint g) (jname J) p))
  end.
(** [node->arcs.push_back(e)] *)
Definition push_arc (a : nat) (e : Arc) (h : Heap) : res Heap :=
  nd <- get (hNodes h) a ;; set_node h a (with_arcs nd (nArcs nd ++ [e])).
(** MultiBodyGraph.cpp 89-105, linkBodies; Arc::Arc sets the direction of its copy of the joint
    (MultiBodyGraph.h 45-48). *)
Definition linkBodies (b1 : string) (t1 : PT) (b2 : string) (t2 : PT) (jn : string) (b1to2 : bool) : GM unit :=
  gbind (glift (fun s => mat_ (gBody (snd s)) b1)) (fun n1 =>
  gbind (glift (fun s => mat_ (gBody (snd s)) b2)) (fun n2 =>
  gbind (glift (fun s => p <- mat_ (gJoint (snd s)) jn ;; get (hJoints (fst s)) p)) (fun j =>
  let fj1 := if b1to2 then jfwd j else negb (jfwd j) in
  let fj2 := negb fj1 in
  gbind (gmod (fun s => h <- push_arc n1 (mkArc t1 (set_forward j fj1) n2) (fst s) ;; Ok (h, snd s))) (fun _ =>
         gmod (fun s => h <- push_arc n2 (mkArc t2 (set_forward j fj2) n1) (fst s) ;; Ok (h, snd s)))))).
(** MultiBodyGraph.cpp 107-115, nodeByName and jointByName (the pointed object is returned). *)
Definition nodeByName (n : string) (s : GSt) : res Node := a <- mat_ (gBody (snd s)) n ;; get (hNodes (fst s)) a.
Definition jointByName (n : string) (s : GSt) : res Joint := p <- mat_ (gJoint (snd s)) n ;; get (hJoints (fst s)) p.

(** [a.next == fromNode]; fromNode is null at the root. *)
Definition is_from (from : option nat) (e : Arc) : bool :=
  match from with Some b => (aNext e =? b)%nat | None => false end.
(** MultiBodyGraph.cpp 164-173 and 251-259: the transformation that goes to fromNode. *)
Definition x_from (arcs : list Arc) (from : option nat) (Xbase : PT) : PT :=
  match find (is_from from) arcs with Some e => aX e | None => Xbase end.

(** The vectors filled by makeMultiBody. *)
Record Acc := mkAcc {
  ac_bodies : list Body; ac_joints : list Joint; ac_pred : list Z; ac_succ : list Z; ac_parent : list Z; ac_Xt : list PT }.
Definition acc0 : Acc := mkAcc [] [] [] [] [] [].
Definition ac_push (b : Body) (j : Joint) (p s par : Z) (X : PT) (a : Acc) : Acc :=
  mkAcc (ac_bodies a ++ [b]) (ac_joints a ++ [j]) (ac_pred a ++ [p]) (ac_succ a ++ [s]) (ac_parent a ++ [par]) (ac_Xt a ++ [X]).
(** MultiBodyGraph.cpp 161-197, the lambda makeTree. The recursion depth is counted by fuel:
    running out of fuel at every fuel is a recursion that does not end. *)
Fixpoint makeTree (fuel : nat) (h : Heap) (a : nat) (from : option nat) (joint : Joint) (p s par : Z) (Xti Xbase : PT) (acc : Acc)
    : res Acc :=
  match fuel with
  | O => Diverge
  | S f =>
    nd <- get (hNodes h) a ;;
    let XFrom := x_from (nArcs nd) from Xbase in
    let acc := ac_push (mkBody (ptdualI XFrom (binertia (nBody nd))) (bname (nBody nd))) joint p s par Xti acc in
    let curInd := (Z.of_nat (length (ac_bodies acc)) - 1)%Z in
    for_each (nArcs nd) (fun e acc =>
      if is_from from e then Ok acc
      else let nextInd := Z.of_nat (length (ac_bodies acc)) in
           makeTree f h (aNext e) (Some a) (aJoint e) curInd nextInd curInd (ptmul (aX e) (ptinv XFrom)) ptid acc) acc
  end.
(** MultiBodyGraph.cpp 143-203, makeMultiBody with the root joint type and axis. *)
Definition makeMultiBody (fuel : nat) (root : string) (t : jtype) (axis : V3) (X_0_j0 X_b0_j0 : PT) (s : GSt) : res MultiBody :=
  let (h, g) := s in
  a <- mat_ (gBody g) root ;;
  acc <- makeTree fuel h a None (mkJ t axis true (gRoot g)) (-1)%Z 0%Z (-1)%Z X_0_j0 X_b0_j0 acc0 ;;
  MultiBody_ctor (ac_bodies acc) (ac_joints acc) (ac_pred acc) (ac_succ acc) (ac_parent acc) (ac_Xt acc).
(** MultiBodyGraph.cpp 127-141, the overloads. *)
Definition makeMultiBody_type fuel root t X0 Xb s := makeMultiBody fuel root t unitZ X0 Xb s.
Definition makeMultiBody_fixed fuel root (isFixed : bool) X0 Xb s :=
  makeMultiBody_type fuel root (if isFixed then Fixed else Free) X0 Xb s.

(** MultiBodyGraph.cpp 238-274, bodiesBaseTransform. *)
Fixpoint computeTransform (fuel : nat) (h : Heap) (a : nat) (from : option nat) (Xbase : PT) (m : smap PT) : res (smap PT) :=
  match fuel with
  | O => Diverge
  | S f =>
    nd <- get (hNodes h) a ;;
    let XFrom := x_from (nArcs nd) from Xbase in
    for_each (nArcs nd) (fun e m => if is_from from e then Ok m else computeTransform f h (aNext e) (Some a) ptid m)
      (mset m (bname (nBody nd)) (ptinv XFrom))
  end.
Definition bodiesBaseTransform (fuel : nat) (root : string) (X_b0_j0 : PT) (s : GSt) : res (smap PT) :=
  a <- mat_ (gBody (snd s)) root ;; computeTransform fuel (fst s) a None X_b0_j0 [].
(** MultiBodyGraph.cpp 276-298, successorJoints. [m[k].push_back(x)]: operator[] creates an
    empty list for a new key. *)
Definition mpush (m : smap (list string)) (k x : string) : smap (list string) :=
  mset m k (match mfind m k with Some l => l ++ [x] | None => [x] end).
Fixpoint computeSuccessors (fuel : nat) (h : Heap) (a : nat) (from : option nat) (m : smap (list string)) : res (smap (list string)) :=
  match fuel with
  | O => Diverge
  | S f =>
    nd <- get (hNodes h) a ;;
    for_each (nArcs nd) (fun e m =>
      if is_from from e then Ok m else computeSuccessors f h (aNext e) (Some a) (mpush m (bname (nBody nd)) (ajn e)))
      (mset m (bname (nBody nd)) [])
  end.
Definition successorJoints (fuel : nat) (root : string) (s : GSt) : res (smap (list string)) :=
  a <- mat_ (gBody (snd s)) root ;; computeSuccessors fuel (fst s) a None [].
(** MultiBodyGraph.cpp 300-325, predecessorJoint. *)
Fixpoint computePredecessor (fuel : nat) (h : Heap) (a : nat) (from : option nat) (pj : string) (m : smap string) : res (smap string) :=
  match fuel with
  | O => Diverge
  | S f =>
    nd <- get (hNodes h) a ;;
    for_each (nArcs nd) (fun e m =>
      if is_from from e then Ok m else computePredecessor f h (aNext e) (Some a) (ajn e) m)
      (mset m (bname (nBody nd)) pj)
  end.
Definition predecessorJoint (fuel : nat) (root : string) (s : GSt) : res (smap string) :=
  a <- mat_ (gBody (snd s)) root ;; computePredecessor fuel (fst s) a None (gRoot (snd s)) [].

(** The number of arcs of a node, to see whether the vector being traversed was emptied. *)
Definition arcs_len (s : GSt) (a : nat) : nat :=
  match nth_error (hNodes (fst s)) a with Some nd => length (nArcs nd) | None => 0%nat end.
(** A loop over node->arcs whose iterators are used after [f] ran: if the vector was emptied
    meanwhile this is undefined behaviour. *)
Definition still (a n : nat) : GM unit := fun s => if (arcs_len s a =? n)%nat then GRet tt s else GUB.

(** MultiBodyGraph.cpp 399-408, rmArcFromMbg; [rec] is rmNodeFromMbg. *)
Definition rmArcFromMbg (rec : string -> nat -> GM unit) (e : Arc) : GM unit :=
  gbind (gmod (fun s =>
    let (h, g) := s in
    p <- mat_ (gJoint g) (ajn e) ;;
    js <- erase_find (gJoints g) p ;;
    Ok (h, mkGraph (gRoot g) (gNodes g) js (gBody g) (mdel (gJoint g) (ajn e)))))
  (fun _ => rec (ajn e) (aNext e)).
(** MultiBodyGraph.cpp 421-424: the end of rmNodeFromMbg. *)
Definition drop_node (a : nat) : GM unit := gmod (fun s =>
  let (h, g) := s in
  nd <- get (hNodes h) a ;;
  h <- set_node h a (with_arcs nd []) ;;
  ns <- erase_find (gNodes g) a ;;
  Ok (h, mkGraph (gRoot g) ns (gJoints g) (mdel (gBody g) (bname (nBody nd))) (gJoint g))).
(** MultiBodyGraph.cpp 410-425, rmNodeFromMbg. *)
Fixpoint rmNodeFromMbg (fuel : nat) (jfrom : string) (a : nat) : GM unit :=
  match fuel with
  | O => fun _ => GDiv
  | S f =>
    gbind (glift (fun s => get (hNodes (fst s)) a)) (fun nd =>
    gbind (gfor (nArcs nd) (fun e =>
             if String.eqb (ajn e) jfrom then gret tt
             else gbind (rmArcFromMbg (rmNodeFromMbg f) e) (fun _ => still a (length (nArcs nd)))))
    (fun _ => drop_node a))
  end.
(** [node.arcs.erase(it)] *)
Fixpoint remove_nth {A} (k : nat) (l : list A) : list A :=
  match l, k with [], _ => [] | _ :: l, O => l | x :: l, S k => x :: remove_nth k l end.
Definition erase_arc (a k : nat) : GM unit := gmod (fun s =>
  let (h, g) := s in
  nd <- get (hNodes h) a ;; h <- set_node h a (with_arcs nd (remove_nth k (nArcs nd))) ;; Ok (h, g)).
(** The exploration shared by rmArc (373-397) and findMergeSubNodes (427-460): the loop over
    node.arcs from the k-th arc; [hit] is what is done on the arc of the joint, [rec] the
    recursive call. *)
Fixpoint explore (hit : nat -> Arc -> GM unit) (rec : nat -> string -> GM bool) (pj jn : string) (k : nat) (l : list Arc) : GM bool :=
  match l with
  | [] => gret false
  | e :: l =>
      if String.eqb (ajn e) pj then explore hit rec pj jn (S k) l
      else if String.eqb (ajn e) jn then gbind (hit k e) (fun _ => gret true)
      else gbind (rec (aNext e) (ajn e)) (fun b => if b : bool then gret true else explore hit rec pj jn (S k) l)
  end.
(** MultiBodyGraph.cpp 373-397, rmArc. *)
Fixpoint rmArc (F fuel : nat) (a : nat) (pj jn : string) : GM bool :=
  match fuel with
  | O => fun _ => GDiv
  | S f =>
    gbind (glift (fun s => get (hNodes (fst s)) a)) (fun nd =>
      explore (fun k e => gbind (rmArcFromMbg (rmNodeFromMbg F) e) (fun _ =>
                          gbind (still a (length (nArcs nd))) (fun _ => erase_arc a k)))
              (fun a pj => rmArc F f a pj jn) pj jn 0 (nArcs nd))
  end.
(** MultiBodyGraph.cpp 205-214, removeJoint. *)
Definition removeJoint (fuel : nat) (root jn : string) : GM unit :=
  gbind (glift (fun s => mat_ (gBody (snd s)) root)) (fun a =>
  gbind (fun s => GRet (mfind (gJoint (snd s)) jn) s) (fun o =>
  match o with
  | Some _ => fun s => gbind (rmArc fuel fuel a (gRoot (snd s)) jn) (fun _ => gret tt) s
  | None => gret tt
  end)).
(** MultiBodyGraph.cpp 216-228, removeJoints. *)
Definition removeJoints (fuel : nat) (root : string) (js : list string) : GM unit :=
  gbind (glift (fun s => mat_ (gBody (snd s)) root)) (fun _ =>
  gfor js (fun jn => gbind (fun s => GRet (mfind (gJoint (snd s)) jn) s) (fun o =>
    match o with Some _ => removeJoint fuel root jn | None => gret tt end))).

(** MultiBodyGraph.cpp 491-517, mergeInertia. *)
Definition mergeInertia (parentI childI : RBI) (j : Joint) (X_p_j : PT) (pos : smap (list R)) : res RBI :=
  match mfind pos (jname j) with
  | None => Throw OutOfRange
  | Some q =>
      if (length q =? jparams j)%nat then
        X <- pose j q ;;
        Ok (rbiadd parentI (pttransI (ptmul X X_p_j) childI))
      else Throw DomainError
  end.
(** MultiBodyGraph.cpp 462-489, mergeSubNodes. *)
Fixpoint mergeSubNodes (fuel : nat) (h : Heap) (a : nat) (pj : string) (pos : smap (list R)) : res RBI :=
  match fuel with
  | O => Diverge
  | S f =>
    nd <- get (hNodes h) a ;;
    I <- for_each (nArcs nd) (fun e I =>
           if String.eqb (ajn e) pj then Ok I
           else c <- mergeSubNodes f h (aNext e) (ajn e) pos ;; mergeInertia I c (aJoint e) (aX e) pos)
         (binertia (nBody nd)) ;;
    let X_cb_jp := match find (fun e => String.eqb (ajn e) pj) (nArcs nd) with Some e => aX e | None => ptid end in
    Ok (ptdualI X_cb_jp I)
  end.
(** MultiBodyGraph.cpp 439-450: what findMergeSubNodes does on the arc of the joint. *)
Definition merge_hit (F a n : nat) (jn : string) (pos : smap (list R)) (k : nat) (e : Arc) : GM unit :=
  gbind (glift (fun s => c <- mergeSubNodes F (fst s) (aNext e) jn pos ;;
                         nd <- get (hNodes (fst s)) a ;;
                         mergeInertia (binertia (nBody nd)) c (aJoint e) (aX e) pos)) (fun I =>
  gbind (gmod (fun s => nd <- get (hNodes (fst s)) a ;;
                        h <- set_node (fst s) a (mkNode (mkBody I (bname (nBody nd))) (nArcs nd)) ;; Ok (h, snd s))) (fun _ =>
  gbind (rmArcFromMbg (rmNodeFromMbg F) e) (fun _ =>
  gbind (still a n) (fun _ => erase_arc a k)))).
(** MultiBodyGraph.cpp 427-460, findMergeSubNodes. *)
Fixpoint findMergeSubNodes (F fuel : nat) (a : nat) (pj jn : string) (pos : smap (list R)) : GM bool :=
  match fuel with
  | O => fun _ => GDiv
  | S f =>
    gbind (glift (fun s => get (hNodes (fst s)) a)) (fun nd =>
      explore (merge_hit F a (length (nArcs nd)) jn pos) (fun a pj => findMergeSubNodes F f a pj jn pos) pj jn 0 (nArcs nd))
  end.
(** MultiBodyGraph.cpp 230-236, mergeSubBodies. *)
Definition mergeSubBodies (fuel : nat) (root jn : string) (pos : smap (list R)) : GM unit :=
  gbind (glift (fun s => mat_ (gBody (snd s)) root)) (fun a =>
  fun s => gbind (findMergeSubNodes fuel fuel a (gRoot (snd s)) jn pos) (fun _ => gret tt) s).

(** MultiBodyGraph.cpp 519-552, copy, into an empty graph. operator[] on a name that is not in
    the map would insert a null pointer (544): the model stops with UB there. *)
Definition copy_node (a : nat) (s : GSt) : res GSt :=
  let (h, g) := s in
  nd <- get (hNodes h) a ;;
  let b := length (hNodes h) in
  Ok (mkHeap (hNodes h ++ [mkNode (nBody nd) []]) (hJoints h),
      mkGraph (gRoot g) (gNodes g ++ [b]) (gJoints g) (mset (gBody g) (bname (nBody nd)) b) (gJoint g)).
Definition copy_joint (p : nat) (s : GSt) : res GSt :=
  let (h, g) := s in
  j <- get (hJoints h) p ;;
  let r := length (hJoints h) in
  Ok (mkHeap (hNodes h) (hJoints h ++ [j]),
      mkGraph (gRoot g) (gNodes g) (gJoints g ++ [r]) (gBody g) (mset (gJoint g) (jname j) r)).
Definition copy_arc (g : Graph) (b : nat) (e : Arc) (h : Heap) : res Heap :=
  nx <- get (hNodes h) (aNext e) ;;
  n <- mfind_deref (gBody g) (bname (nBody nx)) ;;
  push_arc b (mkArc (aX e) (aJoint e) n) h.
Definition copy_arcs (src g : Graph) (i : nat) (h : Heap) : res Heap :=
  a <- get (gNodes src) i ;;
  b <- get (gNodes g) i ;;
  nd <- get (hNodes h) a ;;
  for_each (nArcs nd) (copy_arc g b) h.
Definition copy (src : Graph) (s : GSt) : res GSt :=
  let g := snd s in
  s <- for_each (gNodes src) copy_node (fst s, mkGraph (gRoot src) (gNodes g) (gJoints g) (gBody g) (gJoint g)) ;;
  s <- for_each (gJoints src) copy_joint s ;;
  h <- for_up (length (gNodes (snd s))) (copy_arcs src (snd s)) (fst s) ;;
  Ok (h, snd s).
(** MultiBodyGraph.cpp 26-29, the copy constructor. *)
Definition Graph_copy (src : Graph) (h : Heap) : res GSt := copy src (h, mkGraph EmptyString [] [] [] []).
(** MultiBodyGraph.cpp 36-45, operator= from another object (self assignment does nothing). *)
Definition Graph_assign (src : Graph) : GM unit := gbind clear (fun _ => gmod (copy src)).

(** MultiBodyGraph.cpp 327-371, fixJoints. *)
Definition fixed_of (j : Joint) : Joint := mkJ Fixed v0 (jfwd j) (jname j).
(** 334-340: each shared_ptr of joints_ is redirected to a new joint. *)
Definition fix_ptr (i : nat) (s : GSt) : res GSt :=
  let (h, g) := s in
  p <- get (gJoints g) i ;;
  j <- get (hJoints h) p ;;
  js <- set (gJoints g) i (length (hJoints h)) ;;
  Ok (mkHeap (hNodes h) (hJoints h ++ [fixed_of j]), mkGraph (gRoot g) (gNodes g) js (gBody g) (gJoint g)).
(** 342-348: a local copy of the shared_ptr is redirected; only the exception of at() remains. *)
Definition fix_name (n : string) (s : GSt) : res GSt := _ <- mat_ (gJoint (snd s)) n ;; Ok s.
(** 350-369. *)
Definition fix_arc (names : list string) (all : bool) (e : Arc) : Arc :=
  if existsb (fun n => String.eqb n (ajn e) || all) names then mkArc (aX e) (fixed_of (aJoint e)) (aNext e) else e.
Definition fix_node (names : list string) (all : bool) (a : nat) (h : Heap) : res Heap :=
  nd <- get (hNodes h) a ;; set_node h a (with_arcs nd (map (fix_arc names all) (nArcs nd))).
Definition fixJoints (src : Graph) (names : list string) (all : bool) (h : Heap) : res GSt :=
  s <- Graph_copy src h ;;
  s <- (if all then for_up (length (gJoints (snd s))) fix_ptr s else for_each names fix_name s) ;;
  h <- for_each (gNodes (snd s)) (fix_node names all) (fst s) ;;
  Ok (h, snd s).
