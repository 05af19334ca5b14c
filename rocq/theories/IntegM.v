(** Model of src/RBDyn/NumericalIntegration.cpp. *)
From Coq Require Import Reals ZArith Bool List.
From Verif Require Import Res Vec Sva JointM MultiBodyM.
Import ListNotations.
Open Scope R_scope.

(** ** Eigen and SpaceVecAlg (not in /repo). *)
Definition vnorm2 (a : V3) : R := vdot a a.
(** sva::sinc. The library uses a Taylor polynomial next to 0; here it is the exact function. *)
Definition sinc (x : R) : R := if Req_EM_T x 0 then 1 else sin x / x.
(** Quaternion * Vector3 (_transformVector). *)
Definition qrot (a : Quat) (v : V3) : V3 :=
  let u := mkV3 (qx a) (qy a) (qz a) in
  let uv := vcross u v in
  let uv := vadd uv uv in
  vadd (vadd v (vscale (qw a) uv)) (vcross u uv).
Definition qnorm (a : Quat) : R := sqrt (qnorm2 a).
(** Quaternion::normalize(): divides by the norm when the squared norm is positive. *)
Definition qnormalize (a : Quat) : Quat :=
  if Rlt_dec 0 (qnorm2 a) then mkQ (qw a / qnorm a) (qx a / qnorm a) (qy a / qnorm a) (qz a / qnorm a) else a.
(** std::ceil, as an integer of unbounded size. *)
Definition ceil (x : R) : Z := (1 - up (- x))%Z.

(** NumericalIntegration.cpp 26-67, magnusExpansion. *)
Definition magnusExpansion (w wD : V3) (step relEps absEps : R) : V3 * bool :=
  let step2 := step * step in
  let sqnd := vnorm2 wD in
  let w1 := vadd w (vscale step wD) in
  let O1 := vscale (step / 2) (vadd w w1) in
  if Rlt_dec sqnd absEps then (O1, false)
  else
  let O2 := vscale (step2 / 12) (vcross w w1) in
  let sqn1 := vnorm2 O1 in
  let sqn2 := vnorm2 O2 in
  let sqndt4 := sqnd * step2 * step2 in
  let sqn3 := sqndt4 * sqn2 / 400 in
  let sqn4 := sqn1 * sqn1 * sqn2 / 3600 in
  let rel2 := if Rlt_dec 0 sqn1 then relEps * relEps * sqn1 else 1 in
  let eps2 := Rmin rel2 (absEps * absEps) in
  if (if Rlt_dec sqn3 eps2 then true else false) && (if Rlt_dec sqn4 eps2 then true else false)
  then (vadd O1 O2, false)
  else
  let O3 := vscale (step2 / 20) (vcross wD O2) in
  let O4 := vscale ((28 * sqn1 - 3 * sqndt4) / 1680) O2 in
  let sqn5 := (sqndt4 * sqn1 + 8 * sqrt (sqndt4 * sqn1 * sqn2) + 16 * sqn2) * sqn1 * sqn2 / (840 * 840) in
  if Rlt_dec sqn5 eps2
  then (vadd (vadd (vadd O1 O2) O3) O4, false)
  else
  let O5 := vscale (1 / 5040) (vsub (vscale (120 * sqn1 - 5 * sqndt4) O3) (vscale (24 * sqn2) O1)) in
  (vadd (vadd (vadd (vadd O1 O2) O3) O4) O5, true).

(** NumericalIntegration.cpp 251-273, SO3Integration. *)
Definition SO3Integration (qi : Quat) (wi wD : V3) (step relEps absEps : R) (breakOnWarning : bool) : Quat * bool :=
  let mag := magnusExpansion wi wD step relEps absEps in
  if breakOnWarning && snd mag then (qi, true)
  else
  let O := vscale (1 / 2) (fst mag) in
  let n := sqrt (vnorm2 O) in
  let s := sinc n in
  let qexp := mkQ (cos n) (s * vx O) (s * vy O) (s * vz O) in
  (qmul qi qexp, snd mag).
(** The default arguments of SO3Integration (NumericalIntegration.h 36-38). *)
Definition relEps0 : R := / 10 ^ 12.
Definition absEps0 : R := / 2 ^ 52.

(** NumericalIntegration.cpp 76-92, fourthDerivativeSquaredNormFree. *)
Definition fourthFree (v w dv dw : V3) : R :=
  let nw2 := vnorm2 w in
  let nw4 := nw2 * nw2 in
  let ndw2 := vnorm2 dw in
  let wv := vdot w v in
  let wdw := vdot w dw in
  let dwv := vdot dw v in
  let wdv := vdot w dv in
  let dwdv := vdot dw dv in
  let u := vsub (vsub (vadd (vadd (vsub (vscale (nw4 - 3 * ndw2) v) (vscale (12 * wdw) dv)) (vscale (4 * dwdv - nw2 * wv) w))
                            (vscale (3 * dwv + 8 * wdv) dw))
                      (vcross w (vadd (vscale (5 * wdw) v) (vscale (4 * nw2) dv))))
                (vcross dw (vadd (vscale (2 * wv) w) (vscale nw2 v))) in
  vnorm2 u.

(** Vector2d. *)
Definition V2 : Type := (R * R)%type.
Definition v2add (a b : V2) : V2 := (fst a + fst b, snd a + snd b).
Definition v2sub (a b : V2) : V2 := (fst a - fst b, snd a - snd b).
Definition v2scale (k : R) (a : V2) : V2 := (k * fst a, k * snd a).
(** NumericalIntegration.cpp 101-109, fourthDerivativeSquaredNormPlanar. *)
Definition fourthPlanar (v : V2) (w : R) (dv : V2) (dw : R) : R :=
  let w2 := w * w in
  let Mv := (- snd v, fst v) in
  let Mdv := (- snd dv, fst dv) in
  let u := v2sub (v2sub (v2sub (v2scale (w2 * w2 - 3 * dw * dw) v) (v2scale (6 * dw * w2) Mv)) (v2scale (12 * dw * w) dv)) (v2scale (4 * w * w2) Mdv) in
  fst u * fst u + snd u * snd u.

(** NumericalIntegration.cpp 123-125 and 211-213: the number of sub-steps. The square root of a
    negative number, or a division by zero, is not a number or infinite, and its conversion to
    int is undefined behaviour. The size of int is not modelled. *)
Definition substeps (step errMax prec : R) : res Z :=
  if Req_EM_T prec 0 then UB
  else
  let y := errMax * step / (180 * prec) in
  if Rlt_dec y 0 then UB
  else
  let n := ceil (step / 2 * sqrt (sqrt y)) in
  Ok (if Z.eqb n 0 then 1%Z else n).

(** NumericalIntegration.cpp 131-141: the body of the loop of freeJointIntegration_. *)
Record FreeSt := mkFS { fsq : Quat; fsx : V3; fsv : V3; fsw : V3 }.
Definition free_step (wD vD : V3) (nthStep : R) (s : FreeSt) : FreeSt :=
  let halfNthStep := nthStep / 2 in
  let vh := vadd (fsv s) (vscale halfNthStep vD) in
  let ve := vadd (fsv s) (vscale nthStep vD) in
  let qh := fst (SO3Integration (fsq s) (fsw s) wD halfNthStep relEps0 absEps0 false) in
  let qe := fst (SO3Integration (fsq s) (fsw s) wD nthStep relEps0 absEps0 false) in
  mkFS qe (vadd (fsx s) (vscale nthStep (vadd (vscale 4 (qrot qh vh)) (vscale 2 (qrot qe ve))))) ve (vadd (fsw s) (vscale nthStep wD)).
(** NumericalIntegration.cpp 111-151, freeJointIntegration_. *)
Definition freeJointIntegration_ (qi : Quat) (xi : V3) (qf : Quat) (wi vi wD vD : V3) (step prec : R) : res (Quat * V3) :=
  let erri := fourthFree vi wi vD wD in
  let errf := fourthFree (vadd vi (vscale step vD)) (vadd wi (vscale step wD)) vD wD in
  let errMax := sqrt (Rmax erri errf) in
  n <- substeps step errMax prec ;;
  let nthStep := step / IZR n in
  let halfNthStep := nthStep / 2 in
  let s := Nat.iter (Z.to_nat (n - 1)) (free_step wD vD nthStep) (mkFS qi (vadd (vscale 6 xi) (vscale nthStep (qrot qi vi))) vi wi) in
  let vh := vadd (fsv s) (vscale halfNthStep vD) in
  let vf := vadd (fsv s) (vscale nthStep vD) in
  let qh := fst (SO3Integration (fsq s) (fsw s) wD halfNthStep relEps0 absEps0 false) in
  Ok (qf, vscale (1 / 6) (vadd (fsx s) (vscale nthStep (vadd (vscale 4 (qrot qh vh)) (qrot qf vf))))).
(** NumericalIntegration.cpp 153-173, freeJointIntegration: recursion with a fuel. *)
Fixpoint freeJointIntegration (fuel : nat) (qi : Quat) (xi wi vi wD vD : V3) (step prec : R) : res (Quat * V3) :=
  match fuel with
  | O => Diverge
  | S f =>
    let qf := SO3Integration qi wi wD step prec prec false in
    if snd qf then
      let halfStep := step / 2 in
      H <- freeJointIntegration f qi xi wi vi wD vD halfStep prec ;;
      freeJointIntegration f (fst H) (snd H) (vadd wi (vscale halfStep wD)) (vadd vi (vscale halfStep vD)) wD vD halfStep prec
    else freeJointIntegration_ qi xi (fst qf) wi vi wD vD step prec
  end.
(** NumericalIntegration.cpp 175-192, sphericalJointIntegration. *)
Fixpoint sphericalJointIntegration (fuel : nat) (qi : Quat) (wi wD : V3) (step prec : R) : res Quat :=
  match fuel with
  | O => Diverge
  | S f =>
    let qf := SO3Integration qi wi wD step prec prec true in
    if snd qf then
      let halfStep := step / 2 in
      q' <- sphericalJointIntegration f qi wi wD halfStep prec ;;
      sphericalJointIntegration f q' (vadd wi (vscale halfStep wD)) wD halfStep prec
    else Ok (fst qf)
  end.

(** NumericalIntegration.cpp 194-199: R(q) * v and R(q).transpose() * v. *)
Definition rot2 (a : R) (v : V2) : V2 := (cos a * fst v - sin a * snd v, sin a * fst v + cos a * snd v).
Definition rot2t (a : R) (v : V2) : V2 := (cos a * fst v + sin a * snd v, - sin a * fst v + cos a * snd v).
(** NumericalIntegration.cpp 221-231: the body of the loop of planarJointIntegration. *)
Record PlanSt := mkPS { psq : R; psx : V2; psv : V2; psw : R }.
Definition planar_step (wD : R) (vD : V2) (nthStep : R) (s : PlanSt) : PlanSt :=
  let halfNthStep := nthStep / 2 in
  let nthStep2 := nthStep * halfNthStep in
  let halfNthStep2 := halfNthStep * halfNthStep / 2 in
  let vh := v2add (psv s) (v2scale halfNthStep vD) in
  let ve := v2add (psv s) (v2scale nthStep vD) in
  let qh := psq s + psw s * halfNthStep + wD * halfNthStep2 in
  let qe := psq s + psw s * nthStep + wD * nthStep2 in
  mkPS qe (v2add (psx s) (v2scale nthStep (v2add (v2scale 4 (rot2 qh vh)) (v2scale 2 (rot2 qe ve))))) ve (psw s + nthStep * wD).
(** NumericalIntegration.cpp 201-244, planarJointIntegration. *)
Definition planarJointIntegration (qi : R) (xi : V2) (wi : R) (vi : V2) (wD : R) (vD : V2) (step prec : R) : res (R * V2) :=
  let erri := fourthPlanar vi wi vD wD in
  let errf := fourthPlanar (v2add vi (v2scale step vD)) (wi + step * wD) vD wD in
  let errMax := sqrt (Rmax erri errf) in
  n <- substeps step errMax prec ;;
  let nthStep := step / IZR n in
  let halfNthStep := nthStep / 2 in
  let nthStep2 := nthStep * halfNthStep in
  let halfNthStep2 := halfNthStep * halfNthStep / 2 in
  let s := Nat.iter (Z.to_nat (n - 1)) (planar_step wD vD nthStep) (mkPS qi (rot2 qi (v2add (v2scale 6 xi) (v2scale nthStep vi))) vi wi) in
  let vh := v2add (psv s) (v2scale halfNthStep vD) in
  let vf := v2add (psv s) (v2scale nthStep vD) in
  let qh := psq s + psw s * halfNthStep + wD * halfNthStep2 in
  let qf := psq s + (psw s * nthStep + wD * nthStep2) in
  let x := v2add (psx s) (v2scale nthStep (v2add (v2scale 4 (rot2 qh vh)) (rot2 qf vf))) in
  Ok (qf, rot2t qf (v2scale (1 / 6) x)).

(** NumericalIntegration.cpp 275-356, jointIntegration; returns the new q. *)
Definition jointIntegration (fuel : nat) (t : jtype) (alpha alphaD : list R) (step : R) (q : list R) (prec : R) : res (list R) :=
  match t with
  | Rev | Prism =>
      let step2 := step * step in
      q0 <- get q 0 ;; a0 <- get alpha 0 ;; d0 <- get alphaD 0 ;;
      set q 0 (q0 + (a0 * step + d0 * step2 / 2))
  | Planar =>
      x1 <- get q 1 ;; x2 <- get q 2 ;;
      a1 <- get alpha 1 ;; a2 <- get alpha 2 ;; d1 <- get alphaD 1 ;; d2 <- get alphaD 2 ;;
      q0 <- get q 0 ;; a0 <- get alpha 0 ;; d0 <- get alphaD 0 ;;
      H <- planarJointIntegration q0 (x1, x2) a0 (a1, a2) d0 (d1, d2) step prec ;;
      q <- set q 0 (fst H) ;; q <- set q 1 (fst (snd H)) ;; set q 2 (snd (snd H))
  | Cylindrical =>
      let step2 := step * step in
      q0 <- get q 0 ;; a0 <- get alpha 0 ;; d0 <- get alphaD 0 ;;
      q <- set q 0 (q0 + (a0 * step + d0 * step2 / 2)) ;;
      q1 <- get q 1 ;; a1 <- get alpha 1 ;; d1 <- get alphaD 1 ;;
      set q 1 (q1 + (a1 * step + d1 * step2 / 2))
  | Free =>
      q0 <- get q 0 ;; q1 <- get q 1 ;; q2 <- get q 2 ;; q3 <- get q 3 ;;
      x0 <- get q 4 ;; x1 <- get q 5 ;; x2 <- get q 6 ;;
      a0 <- get alpha 0 ;; a1 <- get alpha 1 ;; a2 <- get alpha 2 ;;
      d0 <- get alphaD 0 ;; d1 <- get alphaD 1 ;; d2 <- get alphaD 2 ;;
      a3 <- get alpha 3 ;; a4 <- get alpha 4 ;; a5 <- get alpha 5 ;;
      d3 <- get alphaD 3 ;; d4 <- get alphaD 4 ;; d5 <- get alphaD 5 ;;
      H <- freeJointIntegration fuel (mkQ q0 q1 q2 q3) (mkV3 x0 x1 x2) (mkV3 a0 a1 a2) (mkV3 a3 a4 a5) (mkV3 d0 d1 d2) (mkV3 d3 d4 d5) step prec ;;
      let nq := qnorm (fst H) in
      (* a division by zero would give NaNs *)
      if Req_EM_T nq 0 then UB else
      q <- set q 0 (qw (fst H) / nq) ;; q <- set q 1 (qx (fst H) / nq) ;;
      q <- set q 2 (qy (fst H) / nq) ;; q <- set q 3 (qz (fst H) / nq) ;;
      q <- set q 4 (vx (snd H)) ;; q <- set q 5 (vy (snd H)) ;; set q 6 (vz (snd H))
  | Spherical =>
      q0 <- get q 0 ;; q1 <- get q 1 ;; q2 <- get q 2 ;; q3 <- get q 3 ;;
      a0 <- get alpha 0 ;; a1 <- get alpha 1 ;; a2 <- get alpha 2 ;;
      d0 <- get alphaD 0 ;; d1 <- get alphaD 1 ;; d2 <- get alphaD 2 ;;
      qf <- sphericalJointIntegration fuel (mkQ q0 q1 q2 q3) (mkV3 a0 a1 a2) (mkV3 d0 d1 d2) step prec ;;
      let qf := qnormalize qf in
      q <- set q 0 (qw qf) ;; q <- set q 1 (qx qf) ;; q <- set q 2 (qy qf) ;; set q 3 (qz qf)
  | Fixed => Ok q
  end.

(** NumericalIntegration.cpp 366-369: [mbc.alpha[i][j] += mbc.alphaD[i][j] * step]. *)
Definition alpha_add (step : R) (aD : list R) (j : nat) (a : list R) : res (list R) :=
  x <- get a j ;; d <- get aD j ;; set a j (x + d * step).
(** NumericalIntegration.cpp 363-370: one joint. *)
Definition integ_joint (fuel : nat) (mb : MultiBody) (step prec : R) (i : nat) (m : MBC) : res MBC :=
  jt <- get (mb_joints mb) i ;;
  a <- get (alpha m) i ;; aD <- get (alphaD m) i ;; qi <- get (q m) i ;;
  q' <- jointIntegration fuel (jtyp jt) a aD step qi prec ;;
  qs <- set (q m) i q' ;;
  a' <- for_up (jdof jt) (alpha_add step aD) a ;;
  als <- set (alpha m) i a' ;;
  Ok (with_alpha als (with_q qs m)).
(** NumericalIntegration.cpp 358-371, integration. *)
Definition integration (fuel : nat) (mb : MultiBody) (m : MBC) (step prec : R) : res MBC :=
  for_up (length (mb_joints mb)) (integ_joint fuel mb step prec) m.
(** NumericalIntegration.cpp 373-380, sIntegration. *)
Definition sIntegration (fuel : nat) (mb : MultiBody) (m : MBC) (step prec : R) : res MBC :=
  checkMatchQ mb m ;;; checkMatchAlpha mb m ;;; checkMatchAlphaD mb m ;;;
  integration fuel mb m step prec.
