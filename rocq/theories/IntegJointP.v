(** jointIntegration and integration. *)
From Coq Require Import Reals ZArith Bool List Lia Lra.
From Verif Require Import Res ResP Vec Sva JointM MultiBodyM IntegM Spec SpecDeriv SpecInteg JointP IntegP.
Import ListNotations.
Open Scope R_scope.

Ltac nths := repeat match goal with l : list R, L : length ?l = _ |- _ => destruct l as [|? l]; cbn [length] in L; try discriminate L; try (injection L as L) end.
Lemma len1 (l : list R) : length l = 1%nat -> exists a, l = [a]. Proof. destruct l as [|a [|]]; try discriminate. eauto. Qed.
Lemma len2 (l : list R) : length l = 2%nat -> exists a b, l = [a; b]. Proof. destruct l as [|a [|b [|]]]; try discriminate. eauto. Qed.
Lemma len3 (l : list R) : length l = 3%nat -> exists a b c, l = [a; b; c]. Proof. destruct l as [|a [|b [|c [|]]]]; try discriminate. eauto. Qed.
Lemma len4 (l : list R) : length l = 4%nat -> exists a b c d, l = [a; b; c; d]. Proof. destruct l as [|a [|b [|c [|d [|]]]]]; try discriminate. eauto 6. Qed.
Lemma len6 (l : list R) : length l = 6%nat -> exists a b c d e f, l = [a; b; c; d; e; f]. Proof. destruct l as [|a [|b [|c [|d [|e [|f [|]]]]]]]; try discriminate. eauto 8. Qed.
Lemma len7 (l : list R) : length l = 7%nat -> exists a b c d e f g, l = [a; b; c; d; e; f; g]. Proof. destruct l as [|a [|b [|c [|d [|e [|f [|g [|]]]]]]]]; try discriminate. eauto 9. Qed.

(** *** Reading and writing the vectors. *)
Lemma ji_rev f t q0 a0 d0 h prec : t = Rev \/ t = Prism -> jointIntegration f t [a0] [d0] h [q0] prec = Ok [q0 + (a0 * h + d0 * (h * h) / 2)].
Proof. intros [-> | ->]; reflexivity. Qed.
Lemma ji_cyl f q0 q1 a0 a1 d0 d1 h prec : jointIntegration f Cylindrical [a0; a1] [d0; d1] h [q0; q1] prec = Ok [q0 + (a0 * h + d0 * (h * h) / 2); q1 + (a1 * h + d1 * (h * h) / 2)].
Proof. reflexivity. Qed.
Lemma ji_planar f q0 q1 q2 a0 a1 a2 d0 d1 d2 h prec : jointIntegration f Planar [a0; a1; a2] [d0; d1; d2] h [q0; q1; q2] prec =
  (H <- planarJointIntegration q0 (q1, q2) a0 (a1, a2) d0 (d1, d2) h prec ;; Ok [fst H; fst (snd H); snd (snd H)]).
Proof. reflexivity. Qed.
Definition quat_list (a : Quat) : list R := [qw a; qx a; qy a; qz a].
Lemma ji_spherical f q0 q1 q2 q3 a0 a1 a2 d0 d1 d2 h prec : jointIntegration f Spherical [a0; a1; a2] [d0; d1; d2] h [q0; q1; q2; q3] prec =
  (qf <- sphericalJointIntegration f (mkQ q0 q1 q2 q3) (mkV3 a0 a1 a2) (mkV3 d0 d1 d2) h prec ;; Ok (quat_list (qnormalize qf))).
Proof. reflexivity. Qed.
Lemma ji_free f q0 q1 q2 q3 q4 q5 q6 a0 a1 a2 a3 a4 a5 d0 d1 d2 d3 d4 d5 h prec : jointIntegration f Free [a0; a1; a2; a3; a4; a5] [d0; d1; d2; d3; d4; d5] h [q0; q1; q2; q3; q4; q5; q6] prec =
  (H <- freeJointIntegration f (mkQ q0 q1 q2 q3) (mkV3 q4 q5 q6) (mkV3 a0 a1 a2) (mkV3 a3 a4 a5) (mkV3 d0 d1 d2) (mkV3 d3 d4 d5) h prec ;;
   if Req_EM_T (qnorm (fst H)) 0 then UB else
   Ok [qw (fst H) / qnorm (fst H); qx (fst H) / qnorm (fst H); qy (fst H) / qnorm (fst H); qz (fst H) / qnorm (fst H); vx (snd H); vy (snd H); vz (snd H)]).
Proof.
  unfold jointIntegration. cbn [get nth_error bind]. destruct (freeJointIntegration _ _ _ _ _ _ _ _ _) as [H| | |]; cbn [bind]; auto; try reflexivity.
Qed.
(** Cases on the joint type, with the vectors spelled out. *)
Lemma norm1 (a : Quat) : qnorm2 a = 1 -> qnorm a = 1. Proof. intro H. unfold qnorm. rewrite H. apply sqrt_1. Qed.
Lemma normalize1 a : qnorm2 a = 1 -> qnormalize a = a.
Proof. intro H. unfold qnormalize. rewrite H, (norm1 _ H). destruct (Rlt_dec 0 1); [|auto]. destruct a; cbn. f_equal; field. Qed.
Lemma quat_unit_4 a b c d l : quat_unit (a :: b :: c :: d :: l) <-> qnorm2 (mkQ a b c d) = 1.
Proof. reflexivity. Qed.

Definition sizes (t : jtype) (q a d : list R) : Prop := length q = tparams t /\ length a = tdof t /\ length d = tdof t.
Ltac spell :=
  repeat match goal with
  | L : length ?l = 1%nat |- _ => destruct (len1 l L) as (? & ->); clear L
  | L : length ?l = 2%nat |- _ => destruct (len2 l L) as (? & ? & ->); clear L
  | L : length ?l = 3%nat |- _ => destruct (len3 l L) as (? & ? & ? & ->); clear L
  | L : length ?l = 4%nat |- _ => destruct (len4 l L) as (? & ? & ? & ? & ->); clear L
  | L : length ?l = 6%nat |- _ => destruct (len6 l L) as (? & ? & ? & ? & ? & ? & ->); clear L
  | L : length ?l = 7%nat |- _ => destruct (len7 l L) as (? & ? & ? & ? & ? & ? & ? & ->); clear L
  end.
Definition unit_q (t : jtype) (q : list R) : Prop := match t with Spherical | Free => quat_unit q | _ => True end.

Lemma Rdiv_1 x : x / 1 = x. Proof. field. Qed.
(** *** Sizes and unit quaternions. *)
Lemma ji_size f t a d h q prec q' : sizes t q a d -> jointIntegration f t a d h q prec = Ok q' -> length q' = length q.
Proof.
  intros (Lq & La & Ld) H. destruct t; cbn [tparams tdof] in *; spell.
  - rewrite ji_rev in H by auto. injection H as <-. reflexivity.
  - rewrite ji_rev in H by auto. injection H as <-. reflexivity.
  - rewrite ji_spherical in H. destruct (sphericalJointIntegration _ _ _ _ _ _); cbn [bind] in H; try discriminate. injection H as <-. reflexivity.
  - rewrite ji_planar in H. destruct (planarJointIntegration _ _ _ _ _ _ _ _); cbn [bind] in H; try discriminate. injection H as <-. reflexivity.
  - rewrite ji_cyl in H. injection H as <-. reflexivity.
  - rewrite ji_free in H. destruct (freeJointIntegration _ _ _ _ _ _ _ _ _); cbn [bind] in H; try discriminate. destruct (Req_EM_T _ 0); [discriminate|]. injection H as <-. reflexivity.
  - cbn in H. now injection H as <-.
Qed.
Lemma ji_unit f t a d h q prec q' : sizes t q a d -> unit_q t q -> jointIntegration f t a d h q prec = Ok q' -> unit_q t q'.
Proof.
  intros (Lq & La & Ld) U H. destruct t; cbn [tparams tdof unit_q] in *; auto; spell.
  - rewrite ji_spherical in H. destruct (sphericalJointIntegration _ _ _ _ _ _) as [qf| | |] eqn:E; cbn [bind] in H; try discriminate. injection H as <-. apply quat_unit_4 in U.
    pose proof (spherical_unit _ _ _ _ _ _ _ U E) as U'. rewrite (normalize1 _ U'). exact U'.
  - rewrite ji_free in H. destruct (freeJointIntegration _ _ _ _ _ _ _ _ _) as [H'| | |] eqn:E; cbn [bind] in H; try discriminate. apply quat_unit_4 in U.
    pose proof (free_unit _ _ _ _ _ _ _ _ _ _ U E) as U'. rewrite (norm1 _ U') in H. destruct (Req_EM_T 1 0); [discriminate|]. injection H as <-. apply quat_unit_4.
    rewrite !Rdiv_1. destruct H' as [[? ? ? ?] ?]. exact U'.
Qed.
(** *** It returns. *)
Lemma planar_total q0 x a0 v d0 vD h prec : 0 < prec -> 0 <= h -> exists H, planarJointIntegration q0 x a0 v d0 vD h prec = Ok H.
Proof. intros P Hh. unfold planarJointIntegration. cbv zeta. match goal with |- context [substeps ?s ?e ?p] => destruct (substeps_ok s e p P Hh (sqrt_pos _)) as (n & -> & _) end. cbn [bind]. eauto. Qed.
Lemma ji_total t a d h q prec : sizes t q a d -> unit_q t q -> 0 < prec -> (t = Planar \/ t = Free -> 0 <= h) -> exists N, forall f, (N <= f)%nat -> exists q', jointIntegration f t a d h q prec = Ok q'.
Proof.
  intros (Lq & La & Ld) U P Hh. destruct t; cbn [tparams tdof unit_q] in *; spell.
  - exists 0%nat. intros f _. rewrite ji_rev by auto. eauto.
  - exists 0%nat. intros f _. rewrite ji_rev by auto. eauto.
  - match goal with |- exists N, forall f, _ -> exists q', jointIntegration f Spherical [?a0; ?a1; ?a2] [?d0; ?d1; ?d2] _ _ _ = _ => destruct (spherical_total (mkV3 a0 a1 a2) (mkV3 d0 d1 d2) h prec P) as (N & T) end.
    exists N. intros f F. rewrite ji_spherical. match goal with |- context [sphericalJointIntegration f ?qi _ _ _ _] => destruct (T f qi F) as (q' & ->) end. cbn [bind]. eauto.
  - exists 0%nat. intros f _. rewrite ji_planar. match goal with |- context [planarJointIntegration ?q0 ?x ?a0 ?v ?d0 ?vD _ _] => destruct (planar_total q0 x a0 v d0 vD h prec P) as (H & ->); auto end. cbn [bind]. eauto.
  - exists 0%nat. intros f _. rewrite ji_cyl. eauto.
  - match goal with |- exists N, forall f, _ -> exists q', jointIntegration f Free [?a0; ?a1; ?a2; ?a3; ?a4; ?a5] [?d0; ?d1; ?d2; ?d3; ?d4; ?d5] _ _ _ = _ => destruct (free_total (mkV3 a0 a1 a2) (mkV3 a3 a4 a5) (mkV3 d0 d1 d2) (mkV3 d3 d4 d5) h prec P) as (N & T); auto end.
    exists N. intros f F. rewrite ji_free. match goal with |- context [freeJointIntegration f ?qi ?xi _ _ _ _ _ _] => destruct (T f qi xi F) as (H & E) end. rewrite E. cbn [bind].
    apply quat_unit_4 in U. rewrite (norm1 _ (free_unit _ _ _ _ _ _ _ _ _ _ U E)). destruct (Req_EM_T 1 0) as [Z|]; [lra|]. eauto.
  - exists 0%nat. intros f _. cbn. eauto.
Qed.
(** *** Joints whose parameters are integrated separately. *)
Lemma ji_drift f t a d h q prec q' : sizes t q a d -> ~ curved t -> jointIntegration f t a d h q prec = Ok q' -> drift h q a d q'.
Proof.
  intros (Lq & La & Ld) NC H. unfold curved in NC. destruct t; cbn [tparams tdof] in *; try (exfalso; now auto); spell.
  - rewrite ji_rev in H by auto. injection H as <-. split; [reflexivity|]. intros [|k] L; cbn [length] in L; [|lia]. cbn. field.
  - rewrite ji_rev in H by auto. injection H as <-. split; [reflexivity|]. intros [|k] L; cbn [length] in L; [|lia]. cbn. field.
  - rewrite ji_cyl in H. injection H as <-. split; [reflexivity|]. intros [|[|k]] L; cbn [length] in L; [| |lia]; cbn; field.
  - cbn in H. injection H as <-. split; [reflexivity|]. intros k L. lia.
Qed.
(** *** Step 0. *)
Lemma magnus_0 w wD prec : 0 < prec -> fst (magnusExpansion w wD 0 prec prec) = v0 /\ snd (magnusExpansion w wD 0 prec prec) = false.
Proof.
  intro P. assert (S : snd (magnusExpansion w wD 0 prec prec) = false). { apply (magnus_quiet w wD 0 prec (vnorm2 w)); auto; try lra.
    - replace (vadd w (vscale 0 wD)) with w; [lra|]. destruct w, wD; unfold vadd, vscale; cbn. f_equal; ring.
    - pose proof (Rmult_lt_0_compat _ _ P P). lra. }
  split; auto. unfold magnusExpansion in *. cbv zeta in *. destruct (Rlt_dec _ prec); [|destruct (_ && _); [|destruct (Rlt_dec _ (Rmin _ _)); [|discriminate S]]]; cbn [fst]; unfold v0, vadd, vscale, vcross; cbn; f_equal; field.
Qed.
Lemma magnus_0' w wD r a : fst (magnusExpansion w wD 0 r a) = v0.
Proof.
  unfold magnusExpansion. cbv zeta. destruct (Rlt_dec _ a); [|destruct (_ && _); [|destruct (Rlt_dec _ (Rmin _ _))]]; cbn [fst]; unfold v0, vadd, vscale, vcross, vsub; cbn; f_equal; field.
Qed.
Lemma qexp_0 O : O = v0 -> qexp (vscale (1 / 2) O) = mkQ 1 0 0 0.
Proof. intros ->. unfold qexp. replace (vscale (1 / 2) v0) with v0 by (unfold vscale, v0; cbn; f_equal; field). unfold vnorm2, vdot. cbn. replace (0 * 0 + 0 * 0 + 0 * 0) with 0 by ring. rewrite sqrt_0, cos_0. f_equal; ring. Qed.
Lemma qmul_1 a : qmul a (mkQ 1 0 0 0) = a. Proof. destruct a; unfold qmul; cbn. f_equal; ring. Qed.
Lemma SO3_0 qi w wD r a b : snd (magnusExpansion w wD 0 r a) = false -> SO3Integration qi w wD 0 r a b = (qi, false).
Proof. intro S. rewrite SO3_eq, S, andb_false_r. rewrite qexp_0, qmul_1 by apply magnus_0'. reflexivity. Qed.
Lemma SO3_0' qi w wD r a : fst (SO3Integration qi w wD 0 r a false) = qi.
Proof. rewrite SO3_eq. cbn [andb fst]. rewrite qexp_0, qmul_1 by apply magnus_0'. reflexivity. Qed.
Lemma substeps_0 err prec : 0 < prec -> substeps 0 err prec = Ok 1%Z.
Proof.
  intro P. unfold substeps. destruct (Req_EM_T prec 0); [lra|]. replace (err * 0 / (180 * prec)) with 0 by (field; lra). destruct (Rlt_dec 0 0); [lra|].
  replace (0 / 2 * sqrt (sqrt 0)) with 0 by (field). rewrite ceil_0. reflexivity.
Qed.
Lemma spherical_0 f qi w wD prec : 0 < prec -> sphericalJointIntegration (S f) qi w wD 0 prec = Ok qi.
Proof. intro P. cbn [sphericalJointIntegration]. rewrite SO3_0 by (apply magnus_0; auto). reflexivity. Qed.
Lemma vec_eq a b : vx a = vx b -> vy a = vy b -> vz a = vz b -> a = b. Proof. destruct a, b; cbn. congruence. Qed.
Lemma free_0 f qi xi w v wD vD prec : 0 < prec -> freeJointIntegration (S f) qi xi w v wD vD 0 prec = Ok (qi, xi).
Proof.
  intro P. cbn [freeJointIntegration]. rewrite SO3_0 by (apply magnus_0; auto). cbn [fst snd]. unfold freeJointIntegration_. cbv zeta. rewrite substeps_0 by auto. cbn [bind Z.sub Z.add Z.opp Z.pos_sub Z.to_nat Nat.iter nat_rect].
  replace (0 / IZR 1) with 0 by field. f_equal. f_equal. apply vec_eq; unfold vadd, vscale; cbn; field.
Qed.
Lemma planar_0 q0 x a0 v d0 vD prec : 0 < prec -> planarJointIntegration q0 x a0 v d0 vD 0 prec = Ok (q0, x).
Proof.
  intro P. unfold planarJointIntegration. cbv zeta. rewrite substeps_0 by auto. cbn [bind Z.sub Z.add Z.opp Z.pos_sub Z.to_nat Nat.iter nat_rect psq psx psv psw].
  replace (0 / IZR 1) with 0 by field. replace (q0 + (a0 * 0 + d0 * (0 * (0 / 2)))) with q0 by field. f_equal. f_equal.
  destruct x as (x1 & x2). unfold rot2t, v2scale, v2add, rot2; cbn [fst snd]. pose proof (sin2_cos2 q0) as E. unfold Rsqr in E. f_equal.
  - transitivity ((sin q0 * sin q0 + cos q0 * cos q0) * x1); [field|rewrite E; ring].
  - transitivity ((sin q0 * sin q0 + cos q0 * cos q0) * x2); [field|rewrite E; ring].
Qed.
Lemma ji_0 f t a d q prec : sizes t q a d -> unit_q t q -> 0 < prec -> jointIntegration (S f) t a d 0 q prec = Ok q.
Proof.
  intros (Lq & La & Ld) U P. destruct t; cbn [tparams tdof unit_q] in *; spell.
  - rewrite ji_rev by auto. do 2 f_equal. field.
  - rewrite ji_rev by auto. do 2 f_equal. field.
  - rewrite ji_spherical, spherical_0 by auto. apply quat_unit_4 in U. cbn [bind]. now rewrite (normalize1 _ U).
  - rewrite ji_planar, planar_0 by auto. reflexivity.
  - rewrite ji_cyl. do 2 f_equal; [field|f_equal; field].
  - rewrite ji_free, free_0 by auto. apply quat_unit_4 in U. cbn [bind fst snd]. rewrite (norm1 _ U). destruct (Req_EM_T 1 0) as [Z|]; [lra|]. cbn. do 2 f_equal; [field|]. f_equal; [field|]. f_equal; [field|]. f_equal. field.
  - reflexivity.
Qed.
