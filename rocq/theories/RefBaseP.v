(** A robot read with another base link does not come back from the document it is written to. *)
From Coq Require Import Reals String ZArith Bool Arith List Lia Lra Permutation.
From Verif Require Import Res SMap Vec VecP Sva SvaP JointM MultiBodyM KinM GraphM ParserM YamlM Spec SpecGraph SpecParser SpecGeom SpecDoc SpecElem MbP GraphLegalP KinP KinFinP ConfFinP ParserBodyP GeomP GeomYamlP ParserRotP DocP DocReadP DocRefP ElemP.
Import ListNotations.
Open Scope nat_scope.

Lemma v3_eq a b c a' b' c' : a = a' -> b = b' -> c = c' -> mkV3 a b c = mkV3 a' b' c'.
Proof. congruence. Qed.
Lemma sym_eq3 a b c d e f a' b' c' d' e' f' : a = a' -> b = b' -> c = c' -> d = d' -> e = e' -> f = f' -> mkSym a b c d e f = mkSym a' b' c' d' e' f'.
Proof. congruence. Qed.
Lemma rbi_eq a b c a' b' c' : a = a' -> b = b' -> c = c' -> mkRBI a b c = mkRBI a' b' c'.
Proof. congruence. Qed.
Lemma m3_eq a b c d e f g h i a' b' c' d' e' f' g' h' i' : a = a' -> b = b' -> c = c' -> d = d' -> e = e' -> f = f' -> g = g' -> h = h' -> i = i' ->
  mkM3 a b c d e f g h i = mkM3 a' b' c' d' e' f' g' h' i'.
Proof. congruence. Qed.
Lemma mmul_0r A : mmul A mzero = mzero.
Proof. unfold mmul, mzero. cbn [m00 m01 m02 m10 m11 m12 m20 m21 m22]. apply m3_eq; ring. Qed.
Lemma mmul_0l A : mmul mzero A = mzero.
Proof. unfold mmul, mzero. cbn [m00 m01 m02 m10 m11 m12 m20 m21 m22]. apply m3_eq; ring. Qed.
Lemma madd_00 : madd mzero mzero = mzero.
Proof. unfold madd, mzero. cbn [m00 m01 m02 m10 m11 m12 m20 m21 m22]. apply m3_eq; ring. Qed.
Lemma mcross_0 : mcross v0 = mzero.
Proof. unfold mcross, mzero, v0. cbn [vx vy vz]. apply m3_eq; ring. Qed.
Lemma ptdualI_0 X : ptdualI X rbi0 = rbi0.
Proof.
  unfold ptdualI, rbi0. cbn [imass imom iine].
  assert (H : vsub v0 (vscale 0 (trR X)) = v0) by (unfold vsub, vscale, v0; cbn [vx vy vz]; apply v3_eq; ring).
  rewrite H, mcross_0, mmul_0r, mmul_0l. change (sym_mat sym0) with mzero. rewrite !madd_00, mmul_0r, mmul_0l.
  apply rbi_eq; [reflexivity| |reflexivity]. unfold mapp, v0. cbn [vx vy vz]. apply v3_eq; ring.
Qed.
Lemma plain_body n : body_mci 0 v0 mzero n = mkBody rbi0 n.
Proof.
  assert (vscale 0 v0 = v0) by (unfold vscale, v0; cbn [vx vy vz]; apply v3_eq; ring).
  unfold body_mci, rbi0. rewrite H. reflexivity.
Qed.
Definition some_or {A} (o : option A) : option A := match o with Some b => Some b | None => None end.
Definition ub_w (W : Writer) (n pa ch : string) : UJoint := mkUJ (Some n) (Some "fixed"%string) (Some (Some pa)) (Some (Some ch)) (some_or (wr_origin W ptid)) (if isZero3 v0 then None else Some (wr_vec3d W v0)) None None.
Definition yb_w (e : M3 -> V3) (n pa ch : string) : YJoint := mkYJ (Some n) (Some "fixed"%string) (Some pa) (Some ch) (if isZero3 v0 then None else Some (yw_vec3d v0)) (some_or (yw_frame e ptid)) None.
Definition fxj (d : bool) (n : string) : Joint := mkJoint Fixed [] d 0 0 n false "" 1 0.
Definition at1 : PT := mkPT (RPY 0 0 0) (mkV3 1 0 0).
Definition e_rb : RBI := mkRBI 0 (vscale 0 v0) (sym_lower mzero).
Definition b_root (fx : bool) : Joint := mkJ (if fx then Fixed else Free) unitZ true "Root".
Definition b_mb (fx : bool) : MultiBody :=
  mkMB [mkBody (ptdualI ptid e_rb) "arm"; mkBody (ptdualI at1 e_rb) "base"; mkBody (ptdualI ptid e_rb) "hand"] [b_root fx; fxj false "j"; fxj true "k"]
    [-1; 0; 1]%Z [0; 1; 2]%Z [-1; 0; 1]%Z [ptid; ptmul ptid (ptinv ptid); ptmul ptid (ptinv at1)]
    [("arm"%string, 0%Z); ("base"%string, 1%Z); ("hand"%string, 2%Z)] [("Root"%string, 0%Z); ("j"%string, 1%Z); ("k"%string, 2%Z)]
    (if fx then [0; 0; 0] else [0; 7; 7]) (if fx then [0; 0; 0] else [0; 6; 6]) (if fx then 0 else 7) (if fx then 0 else 6).
Definition b_s : GSt :=
  (mkHeap [mkNode (mkBody e_rb "base") [mkArc at1 (fxj true "j") 1; mkArc ptid (fxj true "k") 2]; mkNode (mkBody e_rb "arm") [mkArc ptid (fxj false "j") 0]; mkNode (mkBody e_rb "hand") [mkArc ptid (fxj false "k") 0]]
     [fxj true "j"; fxj true "k"],
   mkGraph "Root" [0; 1; 2] [0; 1] [("base"%string, 0); ("arm"%string, 1); ("hand"%string, 2)] [("j"%string, 0); ("k"%string, 1)]).
Definition b_l : Limits := let e := [("j"%string, []); ("k"%string, [])] in mkLim e e e e.
Lemma leg1 fx rf su : parse_urdf (Some base_doc) (mkPP fx [] rf true "arm" false su) = Ok ("arm", "robot", b_s, b_l)%string.
Proof. lazy -[normalized sqrt Rplus Rmult RPY ptid ends_with unitZ v0 vscale sym_lower mzero svscale IZR]. reflexivity. Qed.
Lemma leg2 f fx : makeMultiBody_fixed (S (S (S f))) "arm" fx ptid ptid b_s = Ok (b_mb fx).
Proof. destruct fx; lazy -[normalized sqrt Rplus Rmult RPY ptmul ptinv ptdualI ptid ends_with unitZ v0 vscale sym_lower mzero svscale IZR]; reflexivity. Qed.
Lemma leg2' fx : MultiBody_ctor (mb_bodies (b_mb fx)) (mb_joints (b_mb fx)) (mb_pred (b_mb fx)) (mb_succ (b_mb fx)) (mb_parent (b_mb fx)) (mb_Xt (b_mb fx)) = Ok (b_mb fx).
Proof. destruct fx; lazy -[normalized sqrt Rplus Rmult RPY ptmul ptinv ptdualI ptid ends_with unitZ v0 vscale sym_lower mzero svscale IZR]; reflexivity. Qed.
Lemma leg3 fx W m : to_urdf W (mkPR (b_mb fx) m b_s b_l "robot") =
  Ok (Some (mkUR (Some "robot"%string) (map (wr_link W) (mb_bodies (b_mb fx))) [ub_w W "j" "arm" "base"; ub_w W "k" "base" "hand"])).
Proof. destruct fx; lazy -[wr_link isZero3 wr_origin wr_vec3d normalized sqrt Rplus Rmult RPY ptmul ptinv ptdualI ptid ends_with unitZ v0 vscale sym_lower mzero svscale IZR]; reflexivity. Qed.
Lemma leg4 fx e m : to_yaml e (mkPR (b_mb fx) m b_s b_l "robot") =
  Ok (Some (mkYR (Some "robot"%string) (Some false) (Some (map yw_link (mb_bodies (b_mb fx)))) (Some [yb_w e "j" "arm" "base"; yb_w e "k" "base" "hand"]))).
Proof. destruct fx; lazy -[yw_link isZero3 yw_frame yw_vec3d normalized sqrt Rplus Rmult RPY ptmul ptinv ptdualI ptid ends_with unitZ v0 vscale sym_lower mzero svscale IZR]; reflexivity. Qed.
Lemma e_rb_0 : e_rb = rbi0.
Proof. exact (f_equal binertia (plain_body "")). Qed.
Lemma b_bodies fx : mb_bodies (b_mb fx) = [mkBody rbi0 "arm"; mkBody rbi0 "base"; mkBody rbi0 "hand"].
Proof. cbn [b_mb mb_bodies]. now rewrite e_rb_0, !ptdualI_0. Qed.
Lemma b_ok fx j : In j [b_root fx; fxj false "j"; fxj true "k"] -> joint_ok j.
Proof.
  intros [<-|[<-|[<-|[]]]].
  - eexists. constructor.
  - change (fxj false "j") with (set_forward (mkJ Fixed unitZ true "j") false). apply fwd_ok. eexists. constructor.
  - change (fxj true "k") with (mkJ Fixed unitZ true "k"). eexists. constructor.
Qed.
Lemma b_wf fx : wf_mb (b_mb fx).
Proof.
  eapply MultiBody_ctor_wf; [|exact (leg2' fx)]. constructor; try reflexivity.
  - intros [|[|[|i]]] z E; cbn in E.
    + injection E as <-. now left.
    + injection E as <-. right. lia.
    + injection E as <-. right. lia.
    + destruct i; discriminate.
  - apply b_ok.
Qed.
Lemma b_zero fx g : exists m, zero_mbc g (b_mb fx) = Ok m.
Proof.
  pose proof (b_wf fx) as W. unfold zero_mbc. destruct (fresh_ok g (b_mb fx)) as (K0 & _); [unfold nrJoints; rewrite (wf_joints _ W); reflexivity|].
  destruct (zero_ok _ _ W K0) as (m1 & E1 & K1 & _). rewrite E1. cbn [bind]. destruct (FK_total _ m1 W K1) as (m2 & E2 & F2). rewrite E2. cbn [bind].
  destruct (FV_total _ m2 W (FK_mbc_ok _ _ _ W K1 F2)) as (m3 & E3 & _). eauto.
Qed.
Lemma b_read f g p : plain p -> exists m, from_urdf (S (S (S f))) g (Some base_doc) (from_base p "arm") = Ok (mkPR (b_mb (pp_fixed p)) m b_s b_l "robot").
Proof.
  intros (P1 & P2 & P3 & P4). destruct p as [fx fl rf tr ba rv su]. cbn [pp_filtered pp_transform pp_remove_virtual pp_base] in *. subst.
  destruct (b_zero fx g) as (m & Z). exists m. unfold from_base, from_urdf. cbn [pp_fixed pp_filtered pp_remove_filtered pp_transform pp_remove_virtual pp_suffix].
  rewrite leg1. cbn [bind]. rewrite (make_result_zero _ _ _ _ _ _ _ _ (leg2 f fx)), Z. reflexivity.
Qed.
Lemma wr_origin_ok W X : uorigin_ok (some_or (wr_origin W X)).
Proof.
  unfold wr_origin. destruct (_ && _); cbn [some_or uorigin_ok]; [exact I|]. cbn [uo_rpy]. destruct (isZero3 _); cbn [wr_vec3d]; [exact I|]. eexists _, _, _, []. split; [reflexivity|exact I].
Qed.
Lemma wr_origin_0 W X : urdf_origin (some_or (wr_origin W ptid)) X -> trR X = v0.
Proof.
  unfold wr_origin. cbn [ptid trR]. rewrite isZero3_0. cbn [andb]. destruct (isZero3 _); cbn [some_or]; intro H; inversion H; subst; [reflexivity|]. cbn [trR uo_xyz] in *.
  match goal with K : vector_or None _ _ |- _ => destruct K as [[K|(? & K)]|[_ K]]; [discriminate K|discriminate K|exact K] end.
Qed.
Lemma yw_frame_ok e X : yframe_ok (some_or (yw_frame e X)).
Proof.
  unfold yw_frame. destruct (_ && _); cbn [some_or yframe_ok]; [exact I|]. cbn [yf_xyz yf_rpy]. split; destruct (isZero3 _); cbn [yvec_ok yw_vec3d]; try exact I; eexists _, _, _; reflexivity.
Qed.
Lemma yw_frame_0 e deg X : yaml_frame_at deg (some_or (yw_frame e ptid)) X -> trR X = v0.
Proof.
  unfold yw_frame. cbn [ptid trR]. rewrite isZero3_0. cbn [andb]. destruct (isZero3 _); cbn [some_or]; intro H; inversion H; subst; [reflexivity|]. cbn [trR yf_xyz] in *.
  match goal with K : vec_or_zero None _ |- _ => destruct K as [K|[_ K]]; [discriminate K|exact K] end.
Qed.
Lemma b_tree : tree_names ["arm"; "base"; "hand"]%string [("j", ("arm", "base")); ("k", ("base", "hand"))]%string.
Proof.
  split; [discriminate|]. cbn [map fst snd tl].
  split; [repeat constructor; cbn; intuition discriminate|]. split; [repeat constructor; cbn; intuition discriminate|]. split; [repeat constructor; cbn; intuition discriminate|].
  split; [intros n H; exact H|]. split; [intros j [<-|[<-|[]]]; cbn; auto|].
  exists (fun n => if String.eqb n "arm" then 0 else if String.eqb n "base" then 1 else 2). intros j [<-|[<-|[]]]; cbn; lia.
Qed.
(** The body "hand" of what is read. *)
Lemma hand_at bodies links root mb : robot_of bodies links root mb -> map bname bodies = ["arm"; "base"; "hand"]%string ->
  exists i k, In k links /\ bname (nth i (mb_bodies mb) bd) = "hand"%string /\ dl_child k = "hand"%string /\ nth i (mb_Xt mb) ptid = dl_X k.
Proof.
  intros (W & PE & B0 & _ & _ & _ & L) EB.
  assert (LB : List.length bodies = 3) by (rewrite <- (map_length bname), EB; reflexivity).
  assert (HI : In "hand"%string (map bname (mb_bodies mb))). { apply (Permutation_in (l := map bname bodies)); [apply Permutation_map; now symmetry|]. rewrite EB. cbn; auto. }
  apply in_map_iff in HI. destruct HI as (b & E & I). destruct (In_nth _ _ bd I) as (i & Li & Ei). rewrite (Permutation_length PE) in Li.
  assert (i <> 0). { intros ->. rewrite B0 in Ei. destruct bodies as [|b0 bs]; [discriminate|]. cbn in Ei. injection EB as E0 _. subst. rewrite E0 in E. discriminate. }
  destruct (L i ltac:(lia)) as (k & q & Ik & _ & _ & EX & EC & _). exists i, k. split; [exact Ik|]. rewrite Ei, E in EC. rewrite Ei, E. auto.
Qed.
Theorem other_base_refuted W e g p fuel : plain p -> 3 <= fuel -> exists r d d' r' r'',
  from_urdf fuel g (Some base_doc) (from_base p "arm") = Ok r /\ to_urdf W r = Ok d /\ to_yaml e r = Ok d' /\
  from_urdf fuel g d p = Ok r' /\ from_yaml fuel g d' p = Ok r'' /\
  (exists i, bname (nth i (mb_bodies (pr_mb r)) bd) = "hand"%string /\ trR (nth i (mb_Xt (pr_mb r)) ptid) = mkV3 (-1) 0 0) /\
  (exists i, bname (nth i (mb_bodies (pr_mb r')) bd) = "hand"%string /\ trR (nth i (mb_Xt (pr_mb r')) ptid) = v0) /\
  (exists i, bname (nth i (mb_bodies (pr_mb r'')) bd) = "hand"%string /\ trR (nth i (mb_Xt (pr_mb r'')) ptid) = v0).
Proof.
  intros P F. destruct fuel as [|[|[|f]]]; try lia. destruct (b_read f g p P) as (m & E1). do 3 eexists.
  set (fx := pp_fixed p) in *.
  assert (ZI : forall n, wr_link W (mkBody rbi0 n) = mkUL (Some n) None) by (intro n; unfold wr_link, wr_inertial; cbn [binertia bname]; now rewrite zero_inertial).
  assert (ZY : forall n, yw_link (mkBody rbi0 n) = mkYL (Some n) None) by (intro n; unfold yw_link, yw_inertial; cbn [binertia bname]; now rewrite zero_inertial).
  pose proof (leg3 fx W m) as E2. pose proof (leg4 fx e m) as E3. rewrite b_bodies in E2, E3. cbn [map] in E2, E3. rewrite !ZI in E2. rewrite !ZY in E3.
  assert (KA : keeps_all p) by (destruct P as (? & ? & ? & ?); repeat split; auto).
  match type of E2 with _ = Ok (Some ?d) => destruct (urdf_doc (S (S (S f))) g p d "robot" KA eq_refl) as (r' & bs & ks & R1 & _ & M1 & M2 & RO & _) end.
  { intros l [<-|[<-|[<-|[]]]]; (split; [discriminate|exact I]). }
  { intros u [<-|[<-|[]]]; (split; [discriminate|]; split; [discriminate|]; split; [eexists; reflexivity|]; split; [eexists; reflexivity|]; split; [apply wr_origin_ok|exact I]). }
  { exact b_tree. }
  { cbn. lia. }
  match type of E3 with _ = Ok (Some ?d) => destruct (yaml_doc (S (S (S f))) g p d "robot" false _ _ KA eq_refl eq_refl eq_refl eq_refl) as (r'' & bs' & ks' & R2 & _ & N1 & N2 & RO' & _) end.
  { intros l [<-|[<-|[<-|[]]]]; exact I. }
  { assert (Y : forall n a b c, yjoint_ok p n (yb_w e a b c)).
    { intros. split; [unfold yb_w; cbn [yj_axis]; rewrite isZero3_0; exact I|]. split; [apply yw_frame_ok|]. cbn [yb_w yj_type]. right. exists 0. split; [cbn; auto 10|exact I]. }
    intros [|[|i]] j E; cbn in E; [injection E as <-; apply Y|injection E as <-; apply Y|destruct i; discriminate]. }
  { exact b_tree. }
  { discriminate. }
  { cbn. lia. }
  exists r', r''. split; [exact E1|]. split; [exact E2|]. split; [exact E3|]. split; [exact R1|]. split; [exact R2|]. split; [|split].
  - exists 2. cbn [pr_mb b_mb mb_bodies mb_Xt nth bname]. split; [reflexivity|]. unfold ptmul, ptinv, ptid, at1. cbn [trR rotE]. rewrite RPY_0. apply V3_ext; cbn; ring.
  - cbn [ur_links ur_joints] in M1, M2. destruct bs as [|b1 [|b2 [|b3 [|]]]]; cbn in M1; try tauto. destruct M1 as ((B1 & _) & (B2 & _) & (B3 & _) & _).
    destruct (hand_at _ _ _ _ RO) as (i & k & Ik & Hi & Ck & EX); [cbn; now rewrite B1, B2, B3|]. exists i. split; [exact Hi|]. rewrite EX.
    destruct ks as [|k1 [|k2 [|]]]; cbn in M2; try tauto. destruct M2 as (Q1 & Q2 & _). destruct Ik as [<-|[<-|[]]].
    + inversion Q1; subst. cbn in *. congruence.
    + inversion Q2; subst. cbn [dl_X]. cbn [ub_w uj_origin] in *. eapply wr_origin_0; eassumption.
  - destruct bs' as [|b1 [|b2 [|b3 [|]]]]; cbn in N1; try tauto. destruct N1 as ((B1 & _) & (B2 & _) & (B3 & _) & _).
    destruct (hand_at _ _ _ _ RO') as (i & k & Ik & Hi & Ck & EX); [cbn; now rewrite B1, B2, B3|]. exists i. split; [exact Hi|]. rewrite EX.
    destruct ks' as [|k1 [|k2 [|]]]; cbn in N2; try tauto. destruct N2 as (Q1 & Q2 & _). destruct Ik as [<-|[<-|[]]].
    + inversion Q1; subst. cbn in *. congruence.
    + inversion Q2; subst. cbn [dl_X]. cbn [yb_w yj_frame] in *. eapply yw_frame_0; eassumption.
Qed.
