(** Documents and elements for the examples and the refutations about visual elements. *)
From Coq Require Import Reals String ZArith Bool Arith List Lia Lra.
From Verif Require Import Res ResP SMap Vec VecP Sva JointM MultiBodyM ParserM YamlM GeomM Spec SpecParser SpecGeom ParserP ParserRotP ParserRtP ParserExP GeomP GeomYamlP GeomRtP.
Import ListNotations.
Open Scope R_scope.

(** Options that remove links without inertia, and the link "hidden". *)
Definition exg_p : PParams := mkPP true ["hidden"%string] true true EmptyString true "_spherical".
Definition exg_plain : PParams := mkPP true [] false true EmptyString false "_spherical".
Definition num (x : R) : Attr := Some [TNum x].
Definition no_geom : UGeom := mkUG None None None None None.
Definition a_mesh (f : option string) (s : Attr) : UGeom := mkUG (Some (f, s)) None None None None.
Definition a_box (s : Attr) : UGeom := mkUG None (Some s) None None None.
Definition color (n : string) (r g b : R) : UMat := mkUMt (Some n) (Some (Some [TNum r; TNum g; TNum b; TNum 1])) None.
(** A robot with two shared materials of the same name, a link with two visuals and a collision,
    one without inertia, and one that is filtered out. *)
Definition exg_u : UVRobot := mkUVR [color "paint" 1 0 0; color "paint" 0 0 1]
  [mkUVL (Some "arm"%string) true
     [mkUV (Some "shell"%string) None (Some (a_mesh (Some "arm.stl"%string) (num 2))) (Some (color "paint" 0 1 0));
      mkUV None None None None;
      mkUV None (Some (mkUO (Some [TNum 1; TNum 2; TNum 3]) None)) (Some (a_box (num 1))) (Some (color "own" 0 1 0))]
     [mkUV None None (Some no_geom) None];
   mkUVL (Some "frame"%string) false [mkUV None None (Some (a_mesh None None)) None] [];
   mkUVL (Some "hidden"%string) true [mkUV None None (Some no_geom) None] []].
Lemma rpy0 : RPY 0 0 0 = mid.
Proof. rewrite RPY_eq, euler_zyx_0. reflexivity. Qed.
Lemma exg_u_read : urdf_visuals exg_p exg_u = Ok
  ([("arm"%string, [mkVis "shell" ptid (GMesh "arm.stl" (mkV3 2 2 2)) (MColor 1 0 0 1); mkVis EmptyString (mkPT mid (mkV3 1 2 3)) (GBox v0) (MColor 0 1 0 1)])],
   [("arm"%string, [mkVis EmptyString ptid GUnknown MNone])]).
Proof. unfold urdf_visuals. cbn. unfold attrToVector. cbn. rewrite rpy0. reflexivity. Qed.

Definition ycolor (n : string) (r g b : R) : YMat := mkYMt (Some n) (Some (Some (YSeq [YNum r; YNum g; YNum b; YNum 1]))) None.
Definition use (n : string) : YMat := mkYMt (Some n) None None.
Definition y_mesh (f : string) (s : option (yv R)) : list (string * YShape) := [("mesh"%string, mkYSh (Some f) s None None None None None)].
Definition y_box (l : list R) : list (string * YShape) := [("box"%string, mkYSh None None (Some (YSeq (map YNum l))) None None None None)].
(** The same, in YAML; the last link has no name. *)
Definition exg_y : YVRobot := mkYVR false [ycolor "paint" 1 0 0; ycolor "paint" 0 0 1]
  [mkYVL (Some "arm"%string) true
     [mkYV (Some "shell"%string) None (Some (ycolor "paint" 0 1 0)) (Some (y_mesh "arm.stl" (Some (YSeq [YNum 2]))));
      mkYV None None None None;
      mkYV None (Some (mkYF (Some (YSeq [YNum 1; YNum 2; YNum 3])) None None)) (Some (use "paint")) (Some (y_box [1; 2; 3]))]
     [];
   mkYVL (Some "frame"%string) false [mkYV None None None (Some (y_box [1]))] [];
   mkYVL None true [] [mkYV None None None (Some [("sphere"%string, mkYSh None None None (Some (YNum 1)) None None None)])]].
Lemma mrpy0 : MatrixFromRPY 0 0 0 = mid.
Proof. rewrite MatrixFromRPY_eq, euler_0. reflexivity. Qed.
Lemma exg_y_read : yaml_visuals exg_p exg_y = Ok
  ([("arm"%string, [mkVis "shell" ptid (GMesh "arm.stl" (mkV3 2 2 2)) (MColor 0 1 0 1); mkVis EmptyString (mkPT mid (mkV3 1 2 3)) (GBox (mkV3 1 2 3)) (MColor 0 0 1 1)])],
   [("link2"%string, [mkVis EmptyString ptid (GSphere 1) MNone])]).
Proof. unfold yaml_visuals. cbn. rewrite mrpy0. reflexivity. Qed.

(** One link, one visual. *)
Definition one_u (mats : list UMat) (v : UVis) : UVRobot := mkUVR mats [mkUVL (Some "arm"%string) true [v] []].
Definition one_y (mats : list YMat) (v : YVis) : YVRobot := mkYVR false mats [mkYVL (Some "arm"%string) true [v] []].
Lemma no_filename p : stays p "arm" true = true -> urdf_visuals p (one_u [] (mkUV None None (Some (a_mesh None None)) None)) = UB.
Proof. intro H. unfold urdf_visuals. cbn -[link_kept]. rewrite stays_iff, H. reflexivity. Qed.
Lemma two_factors p : stays p "arm" true = true -> urdf_visuals p (one_u [] (mkUV None None (Some (a_mesh (Some "a.stl"%string) (Some [TNum 1; TNum 2]))) None)) = UB.
Proof. intro H. unfold urdf_visuals. cbn -[link_kept]. rewrite stays_iff, H. reflexivity. Qed.
Lemma short_box p : stays p "arm" true = true -> yaml_visuals p (one_y [] (mkYV None None None (Some (y_box [1; 2])))) = UB.
Proof. intro H. unfold yaml_visuals. cbn -[link_kept]. rewrite stays_iff, H. reflexivity. Qed.
Lemma scalar_scale p : stays p "arm" true = true -> yaml_visuals p (one_y [] (mkYV None None None (Some (y_mesh "a.stl" (Some (YNum 2)))))) =
  Ok ([("arm"%string, [mkVis EmptyString ptid (GMesh "a.stl" (mkV3 1 1 1)) MNone])], []).
Proof. intro H. unfold yaml_visuals. cbn -[link_kept]. rewrite stays_iff, H. cbn. rewrite mrpy0. reflexivity. Qed.
Lemma shared_wins p : stays p "arm" true = true ->
  urdf_visuals p (one_u [color "paint" 1 0 0] (mkUV None None (Some no_geom) (Some (color "paint" 0 1 0)))) = Ok ([("arm"%string, [mkVis EmptyString ptid GUnknown (MColor 1 0 0 1)])], []).
Proof. intro H. unfold urdf_visuals. cbn -[link_kept]. rewrite stays_iff, H. reflexivity. Qed.
Lemma own_wins p : stays p "arm" true = true ->
  yaml_visuals p (one_y [ycolor "paint" 1 0 0] (mkYV None None (Some (ycolor "paint" 0 1 0)) (Some (y_box [1; 2; 3])))) = Ok ([("arm"%string, [mkVis EmptyString ptid (GBox (mkV3 1 2 3)) (MColor 0 1 0 1)])], []).
Proof. intro H. unfold yaml_visuals. cbn -[link_kept]. rewrite stays_iff, H. cbn. rewrite mrpy0. reflexivity. Qed.

(** ** Round trip. *)
Definition exg_body : Body := mkBody rbi0 "arm".
Definition exg_ok : Visual := mkVis EmptyString exp_Y (GMesh "package://arm.stl" (mkV3 1 1 2)) (MTexture "file://wood.png").
Definition exg_s : VMaps := ([("arm"%string, [exg_ok; mkVis EmptyString exp_Y (GCylinder 1 2) (MColor 0 0 1 1)])], [("arm"%string, [mkVis EmptyString exp_Y (GSuperellipsoid (mkV3 1 2 3) 1 2) MNone])]).
Lemma exp_Y_agree : let w := eul (mtr (rotE exp_Y)) in euler_zyx (vx w) (vy w) (vz w) = euler_xyz (vx w) (vy w) (vz w).
Proof. destruct exw_ok as (T & U). destruct exp_Y_ok as (A & B & C). apply (urdf_frame_iff exw exp_Y T U A B C). exact (urdf_axis exw exp_Y 1 unitX T U eq_refl (or_introl eq_refl) B C). Qed.
(** Maps whose elements all have the frame of the example. *)
Lemma frames_same m : (forall n v, In v (seen m n) -> v_origin v = exp_Y) -> urdf_frames eul m.
Proof.
  intro H. split; intros n v Hv; rewrite (H n v Hv); [exact exp_Y_ok|exact exp_Y_agree].
Qed.
Lemma seen_one k l n v : In v (seen [(k, l)] n) -> In v l.
Proof. unfold seen. cbn. destruct (String.eqb n k); [auto|intros []]. Qed.
Lemma exg_s_ok : urdf_frames (w_euler exw) (fst exg_s) /\ urdf_frames (w_euler exw) (snd exg_s).
Proof. split; apply frames_same; intros n v Hv; apply seen_one in Hv; cbn in Hv; intuition (subst; reflexivity). Qed.
Lemma exg_s_complete n v : In v (seen (fst exg_s) n ++ seen (snd exg_s) n) -> complete v.
Proof.
  assert (P : has_prefix "package://arm.stl") by (left; exists "arm.stl"%string; reflexivity).
  assert (F : has_prefix "file://wood.png") by (right; exists "wood.png"%string; reflexivity).
  intro H. apply in_app_or in H. destruct H as [H|H]; apply seen_one in H; cbn in H.
  - destruct H as [<-|[<-|[]]]; (split; [reflexivity|]); (split; [reflexivity|]); (split; [intros f s E|intros f E]); try discriminate E.
    + cbn in E. injection E as <- _. exact P.
    + cbn in E. injection E as <-. exact F.
  - destruct H as [<-|[]]. split; [reflexivity|]. split; [reflexivity|]. split; [intros f s E|intros f E]; discriminate E.
Qed.
(** What does not come back: a name, a file name without prefix, an unknown shape. *)
Definition one_s (v : Visual) : VMaps := ([("arm"%string, [v])], []).
Lemma one_frames v : v_origin v = exp_Y -> urdf_frames eul (fst (one_s v)) /\ urdf_frames eul (snd (one_s v)).
Proof.
  intro H. split; apply frames_same; intros n w Hw; [apply seen_one in Hw; destruct Hw as [<-|[]]; exact H|destruct Hw].
Qed.
Definition lost (v : Visual) : Prop :=
  forall p s', pp_filtered p = [] -> pp_remove_virtual p = false ->
    urdf_visuals p (urdf_links exw [exg_body] (one_s v)) = Ok s' \/ yaml_visuals p (yaml_links eul [exg_body] (one_s v)) = Ok s' -> seen (fst s') "arm" <> [v].
Lemma lost_if v : v_origin v = exp_Y -> (forall l, Forall2 comes_back (filter known [v]) l -> l <> [v]) -> lost v.
Proof.
  intros X H p s' F V E. destruct (one_frames v X) as (F1 & F2). destruct exw_ok as (T & U).
  assert (Nd : NoDup (map bname [exg_body])) by (constructor; [intros []|constructor]). apply H.
  assert (Hi : In "arm"%string (map bname [exg_body])) by now left.
  destruct E as [E|E].
  - destruct (back_urdf exw T U p [exg_body] (one_s v) F V Nd F1 F2) as (s2 & E2 & B). rewrite E in E2. injection E2 as <-. exact (proj1 (proj1 (B "arm"%string) Hi)).
  - destruct (back_yaml eul U p [exg_body] (one_s v) F V Nd (proj1 F1) (proj1 F2)) as (s2 & E2 & B). rewrite E in E2. injection E2 as <-. exact (proj1 (proj1 (B "arm"%string) Hi)).
Qed.
Lemma lost_name : lost (mkVis "shell" exp_Y (GSphere 1) MNone).
Proof. apply lost_if; [reflexivity|]. intros l F E. subst l. inversion F as [|? ? ? ? (N & _) ?]. discriminate N. Qed.
Lemma lost_filename : lost (mkVis EmptyString exp_Y (GMesh "arm.stl" (mkV3 1 1 1)) MNone).
Proof. apply lost_if; [reflexivity|]. intros l F E. subst l. inversion F as [|? ? ? ? (_ & _ & S & _) ?]. discriminate S. Qed.
Lemma lost_texture : lost (mkVis EmptyString exp_Y (GSphere 1) (MTexture "wood.png")).
Proof. apply lost_if; [reflexivity|]. intros l F E. subst l. inversion F as [|? ? ? ? (_ & _ & _ & S) ?]. discriminate S. Qed.
Lemma lost_unknown : lost (mkVis EmptyString exp_Y GUnknown MNone).
Proof. apply lost_if; [reflexivity|]. intros l F E. subst l. inversion F. Qed.
(** A rotation about two axes does not come back from URDF. *)
Lemma lost_frame W p s' : exact_text W -> euler_ok (w_euler W) ->
  let v := mkVis EmptyString (mkPT (mtr bad_rot) v0) (GSphere 1) MNone in
  urdf_visuals p (urdf_links W [exg_body] (one_s v)) = Ok s' -> seen (fst s') "arm" <> [v].
Proof.
  intros T U v E Hs. destruct (urdf_read_visuals _ _ _ E "arm") as (F & _). rewrite Hs in F.
  inversion F as [|u w l l' Hu Hr El Ew]. destruct Hu as (g & _ & _ & X & _).
  assert (Eu : uv_origin u = wr_origin W (mkPT (mtr bad_rot) v0)).
  { unfold urdf_elements in El. cbn -[stays has_inertial wr_origin] in El. destruct (stays p "arm" _); cbn -[wr_origin] in El; [injection El as El _; subst u; reflexivity|discriminate]. }
  rewrite Eu in X. apply origin_iff in X. exact (urdf_bad W T U X).
Qed.
