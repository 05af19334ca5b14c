(** Properties of visual elements, collision elements and materials: C80, C81. *)
From Coq Require Import Reals String ZArith Bool Arith List Lra.
From Verif Require Import Res SMap Vec VecP Sva JointM MultiBodyM ParserM YamlM GeomM Spec SpecParser SpecGeom ParserRotP ParserRtP ParserExP GeomP GeomYamlP GeomRtP GeomExP.
Import ListNotations.
Open Scope R_scope.

(** C80: what is read for a link is what the elements of the links of that name describe, in the
    order of the document, and links without an element have no entry. *)
Theorem C80_urdf_elements : forall p r s, urdf_visuals p r = Ok s -> forall n,
  Forall2 (urdf_visual (uvr_materials r)) (urdf_elements p r uvl_visual n) (seen (fst s) n) /\
  Forall2 (urdf_visual (uvr_materials r)) (urdf_elements p r uvl_collision n) (seen (snd s) n) /\
  mfind (fst s) n <> Some [] /\ mfind (snd s) n <> Some [].
Proof. exact urdf_read_visuals. Qed.
Print Assumptions C80_urdf_elements.
Theorem C80_urdf_unique : forall l u v v', urdf_visual l u v -> urdf_visual l u v' -> v = v'.
Proof. exact urdf_visual_fun. Qed.
Print Assumptions C80_urdf_unique.
Theorem C80_urdf_readable : forall p r, (exists s, urdf_visuals p r = Ok s) <-> urdf_readable p r.
Proof. exact urdf_readable_iff. Qed.
Print Assumptions C80_urdf_readable.
Example C80_urdf_case : urdf_visuals exg_p exg_u = Ok
  ([("arm"%string, [mkVis "shell" ptid (GMesh "arm.stl" (mkV3 2 2 2)) (MColor 1 0 0 1); mkVis EmptyString (mkPT mid (mkV3 1 2 3)) (GBox v0) (MColor 0 1 0 1)])],
   [("arm"%string, [mkVis EmptyString ptid GUnknown MNone])]).
Proof. exact exg_u_read. Qed.
Theorem C80_yaml_elements : forall p r s, yaml_visuals p r = Ok s -> forall n,
  Forall2 (yaml_visual (yvr_deg r) (yvr_materials r)) (yaml_elements p r yvl_visual n) (seen (fst s) n) /\
  Forall2 (yaml_visual (yvr_deg r) (yvr_materials r)) (yaml_elements p r yvl_collision n) (seen (snd s) n) /\
  mfind (fst s) n <> Some [] /\ mfind (snd s) n <> Some [].
Proof. exact yaml_read_visuals. Qed.
Print Assumptions C80_yaml_elements.
Theorem C80_yaml_readable : forall p r, (exists s, yaml_visuals p r = Ok s) <-> yaml_readable p r.
Proof. exact yaml_readable_iff. Qed.
Print Assumptions C80_yaml_readable.
Example C80_yaml_case : yaml_visuals exg_p exg_y = Ok
  ([("arm"%string, [mkVis "shell" ptid (GMesh "arm.stl" (mkV3 2 2 2)) (MColor 0 1 0 1); mkVis EmptyString (mkPT mid (mkV3 1 2 3)) (GBox (mkV3 1 2 3)) (MColor 0 0 1 1)])],
   [("link2"%string, [mkVis EmptyString ptid (GSphere 1) MNone])]).
Proof. exact exg_y_read. Qed.
(** Reading stays in range, except for meshes and sizes of the wrong form. *)
Theorem C80_urdf_in_range_partial : forall p r, (forall l, In l (uvr_links r) -> uvl_name l <> None) ->
  (forall l u g, In l (uvr_links r) -> In u (uvl_visual l ++ uvl_collision l) -> uv_geometry u = Some g -> urdf_mesh_ok g) ->
  urdf_visuals p r <> UB.
Proof. exact urdf_visuals_safe. Qed.
Print Assumptions C80_urdf_in_range_partial.
Theorem C80_yaml_in_range_partial : forall p r,
  (forall l u g t s, In l (yvr_links r) -> In u (yvl_visual l ++ yvl_collision l) -> yv_geometry u = Some g -> In (t, s) g -> yaml_shape_sized t s) ->
  yaml_visuals p r <> UB.
Proof. exact yaml_visuals_safe. Qed.
Print Assumptions C80_yaml_in_range_partial.
Theorem C80_urdf_mesh_refuted : exists r r', (forall p, stays p "arm" true = true -> urdf_visuals p r = UB /\ urdf_visuals p r' = UB) /\
  r = one_u [] (mkUV None None (Some (a_mesh None None)) None) /\ r' = one_u [] (mkUV None None (Some (a_mesh (Some "a.stl"%string) (Some [TNum 1; TNum 2]))) None).
Proof. eexists. eexists. split; [|split; reflexivity]. intros p H. exact (conj (no_filename p H) (two_factors p H)). Qed.
Print Assumptions C80_urdf_mesh_refuted.
Theorem C80_yaml_size_refuted : exists r, (forall p, stays p "arm" true = true -> yaml_visuals p r = UB) /\ r = one_y [] (mkYV None None None (Some (y_box [1; 2]))).
Proof. eexists. split; [|reflexivity]. exact short_box. Qed.
Print Assumptions C80_yaml_size_refuted.
(** A single factor of scale that is not in a sequence is ignored. *)
Theorem C80_yaml_scale_refuted : exists r, (forall p, stays p "arm" true = true -> yaml_visuals p r = Ok ([("arm"%string, [mkVis EmptyString ptid (GMesh "a.stl" (mkV3 1 1 1)) MNone])], [])) /\
  r = one_y [] (mkYV None None None (Some (y_mesh "a.stl" (Some (YNum 2))))).
Proof. eexists. split; [|reflexivity]. exact scalar_scale. Qed.
Print Assumptions C80_yaml_scale_refuted.
(** The two formats differ when a visual describes a material under the name of a shared one. *)
Theorem C80_formats_refuted : exists c c', c <> c' /\ forall p, stays p "arm" true = true ->
  (exists g, urdf_visuals p (one_u [color "paint" 1 0 0] (mkUV None None (Some no_geom) (Some (color "paint" 0 1 0)))) = Ok ([("arm"%string, [mkVis EmptyString ptid g c])], [])) /\
  (exists g, yaml_visuals p (one_y [ycolor "paint" 1 0 0] (mkYV None None (Some (ycolor "paint" 0 1 0)) (Some (y_box [1; 2; 3])))) = Ok ([("arm"%string, [mkVis EmptyString ptid g c'])], [])).
Proof.
  exists (MColor 1 0 0 1), (MColor 0 1 0 1). split; [intro H; injection H; intros; lra|]. intros p H.
  split; eexists; [exact (shared_wins p H)|exact (own_wins p H)].
Qed.
Print Assumptions C80_formats_refuted.
Example C80_refuted_case : stays exg_plain "arm" true = true. Proof. reflexivity. Qed.

(** C81: elements that are written come back in the same order under the same link, with their
    frame, shape and material; names of elements are not written, files get a prefix, and elements
    of unknown shape are left out. Missing: what the formats cannot describe (see C59). *)
Theorem C81_urdf_round_trip_partial : forall W p bodies s, exact_text W -> euler_ok (w_euler W) -> pp_filtered p = [] -> pp_remove_virtual p = false ->
  NoDup (map bname bodies) -> urdf_frames (w_euler W) (fst s) -> urdf_frames (w_euler W) (snd s) ->
  exists s', urdf_visuals p (urdf_links W bodies s) = Ok s' /\ forall n,
    (In n (map bname bodies) -> Forall2 comes_back (filter known (seen (fst s) n)) (seen (fst s') n) /\ Forall2 comes_back (filter known (seen (snd s) n)) (seen (snd s') n)) /\
    (~ In n (map bname bodies) -> mfind (fst s') n = None /\ mfind (snd s') n = None).
Proof. intros W p bodies s T U. exact (back_urdf W T U p bodies s). Qed.
Print Assumptions C81_urdf_round_trip_partial.
Theorem C81_yaml_round_trip_partial : forall euler p bodies s, euler_ok euler -> pp_filtered p = [] -> pp_remove_virtual p = false ->
  NoDup (map bname bodies) -> yaml_frames euler (fst s) -> yaml_frames euler (snd s) ->
  exists s', yaml_visuals p (yaml_links euler bodies s) = Ok s' /\ forall n,
    (In n (map bname bodies) -> Forall2 comes_back (filter known (seen (fst s) n)) (seen (fst s') n) /\ Forall2 comes_back (filter known (seen (snd s) n)) (seen (snd s') n)) /\
    (~ In n (map bname bodies) -> mfind (fst s') n = None /\ mfind (snd s') n = None).
Proof. intros euler p bodies s U. exact (back_yaml euler U p bodies s). Qed.
Print Assumptions C81_yaml_round_trip_partial.
(** Elements without a name, of known shape, whose files have a prefix, come back unchanged. *)
Theorem C81_complete_partial : forall l l', (forall v, In v l -> complete v) -> Forall2 comes_back (filter known l) l' -> l' = l.
Proof. exact complete_list. Qed.
Print Assumptions C81_complete_partial.
Example C81_case : exact_text exw /\ euler_ok (w_euler exw) /\ pp_filtered exg_plain = [] /\ pp_remove_virtual exg_plain = false /\ NoDup (map bname [exg_body]) /\
  urdf_frames (w_euler exw) (fst exg_s) /\ urdf_frames (w_euler exw) (snd exg_s) /\ forall n v, In v (seen (fst exg_s) n ++ seen (snd exg_s) n) -> complete v.
Proof.
  destruct exw_ok as (T & U). destruct exg_s_ok as (A & B). do 4 (split; [first [exact T|exact U|reflexivity]|]).
  split; [constructor; [intros []|constructor]|]. split; [exact A|]. split; [exact B|exact exg_s_complete].
Qed.
(** A name, a mesh or a texture without prefix, and an unknown shape do not come back, from
    either format. *)
Theorem C81_refuted : forall v, In v [mkVis "shell" exp_Y (GSphere 1) MNone; mkVis EmptyString exp_Y (GMesh "arm.stl" (mkV3 1 1 1)) MNone;
    mkVis EmptyString exp_Y (GSphere 1) (MTexture "wood.png"); mkVis EmptyString exp_Y GUnknown MNone] ->
  forall p s', pp_filtered p = [] -> pp_remove_virtual p = false ->
    urdf_visuals p (urdf_links exw [exg_body] (one_s v)) = Ok s' \/ yaml_visuals p (yaml_links eul [exg_body] (one_s v)) = Ok s' -> seen (fst s') "arm" <> [v].
Proof. intros v [<-|[<-|[<-|[<-|[]]]]]; [exact lost_name|exact lost_filename|exact lost_texture|exact lost_unknown]. Qed.
Print Assumptions C81_refuted.
Theorem C81_urdf_frame_refuted : exists X, SO3 (rotE X) /\ forall W p s', exact_text W -> euler_ok (w_euler W) ->
  let v := mkVis EmptyString X (GSphere 1) MNone in
  urdf_visuals p (urdf_links W [exg_body] (one_s v)) = Ok s' -> seen (fst s') "arm" <> [v].
Proof. exists (mkPT (mtr bad_rot) v0). exact (conj (SO3_tr _ (SO3_euler_xyz _ _ _)) lost_frame). Qed.
Print Assumptions C81_urdf_frame_refuted.
