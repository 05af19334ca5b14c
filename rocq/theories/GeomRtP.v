(** Lemmas: visual and collision elements written and read back. *)
From Coq Require Import Reals String ZArith Bool Arith List Lia.
From Verif Require Import Res ResP SMap Vec VecP Sva JointM MultiBodyM ParserM YamlM GeomM Spec SpecParser SpecGeom ParserP ParserRotP ParserRtP GeomP GeomYamlP.
Import ListNotations.
Open Scope R_scope.

Lemma prefix_nonempty f : prefix_path f <> EmptyString.
Proof.
  rewrite prefix_path_eq. destruct (prefix "package://" f || prefix "file://" f) eqn:E; [|discriminate]. intros ->. discriminate.
Qed.
Lemma comes_back_complete v v' : complete v -> comes_back v v' -> v' = v.
Proof.
  intros (N & K & G & M) (N' & X & S & T). destruct v as [n o g m], v' as [n' o' g' m']. cbn in *. subst n n' o'. unfold known in K. cbn in K.
  assert (P : forall f, has_prefix f -> prefix_path f = f) by (intros f [H|H]; apply prefix_path_spec; auto).
  f_equal.
  - unfold same_shape in S. destruct g; try exact S. rewrite S, (P filename) by now apply (G _ scale). reflexivity.
  - unfold same_material in T. destruct m; try exact T. rewrite T, (P filename) by now apply M. reflexivity.
Qed.
Lemma complete_list l l' : (forall v, In v l -> complete v) -> Forall2 comes_back (filter known l) l' -> l' = l.
Proof.
  revert l'. induction l as [|v l IH]; cbn; intros l' A F; [now inversion F|].
  assert (Cv := A v (or_introl eq_refl)). assert (Kv : known v = true) by apply Cv. rewrite Kv in F. inversion F as [|? v' ? l'' H1 H2]; subst.
  rewrite (comes_back_complete v v' Cv H1), (IH l''); [reflexivity| |exact H2]. intros x Hx. apply A. now right.
Qed.
Lemma name_list {B} (nm : B -> string) (l : list B) b : NoDup (map nm l) -> In b l -> filter (fun x => String.eqb (nm x) (nm b)) l = [b].
Proof.
  induction l as [|x l IH]; [intros _ []|]. cbn. intros Hd. inversion Hd as [|? ? Hn Hl]; subst. intros [->|Hi].
  - rewrite String.eqb_refl. f_equal. clear - Hn. induction l as [|y l IH]; [reflexivity|]. cbn in *. destruct (String.eqb (nm y) (nm b)) eqn:E.
    + apply String.eqb_eq in E. exfalso. apply Hn. now left.
    + apply IH. intro H. apply Hn. now right.
  - destruct (String.eqb (nm x) (nm b)) eqn:E; [|now apply IH]. apply String.eqb_eq in E. exfalso. apply Hn. rewrite E. now apply in_map.
Qed.
Lemma name_none {B} (nm : B -> string) (l : list B) n : ~ In n (map nm l) -> filter (fun x => String.eqb (nm x) n) l = [].
Proof.
  induction l as [|x l IH]; cbn; intro H; [reflexivity|]. destruct (String.eqb (nm x) n) eqn:E; [|apply IH; tauto]. apply String.eqb_eq in E. exfalso. tauto.
Qed.
Lemma filter_map_comm {A B} (f : A -> B) (q : B -> bool) l : filter q (map f l) = map f (filter (fun a => q (f a)) l).
Proof. induction l as [|a l IH]; cbn; [reflexivity|]. destruct (q (f a)); cbn; now rewrite IH. Qed.
Lemma stays_all p : pp_filtered p = [] -> pp_remove_virtual p = false -> forall n b, stays p n b = true.
Proof. intros F V n b. unfold stays. rewrite F, V. cbn. now rewrite orb_true_r. Qed.

(** ** URDF. *)
Lemma urdf_visual_fun l u v v' : urdf_visual l u v -> urdf_visual l u v' -> v = v'.
Proof. rewrite !visual_iff. congruence. Qed.
Section urdf.
Variable W : Writer.
Hypothesis T : exact_text W.
Hypothesis Eo : euler_ok (w_euler W).
Lemma wr_vec v d : attrToVector (wr_vec3d W v) d = v.
Proof. unfold attrToVector, wr_vec3d. cbn. rewrite !T. apply v3_eta. Qed.
Lemma wr_dbl x d : attrToDouble (wr_double W x) d = x.
Proof. unfold attrToDouble, wr_double. apply T. Qed.
Lemma back_geometry g : g <> GUnknown -> exists g', geometryFromTag (wr_geometry W g) = Ok g' /\ same_shape g g'.
Proof.
  intro H. destruct g as [f v|v|r l|r|v a b|]; [| | | | |contradiction].
  - cbn. unfold geometryFromMesh. cbn. rewrite !T. eexists. split; [reflexivity|]. cbn. now rewrite v3_eta.
  - eexists. split; [reflexivity|]. cbn [same_shape]. now rewrite wr_vec.
  - eexists. split; [reflexivity|]. cbn [same_shape]. now rewrite !wr_dbl.
  - eexists. split; [reflexivity|]. cbn [same_shape]. now rewrite wr_dbl.
  - eexists. split; [reflexivity|]. cbn [same_shape]. now rewrite wr_vec, !wr_dbl.
Qed.
Lemma back_material n i m : exists m', match wr_material W n i m with Some u => as_or (materialFromTag [] u) MNone | None => MNone end = m' /\ same_material m m'.
Proof. destruct m; cbn; (eexists; split; [reflexivity|]); cbn; rewrite ?T; reflexivity. Qed.
Lemma back_visual n i v : known v = true -> (let X := v_origin v in SO3 (rotE X) /\ visible (trR X) /\ visible (w_euler W (mtr (rotE X)))) ->
  (let w := w_euler W (mtr (rotE (v_origin v))) in euler_zyx (vx w) (vy w) (vz w) = euler_xyz (vx w) (vy w) (vz w)) ->
  exists u v', wr_visual W n i v = [u] /\ is_there (uv_geometry u) = true /\ urdf_visual [] u v' /\ comes_back v v'.
Proof.
  intros K (S & V1 & V2) A. unfold wr_visual.
  assert (Kg : v_geometry v <> GUnknown) by (unfold known in K; intro F; now rewrite F in K).
  destruct (back_geometry (v_geometry v) Kg) as (g & Eg & Sg). destruct (back_material n i (v_material v)) as (m & Em & Sm).
  set (u := mkUV None (wr_origin W (v_origin v)) (Some (wr_geometry W (v_geometry v))) (wr_material W n i (v_material v))).
  exists u, (mkVis EmptyString (v_origin v) g m). split; [|split; [reflexivity|split]].
  - unfold u. destruct (v_geometry v); try reflexivity. contradiction.
  - apply visual_iff. unfold visualFromTag. cbn [u uv_geometry uv_origin uv_name uv_material fold_left as_or].
    assert (Ex : read_origin (wr_origin W (v_origin v)) = Ok (v_origin v)) by (apply urdf_frame_iff; auto). rewrite Ex, Eg. cbn [bind]. now rewrite Em.
  - split; [reflexivity|]. split; [reflexivity|]. split; [exact Sg|exact Sm].
Qed.
Lemma unknown_visual n i v : known v = false -> wr_visual W n i v = [].
Proof. unfold known, wr_visual. now destruct (v_geometry v). Qed.
Lemma back_list n l : forall i,
  (forall v, In v l -> (let X := v_origin v in SO3 (rotE X) /\ visible (trR X) /\ visible (w_euler W (mtr (rotE X)))) /\
     (let w := w_euler W (mtr (rotE (v_origin v))) in euler_zyx (vx w) (vy w) (vz w) = euler_xyz (vx w) (vy w) (vz w))) ->
  exists vs, Forall2 (urdf_visual []) (wr_from W n i l) vs /\ Forall2 comes_back (filter known l) vs /\ filter (fun u => is_there (uv_geometry u)) (wr_from W n i l) = wr_from W n i l.
Proof.
  induction l as [|v l IH]; intros i A; cbn [wr_from filter]; [exists []; split; [constructor|]; split; [constructor|reflexivity]|].
  destruct (IH (S i)) as (vs & F1 & F2 & F3); [intros x Hx; apply A; now right|]. destruct (known v) eqn:K.
  - destruct (A v (or_introl eq_refl)) as (A1 & A2). destruct (back_visual n i v K A1 A2) as (u & v' & -> & B1 & B2 & B3).
    exists (v' :: vs). cbn [app filter]. rewrite B1, F3. split; [now constructor|]. split; [now constructor|reflexivity].
  - rewrite (unknown_visual n i v K). now exists vs.
Qed.
Lemma back_visuals n m : urdf_frames (w_euler W) m ->
  exists vs, Forall2 (urdf_visual []) (wr_visuals W m n) vs /\ Forall2 comes_back (filter known (seen m n)) vs /\
    filter (fun u => is_there (uv_geometry u)) (wr_visuals W m n) = wr_visuals W m n.
Proof.
  intros (F1 & F2). unfold wr_visuals. unfold seen. destruct (mfind m n) as [l|] eqn:E; [|exists []; split; [constructor|]; split; [constructor|reflexivity]].
  apply back_list. intros v Hv. assert (In v (seen m n)) by (unfold seen; now rewrite E). split; [now apply (F1 n)|now apply (F2 n)].
Qed.
Lemma back_urdf p bodies s : pp_filtered p = [] -> pp_remove_virtual p = false -> NoDup (map bname bodies) ->
  urdf_frames (w_euler W) (fst s) -> urdf_frames (w_euler W) (snd s) ->
  exists s', urdf_visuals p (urdf_links W bodies s) = Ok s' /\ forall n,
    (In n (map bname bodies) -> Forall2 comes_back (filter known (seen (fst s) n)) (seen (fst s') n) /\ Forall2 comes_back (filter known (seen (snd s) n)) (seen (snd s') n)) /\
    (~ In n (map bname bodies) -> mfind (fst s') n = None /\ mfind (snd s') n = None).
Proof.
  intros Pf Pv Nd F1 F2. assert (St := stays_all p Pf Pv).
  assert (R : exists s', urdf_visuals p (urdf_links W bodies s) = Ok s').
  { apply urdf_readable_iff. intros l Hl. cbn [urdf_links uvr_links uvr_materials] in Hl. apply in_map_iff in Hl. destruct Hl as (b & <- & Hb). exists (bname b). split; [reflexivity|].
    intros _ u Hu. cbn [uvl_visual uvl_collision] in Hu. right. cbn [urdf_links uvr_materials].
    destruct (back_visuals (bname b) (fst s) F1) as (a & A1 & _). destruct (back_visuals (bname b) (snd s) F2) as (c & C1 & _).
    assert (Z := Forall2_app A1 C1). clear - Z Hu. induction Z as [|x y lx ly Hx Z IH]; [destruct Hu|]. destruct Hu as [<-|Hu]; [now exists y|auto]. }
  destruct R as (s' & R). exists s'. split; [exact R|]. intro n.
  destruct (urdf_read_visuals p _ s' R n) as (V1 & V2 & V3 & V4). cbn [urdf_links uvr_materials] in V1, V2.
  assert (El : forall f, urdf_elements p (urdf_links W bodies s) f n =
    flat_map (fun b => filter (fun u => is_there (uv_geometry u)) (f (mkUVL (Some (bname b)) (has_inertial (binertia b)) (wr_visuals W (fst s) (bname b)) (wr_visuals W (snd s) (bname b)))))
      (filter (fun b => String.eqb (bname b) n) bodies)).
  { intro f. unfold urdf_elements. cbn [urdf_links uvr_links]. rewrite filter_map_comm, flat_map_concat_map, map_map, <- flat_map_concat_map. f_equal.
    apply filter_ext. intro b. cbn [uvl_name uvl_inertial given]. rewrite St. apply andb_true_r. }
  split.
  - intro Hn. apply in_map_iff in Hn. destruct Hn as (b & <- & Hb). rewrite El, (name_list bname bodies b Nd Hb) in V1, V2. cbn [flat_map uvl_visual uvl_collision] in V1, V2.
    rewrite app_nil_r in V1, V2.
    destruct (back_visuals (bname b) (fst s) F1) as (a & A1 & A2 & A3). destruct (back_visuals (bname b) (snd s) F2) as (c & C1 & C2 & C3).
    rewrite A3 in V1. rewrite C3 in V2.
    assert (U : forall l x y, Forall2 (urdf_visual []) l x -> Forall2 (urdf_visual []) l y -> x = y).
    { induction l as [|u l IH]; intros x y Hx Hy; inversion Hx; inversion Hy; subst; [reflexivity|]. f_equal; [now apply (urdf_visual_fun [] u)|now apply IH]. }
    rewrite (U _ _ _ V1 A1), (U _ _ _ V2 C1). split; [exact A2|exact C2].
  - intro Hn. rewrite El, (name_none bname bodies n Hn) in V1, V2. cbn in V1, V2. unfold seen in V1, V2.
    destruct (mfind (fst s') n) as [x|]; [inversion V1; subst; contradiction|]. destruct (mfind (snd s') n) as [x|]; [inversion V2; subst; contradiction|]. auto.
Qed.
End urdf.

(** ** YAML. *)
Section yaml.
Variable euler : M3 -> V3.
Hypothesis Eo : euler_ok euler.
Lemma yback_geometry g : g <> GUnknown -> exists g', parseGeometry (Some (yw_geometry g)) = Ok (Some g') /\ same_shape g g' /\ yw_geometry g <> [].
Proof.
  intro H. destruct g; try contradiction; cbn; eexists; (split; [reflexivity|]); (split; [|discriminate]); cbn; rewrite ?v3_eta; reflexivity.
Qed.
Lemma yback_material n i m : exists m', parseMaterial [] (yw_material n i m) MNone = Ok m' /\ same_material m m'.
Proof.
  destruct m; cbn; try (eexists; split; [reflexivity|reflexivity]).
  destruct (String.eqb (prefix_path filename) EmptyString) eqn:E; [apply String.eqb_eq in E; exfalso; now apply (prefix_nonempty filename)|].
  eexists. split; reflexivity.
Qed.
Lemma yback_visual n i v : known v = true -> (let X := v_origin v in SO3 (rotE X) /\ visible (trR X) /\ visible (euler (mtr (rotE X)))) ->
  exists u v', yw_visual euler n i v = [u] /\ yaml_has u = true /\ parseVisual false [] u = Ok (Some v') /\ comes_back v v'.
Proof.
  intros K (S & V1 & V2). unfold yw_visual.
  assert (Kg : v_geometry v <> GUnknown) by (unfold known in K; intro F; now rewrite F in K).
  destruct (yback_geometry (v_geometry v) Kg) as (g & Eg & Sg & Ng). destruct (yback_material n i (v_material v)) as (m & Em & Sm).
  set (u := mkYV None (yw_frame euler (v_origin v)) (yw_material n i (v_material v)) (Some (yw_geometry (v_geometry v)))).
  exists u, (mkVis EmptyString (v_origin v) g m). split; [|split; [|split]].
  - unfold u. destruct (v_geometry v); try reflexivity. contradiction.
  - unfold yaml_has. cbn [u yv_geometry]. now destruct (yw_geometry (v_geometry v)).
  - unfold parseVisual. cbn [u yv_geometry yv_frame yv_name yv_material as_or].
    assert (Ex := yaml_frame_rt euler (v_origin v) Eo S V1 V2). unfold yaml_pt in Ex.
    destruct (parseFrame false (yw_frame euler (v_origin v))) as [[xyz rpy]| | |]; try discriminate. cbn [bind fst snd] in *. injection Ex as Ex.
    rewrite Em. cbn [bind]. rewrite Eg. cbn [bind]. now rewrite Ex.
  - split; [reflexivity|]. split; [reflexivity|]. split; [exact Sg|exact Sm].
Qed.
Lemma yunknown n i v : known v = false -> yw_visual euler n i v = [].
Proof. unfold known, yw_visual. now destruct (v_geometry v). Qed.
Lemma yback_list n l : forall i,
  (forall v, In v l -> let X := v_origin v in SO3 (rotE X) /\ visible (trR X) /\ visible (euler (mtr (rotE X)))) ->
  exists vs, Forall2 (fun u v => parseVisual false [] u = Ok (Some v)) (yw_from euler n i l) vs /\ Forall2 comes_back (filter known l) vs /\
    filter yaml_has (yw_from euler n i l) = yw_from euler n i l.
Proof.
  induction l as [|v l IH]; intros i A; cbn [yw_from filter]; [exists []; split; [constructor|]; split; [constructor|reflexivity]|].
  destruct (IH (S i)) as (vs & F1 & F2 & F3); [intros x Hx; apply A; now right|]. destruct (known v) eqn:K.
  - destruct (yback_visual n i v K (A v (or_introl eq_refl))) as (u & v' & -> & B1 & B2 & B3).
    exists (v' :: vs). cbn [app filter]. rewrite B1, F3. split; [now constructor|]. split; [now constructor|reflexivity].
  - rewrite (yunknown n i v K). now exists vs.
Qed.
Lemma yback_visuals n m : yaml_frames euler m ->
  exists vs, Forall2 (fun u v => parseVisual false [] u = Ok (Some v)) (yw_visuals euler m n) vs /\ Forall2 comes_back (filter known (seen m n)) vs /\
    filter yaml_has (yw_visuals euler m n) = yw_visuals euler m n.
Proof.
  intro F1. unfold yw_visuals. unfold seen. destruct (mfind m n) as [l|] eqn:E; [|exists []; split; [constructor|]; split; [constructor|reflexivity]].
  apply yback_list. intros v Hv. apply (F1 n). unfold seen. now rewrite E.
Qed.
Lemma kept_named p bodies (f : Body -> YVLink) : (forall n b, stays p n b = true) -> (forall b, yvl_name (f b) = Some (bname b)) ->
  forall i, yaml_kept p i (map f bodies) = map (fun b => (bname b, f b)) bodies.
Proof.
  intros St Hf. induction bodies as [|b l IH]; intro i; [reflexivity|]. cbn. rewrite Hf. cbn [given]. rewrite St. now rewrite IH.
Qed.
Lemma yaml_visual_fun l u v v' : yaml_visual false l u v -> parseVisual false [] u = Ok (Some v') -> l = [] -> v = v'.
Proof.
  intros (g & G1 & G2 & G3 & G4 & G5) H ->. destruct (parse_inv false [] [] eq_refl u _ H) as (_ & _ & g' & G1' & G2' & G3' & G4' & G5').
  rewrite G1 in G1'. injection G1' as <-. assert (A := yaml_geometry_fun _ _ _ G2 G2').
  apply frame_at_iff in G3. apply frame_at_iff in G3'. destruct G3 as (x & y & P & Q). destruct G3' as (x' & y' & P' & Q'). rewrite P in P'. injection P' as <- <-.
  assert (B : v_origin v = v_origin v') by congruence.
  assert (C : v_material v = v_material v').
  { assert (Ns : forall n m, ~ yaml_shared [] n m) by (intros n m (l1 & z & l2 & E & _); now apply app_cons_not_nil in E).
    assert (On : forall m a b, yaml_own m a -> yaml_own m b -> a = b) by (intros m a b Ha Hb; apply own_of_some in Ha; apply own_of_some in Hb; congruence).
    inversion G5 as [E|m0 N0 E|m0 n0 a0 N0 O0 E|m0 n0 a0 N0 O0 S0 E|m0 n0 N0 O0 S0 E]; subst;
      inversion G5' as [F|m1 N1 F|m1 n1 a1 N1 O1 F|m1 n1 a1 N1 O1 S1 F|m1 n1 N1 O1 S1 F]; subst; try congruence;
      repeat match goal with
             | E : Some ?a = yv_material u, F : Some ?b = yv_material u |- _ => rewrite <- E in F; injection F as F; subst
             end; try reflexivity;
      try (exfalso; eapply Ns; eassumption); try (exfalso; eapply N0; eassumption); try (exfalso; eapply N1; eassumption);
      try (eapply On; eassumption); try (exfalso; eapply O0; eassumption); try (exfalso; eapply O1; eassumption). }
  destruct v, v'. cbn in *. subst. f_equal.
Qed.
Lemma back_yaml p bodies s : pp_filtered p = [] -> pp_remove_virtual p = false -> NoDup (map bname bodies) ->
  yaml_frames euler (fst s) -> yaml_frames euler (snd s) ->
  exists s', yaml_visuals p (yaml_links euler bodies s) = Ok s' /\ forall n,
    (In n (map bname bodies) -> Forall2 comes_back (filter known (seen (fst s) n)) (seen (fst s') n) /\ Forall2 comes_back (filter known (seen (snd s) n)) (seen (snd s') n)) /\
    (~ In n (map bname bodies) -> mfind (fst s') n = None /\ mfind (snd s') n = None).
Proof.
  intros Pf Pv Nd F1 F2. assert (St := stays_all p Pf Pv).
  set (f := fun b => mkYVL (Some (bname b)) (has_inertial (binertia b)) (yw_visuals euler (fst s) (bname b)) (yw_visuals euler (snd s) (bname b))).
  assert (Ek : yaml_kept p 1 (yvr_links (yaml_links euler bodies s)) = map (fun b => (bname b, f b)) bodies) by (apply (kept_named p bodies f St); reflexivity).
  assert (R : exists s', yaml_visuals p (yaml_links euler bodies s) = Ok s').
  { apply yaml_readable_iff. split; [intros m []|]. intros k u Hk Hu. rewrite Ek in Hk. apply in_map_iff in Hk. destruct Hk as (b & <- & Hb).
    cbn [snd f yvl_visual yvl_collision] in Hu.
    destruct (yback_visuals (bname b) (fst s) F1) as (a & A1 & _). destruct (yback_visuals (bname b) (snd s) F2) as (c & C1 & _).
    assert (Z := Forall2_app A1 C1).
    assert (exists v, parseVisual false [] u = Ok (Some v)) as (v & Hv).
    { clear - Z Hu. induction Z as [|x y lx ly Hx Z IH]; [destruct Hu|]. destruct Hu as [<-|Hu]; [now exists y|auto]. }
    exact (proj1 (parse_inv false [] [] eq_refl u _ Hv)). }
  destruct R as (s' & R). exists s'. split; [exact R|]. intro n.
  destruct (yaml_read_visuals p _ s' R n) as (V1 & V2 & V3 & V4). cbn [yaml_links yvr_materials yvr_deg] in V1, V2.
  assert (El : forall h, yaml_elements p (yaml_links euler bodies s) h n = flat_map (fun b => filter yaml_has (h (f b))) (filter (fun b => String.eqb (bname b) n) bodies)).
  { intro h. unfold yaml_elements. rewrite Ek, filter_map_comm, flat_map_concat_map, map_map, <- flat_map_concat_map. reflexivity. }
  split.
  - intro Hn. apply in_map_iff in Hn. destruct Hn as (b & <- & Hb). rewrite El, (name_list bname bodies b Nd Hb) in V1, V2. cbn [flat_map f yvl_visual yvl_collision] in V1, V2.
    rewrite app_nil_r in V1, V2.
    destruct (yback_visuals (bname b) (fst s) F1) as (a & A1 & A2 & A3). destruct (yback_visuals (bname b) (snd s) F2) as (c & C1 & C2 & C3).
    rewrite A3 in V1. rewrite C3 in V2.
    assert (U : forall l x y, Forall2 (yaml_visual false []) l x -> Forall2 (fun u v => parseVisual false [] u = Ok (Some v)) l y -> x = y).
    { induction l as [|u l IH]; intros x y Hx Hy; inversion Hx; inversion Hy; subst; [reflexivity|]. f_equal; [now apply (yaml_visual_fun [] u)|now apply IH]. }
    rewrite (U _ _ _ V1 A1), (U _ _ _ V2 C1). split; [exact A2|exact C2].
  - intro Hn. rewrite El, (name_none bname bodies n Hn) in V1, V2. cbn in V1, V2. unfold seen in V1, V2.
    destruct (mfind (fst s') n) as [x|]; [inversion V1; subst; contradiction|]. destruct (mfind (snd s') n) as [x|]; [inversion V2; subst; contradiction|]. auto.
Qed.
End yaml.
