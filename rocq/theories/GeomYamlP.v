(** Lemmas: visual and collision elements of YAML documents. *)
From Coq Require Import Reals String ZArith Bool Arith List Lia.
From Verif Require Import Res ResP SMap Vec VecP Sva JointM MultiBodyM ParserM YamlM GeomM Spec SpecParser SpecGeom ParserP ParserRotP ParserRtP GeomP.
Import ListNotations.
Open Scope R_scope.

Lemma elems_iff {A} (l : list (yv A)) : forall v, elems l = Ok v <-> l = map YNum v.
Proof.
  induction l as [|[a|l'|] l IH]; intro v; cbn.
  - split; [intro H; now injection H as <-|destruct v; [reflexivity|discriminate]].
  - destruct (elems l) as [w| | |] eqn:E; cbn.
    + split; [intro H; injection H as <-; cbn; f_equal; now apply IH|destruct v as [|x v]; cbn; [discriminate|]].
      intro H. injection H as -> H. apply IH in H. congruence.
    + split; [discriminate|]. destruct v as [|x v]; [discriminate|]. intro H. injection H as -> H. apply IH in H. discriminate.
    + split; [discriminate|]. destruct v as [|x v]; [discriminate|]. intro H. injection H as -> H. apply IH in H. discriminate.
    + split; [discriminate|]. destruct v as [|x v]; [discriminate|]. intro H. injection H as -> H. apply IH in H. discriminate.
  - split; [discriminate|destruct v; discriminate].
  - split; [discriminate|destruct v; discriminate].
Qed.
Lemma elems_bad {A} (l : list (yv A)) : (exists v, elems l = Ok v) \/ elems l = Throw RuntimeError.
Proof.
  induction l as [|[a|l'|] l IH]; cbn; auto; [left; now exists []|]. destruct IH as [(v & ->)| ->]; [left; now exists (a :: v)|now right].
Qed.
Lemma vec_req_iff o l : as_vec_req o = Ok l <-> given_vec o l.
Proof.
  unfold as_vec_req, given_vec, as_vec. destruct o as [[a|y|]|]; try (split; discriminate). rewrite elems_iff. split; [now intros ->|intro H; now injection H].
Qed.
Lemma num_req_iff o x : as_num_req o = Ok x <-> given_num o x.
Proof. unfold as_num_req, given_num. destruct o as [[a|y|]|]; try (split; discriminate). split; [intro H; now injection H as ->|intro H; now injection H as ->]. Qed.
Lemma three_data_iff l v : three_of_data l = Ok v <-> exists more, l = vec3 v ++ more.
Proof.
  split.
  - destruct l as [|x [|y [|z l]]]; try discriminate. intro H. injection H as <-. now exists l.
  - intros (more & ->). cbn. now rewrite v3_eta.
Qed.
Lemma map_YNum_inj {A} (l l' : list A) : map YNum l = map YNum l' -> l = l'.
Proof. revert l'. induction l as [|a l IH]; intros [|b l']; cbn; intro H; try discriminate; [reflexivity|]. injection H as -> H. f_equal. auto. Qed.

Ltac res_step := match goal with
  | H : (x <- ?r ;; _) = Ok _ |- _ => let E := fresh "E" in destruct r eqn:E; cbn [bind] in H; try discriminate H
  end.
Lemma shape_yaml_iff s t g : yaml_shape s t g <-> parseShape t s = Ok g.
Proof.
  split.
  - intros [f v F S|f x F S|f F S|v more S|r l A B|r A|v more a b S A B]; unfold parseShape; cbn [String.eqb Ascii.eqb Bool.eqb].
    + rewrite F. cbn. unfold given_vec in S. rewrite S. cbn. now rewrite v3_eta.
    + rewrite F. cbn. unfold given_vec in S. rewrite S. reflexivity.
    + rewrite F. cbn. destruct (ys_scale s) as [[y|l|]|]; try reflexivity. exfalso. now apply (S l).
    + apply vec_req_iff in S. rewrite S. cbn. now rewrite v3_eta.
    + apply num_req_iff in A. apply num_req_iff in B. now rewrite A, B.
    + apply num_req_iff in A. now rewrite A.
    + apply vec_req_iff in S. apply num_req_iff in A. apply num_req_iff in B. rewrite S. cbn. rewrite A. cbn. rewrite B. cbn. now rewrite v3_eta.
  - unfold parseShape.
    destruct (String.eqb t "mesh") eqn:T1; [|destruct (String.eqb t "box") eqn:T2; [|destruct (String.eqb t "cylinder") eqn:T3;
      [|destruct (String.eqb t "sphere") eqn:T4; [|destruct (String.eqb t "superellipsoid") eqn:T5]]]]; try discriminate;
      match goal with T : String.eqb t _ = true |- _ => apply String.eqb_eq in T; subst t end.
    + intro H. destruct (ys_filename s) as [f|] eqn:Ef; [|discriminate]. cbn [as_str_req bind] in H.
      destruct (ys_scale s) as [[y|l|]|] eqn:Es; cbn [as_vec_def] in H.
      * injection H as <-. apply ys_mesh_plain; [exact Ef|]. rewrite Es. discriminate.
      * destruct (elems l) as [v| | |] eqn:El; try discriminate. apply elems_iff in El. subst l. cbn [bind] in H.
        destruct v as [|x [|y [|z [|]]]]; try discriminate; injection H as <-.
        -- now apply ys_mesh_uniform.
        -- now apply ys_mesh.
      * injection H as <-. apply ys_mesh_plain; [exact Ef|]. rewrite Es. discriminate.
      * injection H as <-. apply ys_mesh_plain; [exact Ef|]. rewrite Es. discriminate.
    + intro H. repeat res_step. injection H as <-. apply vec_req_iff in E. apply three_data_iff in E0. destruct E0 as (more & ->). now apply (ys_box s _ more).
    + intro H. repeat res_step. injection H as <-. apply num_req_iff in E. apply num_req_iff in E0. now apply ys_cylinder.
    + intro H. repeat res_step. injection H as <-. apply num_req_iff in E. now apply ys_sphere.
    + intro H. repeat res_step. injection H as <-. apply vec_req_iff in E. apply three_data_iff in E0. destruct E0 as (more & ->).
      apply num_req_iff in E1. apply num_req_iff in E2. now apply (ys_superellipsoid s _ more).
Qed.
Lemma geometry_loop l : forall o g, for_each l (fun e _ => x <- parseShape (fst e) (snd e) ;; Ok (Some x)) o = Ok g ->
  (l = [] /\ g = o) \/ exists x, g = Some x /\ yaml_geometry l x.
Proof.
  induction l as [|[t s] l IH]; cbn; intros o g H; [left; split; congruence|]. right.
  destruct (parseShape t s) as [x| | |] eqn:E; try discriminate. cbn [bind] in H. apply shape_yaml_iff in E.
  destruct (IH _ _ H) as [(-> & ->)|(y & -> & l' & t' & s' & -> & Hs & Hl)].
  - exists x. split; [reflexivity|]. exists [], t, s. split; [reflexivity|]. split; [exact E|]. intros t' s' [].
  - exists y. split; [reflexivity|]. exists ((t, s) :: l'), t', s'. split; [reflexivity|]. split; [exact Hs|].
    intros t'' s'' [H'|H']; [injection H' as <- <-; now exists x|now apply (Hl t'')].
Qed.
Lemma geometry_loop_ok l : forall o, (forall t s, In (t, s) l -> exists g, yaml_shape s t g) ->
  exists g, for_each l (fun e _ => x <- parseShape (fst e) (snd e) ;; Ok (Some x)) o = Ok g.
Proof.
  induction l as [|[t s] l IH]; cbn; intros o A; [now exists o|]. destruct (A t s (or_introl eq_refl)) as (x & Hx). apply shape_yaml_iff in Hx. rewrite Hx.
  cbn [bind]. apply IH. intros t' s' H. apply A. now right.
Qed.
Lemma yaml_geometry_fun l g g' : yaml_geometry l g -> yaml_geometry l g' -> g = g'.
Proof.
  intros (a & t & s & -> & S & _) (a' & t' & s' & E & S' & _). apply app_inj_tail in E. destruct E as (_ & E). injection E as <- <-.
  apply shape_yaml_iff in S. apply shape_yaml_iff in S'. congruence.
Qed.
Lemma parseGeometry_some g x : parseGeometry g = Ok (Some x) <-> exists l, g = Some l /\ yaml_geometry l x.
Proof.
  split.
  - destruct g as [l|]; [|discriminate]. intro H. exists l. split; [reflexivity|]. destruct (geometry_loop _ _ _ H) as [(_ & F)|(y & F & G)]; congruence.
  - intros (l & -> & G). cbn. destruct (geometry_loop_ok l None) as (o & Ho).
    { destruct G as (l' & t & s & -> & Hs & Hl). intros t' s' H. apply in_app_or in H. destruct H as [H|[H|[]]]; [now apply Hl|injection H as <- <-; now exists x]. }
    rewrite Ho. destruct (geometry_loop _ _ _ Ho) as [(-> & _)|(y & -> & Gy)].
    + destruct G as (l' & t & s & E & _). now apply app_cons_not_nil in E.
    + now rewrite (yaml_geometry_fun _ _ _ Gy G).
Qed.
Lemma parseGeometry_none g : parseGeometry g = Ok None <-> (g = None \/ g = Some []).
Proof.
  split; [|intros [->| ->]; reflexivity]. destruct g as [l|]; [|auto]. intro H. right. destruct (geometry_loop _ _ _ H) as [(-> & _)|(y & F & _)]; [reflexivity|discriminate].
Qed.

(** ** Frames. *)
Lemma vec3_inj v w : vec3 v = vec3 w -> v = w.
Proof. destruct v, w. cbn. intro H. injection H as -> -> ->. reflexivity. Qed.
Lemma three_iff l v : three l = Ok v <-> l = vec3 v.
Proof.
  split.
  - destruct l as [|x [|y [|z [|]]]]; try discriminate. intro H. now injection H as <-.
  - intros ->. cbn. now rewrite v3_eta.
Qed.
Lemma opt_vec_iff (o : option (yv R)) v : match o with Some y => l <- as_vec y ;; three l | None => Ok v0 end = Ok v <-> vec_or_zero o v.
Proof.
  unfold vec_or_zero, given_vec. destruct o as [y|].
  - split.
    + intro H. left. destruct (as_vec y) as [l| | |] eqn:E; try discriminate. cbn [bind] in H. apply three_iff in H. subst l.
      change (as_vec_req (Some y) = Ok (vec3 v)) in E. now apply vec_req_iff in E.
    + intros [H|(H & _)]; [|discriminate]. injection H as ->. cbn. now rewrite v3_eta.
  - split; [intro H; right; split; [reflexivity|congruence]|]. intros [H|(_ & ->)]; [discriminate|reflexivity].
Qed.
Lemma frame_at_iff deg f X : yaml_frame_at deg f X <->
  exists xyz rpy, parseFrame deg f = Ok (xyz, rpy) /\ X = mkPT (MatrixFromRPY (vx rpy) (vy rpy) (vz rpy)) xyz.
Proof.
  assert (E0 : MatrixFromRPY 0 0 0 = mid) by (rewrite MatrixFromRPY_eq, euler_0; reflexivity).
  split.
  - intros [|u v w Hv Hw k].
    + exists v0, v0. split; [reflexivity|]. cbn. rewrite E0. reflexivity.
    + exists v, (vscale k w). split; [|rewrite MatrixFromRPY_eq; reflexivity].
      cbn [parseFrame]. apply opt_vec_iff in Hv. rewrite Hv. cbn [bind].
      unfold vec_or_zero, given_vec in Hw. destruct Hw as [Hw|(Hw & ->)]; rewrite Hw; cbn.
      * rewrite v3_eta. unfold k, given, as_or. destruct (yf_deg u) as [[]|], deg; cbn; unfold vscale; cbn; rewrite ?Rmult_1_l, ?v3_eta; reflexivity.
      * unfold vscale; cbn. rewrite !Rmult_0_r. reflexivity.
  - intros (xyz & rpy & H & ->). destruct f as [u|]; [|cbn in H; injection H as <- <-; cbn; rewrite E0; constructor].
    cbn [parseFrame] in H.
    destruct (match yf_xyz u with Some y => l <- as_vec y ;; three l | None => Ok v0 end) as [v| | |] eqn:Ev; try discriminate. cbn [bind] in H.
    apply opt_vec_iff in Ev. rewrite MatrixFromRPY_eq.
    set (k := if given (yf_deg u) deg then PI / 180 else 1).
    assert (Hw : exists w, vec_or_zero (yf_rpy u) w /\ rpy = vscale k w /\ xyz = v).
    { destruct (yf_rpy u) as [y|] eqn:Er.
      - destruct (as_vec y) as [l| | |] eqn:El; try discriminate. cbn [bind] in H. destruct (three l) as [w| | |] eqn:Ew; try discriminate. cbn [bind] in H.
        exists w. split; [|injection H as -> <-; split; [|reflexivity]].
        + apply opt_vec_iff. rewrite El. exact Ew.
        + unfold k, given, as_or. destruct (yf_deg u) as [[]|], deg; cbn; unfold vscale; cbn; rewrite ?Rmult_1_l, ?v3_eta; reflexivity.
      - cbn in H. injection H as -> <-. exists v0. split; [right; split; reflexivity|]. split; [|reflexivity]. unfold vscale. cbn [v0 vx vy vz]. rewrite !Rmult_0_r. reflexivity. }
    destruct Hw as (w & Hw & -> & ->). exact (yfa_some deg u v w Ev Hw).
Qed.

(** ** Materials. *)
Definition own_of (u : YMat) : res (option Material) :=
  match ymt_color u with
  | Some rgba => l <- as_vec_req rgba ;; Ok (match l with [r; g; b; a] => Some (MColor r g b a) | _ => None end)
  | None => Ok (match ymt_texture u with Some f => if String.eqb (as_or f EmptyString) EmptyString then None else Some (MTexture (as_or f EmptyString)) | None => None end)
  end.
Lemma own_of_some u m : own_of u = Ok (Some m) <-> yaml_own u m.
Proof.
  unfold own_of. split.
  - destruct (ymt_color u) as [y|] eqn:E.
    + destruct (as_vec_req y) as [l| | |] eqn:El; try discriminate. cbn [bind]. destruct l as [|r [|g [|b [|a [|]]]]]; try discriminate.
      intro H. injection H as <-. apply vec_req_iff in El. now apply (yw_color u r g b a y).
    + destruct (ymt_texture u) as [[f|]|] eqn:Ft; cbn [as_or]; try discriminate. destruct (String.eqb f EmptyString) eqn:Ef; try discriminate.
      intro H. injection H as <-. apply yw_texture; auto. now apply String.eqb_neq.
  - intros [r g b a y E H|f E H N]; rewrite E.
    + apply vec_req_iff in H. now rewrite H.
    + rewrite H. cbn. apply String.eqb_neq in N. now rewrite N.
Qed.
Lemma own_of_ok u n : yaml_name u n -> (exists o, own_of u = Ok o) <-> yaml_mat_ok u.
Proof.
  intro Hn. unfold own_of, yaml_mat_ok. destruct (ymt_color u) as [y|] eqn:E.
  - split.
    + intros (o & H) n' _. right. destruct (as_vec_req y) as [l| | |] eqn:El; try discriminate. exists y, l. split; [reflexivity|now apply vec_req_iff].
    + intro H. destruct (H n Hn) as [F|(y' & l & F & G)]; [discriminate|]. injection F as <-. apply vec_req_iff in G. rewrite G. cbn. eexists. reflexivity.
  - split; [now left|]. intros _. eexists. reflexivity.
Qed.
Lemma name_iff u n : yaml_name u n <-> (as_or (ymt_name u) EmptyString = n /\ String.eqb n EmptyString = false).
Proof.
  unfold yaml_name. rewrite String.eqb_neq. destruct (ymt_name u) as [m|]; cbn; split.
  - intros (H & N). injection H as ->. auto.
  - intros (-> & N). auto.
  - intros (H & _). discriminate.
  - intros (<- & N). contradiction.
Qed.
Lemma name_dec u : (exists n, yaml_name u n) \/ (forall n, ~ yaml_name u n) /\ String.eqb (as_or (ymt_name u) EmptyString) EmptyString = true.
Proof.
  destruct (String.eqb (as_or (ymt_name u) EmptyString) EmptyString) eqn:E.
  - right. split; [|reflexivity]. intros n H. apply name_iff in H. destruct H as (<- & H). congruence.
  - left. exists (as_or (ymt_name u) EmptyString). now apply name_iff.
Qed.
Lemma parseMaterial_eq c u n out : yaml_name u n ->
  parseMaterial c (Some u) out = (o <- own_of u ;; Ok (as_or o (match mfind c n with Some m => m | None => out end))).
Proof.
  intro H. apply name_iff in H. destruct H as (Hn & He). unfold parseMaterial, own_of. rewrite Hn, He.
  destruct (ymt_color u) as [y|].
  - destruct (as_vec_req y) as [l| | |]; cbn; try reflexivity. destruct l as [|r [|g [|b [|a [|]]]]]; reflexivity.
  - destruct (ymt_texture u) as [[f|]|]; cbn; try reflexivity. now destruct (String.eqb f EmptyString).
Qed.
Lemma parseMaterial_unnamed c u out : (forall n, ~ yaml_name u n) -> parseMaterial c (Some u) out = Ok out.
Proof.
  intro H. unfold parseMaterial. destruct (String.eqb (as_or (ymt_name u) EmptyString) EmptyString) eqn:E; [reflexivity|].
  exfalso. apply (H (as_or (ymt_name u) EmptyString)). now apply name_iff.
Qed.
Definition look (c : smap Material) (n : string) : Material := as_or (mfind c n) MNone.
Lemma cache_step u c c' : yaml_cache_material u c = Ok c' ->
  yaml_mat_ok u /\ forall n, (forall m, yaml_name u n -> yaml_own u m -> look c' n = m) /\
    (~ yaml_name u n \/ (forall m, ~ yaml_own u m) -> look c' n = look c n).
Proof.
  unfold yaml_cache_material. destruct (String.eqb (as_or (ymt_name u) EmptyString) EmptyString) eqn:E.
  - assert (N : forall n, ~ yaml_name u n) by (intros n H; apply name_iff in H; destruct H as (<- & H); congruence).
    intro H. injection H as <-. split; [intros n Hn; exfalso; now apply (N n)|]. intro n. split; [intros m Hn; exfalso; now apply (N n)|reflexivity].
  - set (n0 := as_or (ymt_name u) EmptyString) in *. assert (Hn : yaml_name u n0) by now apply name_iff.
    rewrite (parseMaterial_eq _ u n0 _ Hn), mfind_mset_eq. destruct (own_of u) as [o| | |] eqn:Eo; try discriminate. cbn [bind]. intro H. injection H as <-.
    split; [apply (own_of_ok u n0 Hn); now exists o|]. intro n.
    assert (Hu : forall n', yaml_name u n' -> n' = n0) by (intros n' Hn'; apply name_iff in Hn'; destruct Hn' as (<- & _); reflexivity).
    unfold look. split.
    + intros m Hm Ho. rewrite (Hu n Hm), mfind_mset_eq. apply own_of_some in Ho. rewrite Ho in Eo. injection Eo as <-. reflexivity.
    + intros Hno. destruct (string_dec n n0) as [->|Ne].
      * rewrite mfind_mset_eq. destruct Hno as [Hno|Hno]; [contradiction|]. destruct o as [m|]; [exfalso; apply (Hno m); now apply own_of_some|reflexivity].
      * rewrite !mfind_mset_neq by congruence. reflexivity.
Qed.
Lemma cache_step_ok u c : yaml_mat_ok u -> exists c', yaml_cache_material u c = Ok c'.
Proof.
  intro H. unfold yaml_cache_material. destruct (String.eqb (as_or (ymt_name u) EmptyString) EmptyString) eqn:E; [now exists c|].
  set (n0 := as_or (ymt_name u) EmptyString) in *. assert (Hn : yaml_name u n0) by now apply name_iff.
  rewrite (parseMaterial_eq _ u n0 _ Hn). destruct (proj2 (own_of_ok u n0 Hn) H) as (o & ->). cbn. eexists. reflexivity.
Qed.
Lemma name_own_dec u n : (exists m, yaml_name u n /\ yaml_own u m) \/ (~ yaml_name u n \/ (forall m, ~ yaml_own u m)).
Proof.
  destruct (own_of u) as [[m|]| | |] eqn:E.
  - destruct (string_dec (as_or (ymt_name u) EmptyString) n) as [Hn|Hn].
    + destruct (String.eqb n EmptyString) eqn:Ee.
      * right. left. intro H. apply name_iff in H. destruct H; congruence.
      * left. exists m. split; [now apply name_iff|now apply own_of_some].
    + right. left. intro H. apply name_iff in H. destruct H; congruence.
  - right. right. intros m H. apply own_of_some in H. congruence.
  - right. right. intros m H. apply own_of_some in H. congruence.
  - right. right. intros m H. apply own_of_some in H. congruence.
  - right. right. intros m H. apply own_of_some in H. congruence.
Qed.
Lemma shared_exists n l : (exists u m, In u l /\ yaml_name u n /\ yaml_own u m) -> exists m, yaml_shared l n m.
Proof.
  assert (K : (exists m, yaml_shared l n m) \/ forall u m, In u l -> yaml_name u n -> ~ yaml_own u m).
  { induction l as [|x l IH]; [right; intros u m []|]. destruct IH as [(m & l1 & y & l2 & -> & H)|IH].
    - left. exists m, (x :: l1), y, l2. split; [reflexivity|exact H].
    - destruct (name_own_dec x n) as [(m & Hn & Ho)|Hd].
      + left. exists m, [], x, l. split; [reflexivity|]. split; [exact Hn|]. split; [exact Ho|exact IH].
      + right. intros u m [<-|Hi] Hn Ho; [destruct Hd as [Hd|Hd]; [contradiction|now apply (Hd m)]|now apply (IH u m)]. }
  intros (u & m & Hi & Hn & Ho). destruct K as [K|K]; [exact K|]. exfalso. now apply (K u m).
Qed.
Lemma yaml_cache_inv l : forall c c', for_each l yaml_cache_material c = Ok c' ->
  (forall u, In u l -> yaml_mat_ok u) /\
  forall n, (forall m, yaml_shared l n m -> look c' n = m) /\ ((forall m, ~ yaml_shared l n m) -> look c' n = look c n).
Proof.
  induction l as [|u l IH]; cbn; intros c c' H.
  - injection H as <-. split; [intros u []|]. intro n. split; [|reflexivity]. intros m (l1 & x & l2 & E & _). now apply app_cons_not_nil in E.
  - destruct (yaml_cache_material u c) as [c1| | |] eqn:E; try discriminate. cbn [bind] in H.
    destruct (cache_step _ _ _ E) as (A1 & A2). destruct (IH _ _ H) as (B1 & B2).
    split; [intros x [<-|Hx]; auto|]. intro n. destruct (A2 n) as (P1 & P2). destruct (B2 n) as (Q1 & Q2). split.
    + intros m ([|x l1] & y & l2 & F & Hy & Hm & Hl).
      * injection F as <- <-. rewrite Q2; [now apply P1|]. intros m' (l1 & z & l3 & -> & Hz & Hm' & _).
        apply (Hl z m'); [apply in_or_app; right; now left|exact Hz|exact Hm'].
      * injection F as <- ->. apply Q1. now exists l1, y, l2.
    + intro N. rewrite Q2.
      * apply P2. destruct (name_own_dec u n) as [(m & Hn & Ho)|Hd]; [|exact Hd]. exfalso.
        destruct (shared_exists n (u :: l)) as (m' & Hm'); [exists u, m; split; [now left|auto]|now apply (N m')].
      * intros m (l1 & y & l2 & -> & R). apply (N m). exists (u :: l1), y, l2. split; [reflexivity|exact R].
Qed.

(** ** Elements. *)
Section yaml.
Variable p : PParams.
Variable deg : bool.
Variable mats : list YMat.
Variable c : smap Material.
Hypothesis Hc : for_each mats yaml_cache_material [] = Ok c.
Lemma material_inv o m : parseMaterial c o MNone = Ok m -> yaml_material mats o m /\ forall u, o = Some u -> yaml_mat_ok u.
Proof.
  destruct o as [u|]; [|intro H; injection H as <-; split; [constructor|discriminate]].
  destruct (name_dec u) as [(n & Hn)|(N & _)].
  - rewrite (parseMaterial_eq c u n MNone Hn). destruct (own_of u) as [o| | |] eqn:E; try discriminate. cbn [bind]. intro H. injection H as <-.
    split; [|intros x Hx; injection Hx as <-; apply (own_of_ok u n Hn); now exists o].
    destruct o as [m|]; cbn [as_or]; [apply (ym_own mats u n); [exact Hn|now apply own_of_some]|].
    assert (No : forall m', ~ yaml_own u m') by (intros m' Ho; apply own_of_some in Ho; congruence).
    destruct (yaml_cache_inv mats [] c Hc) as (_ & L). destruct (L n) as (L1 & L2).
    assert (El : match mfind c n with Some m => m | None => MNone end = look c n) by (unfold look; now destruct (mfind c n)). rewrite El.
    assert (Sd : (exists m, yaml_shared mats n m) \/ forall m, ~ yaml_shared mats n m).
    { assert (K : (exists u m, In u mats /\ yaml_name u n /\ yaml_own u m) \/ forall u m, In u mats -> yaml_name u n -> ~ yaml_own u m).
      { clear. induction mats as [|x l IH]; [right; intros u m []|]. destruct IH as [(u & m & Hi & H)|IH]; [left; exists u, m; split; [now right|exact H]|].
        destruct (name_own_dec x n) as [(m & Hn & Ho)|Hd]; [left; exists x, m; split; [now left|auto]|right].
        intros u m [<-|Hi] Hn Ho; [destruct Hd as [Hd|Hd]; [contradiction|now apply (Hd m)]|now apply (IH u m)]. }
      destruct K as [K|K]; [left; now apply shared_exists|right]. intros m (l1 & x & l2 & -> & Hn' & Ho & _). apply (K x m); auto. apply in_or_app. right. now left. }
    destruct Sd as [(m & Sm)|Sn].
    + rewrite (L1 m Sm). now apply (ym_shared mats u n).
    + rewrite (L2 Sn). now apply (ym_empty mats u n).
  - rewrite (parseMaterial_unnamed c u MNone N). intro H. injection H as <-. split; [now apply ym_unnamed|].
    intros x Hx n Hn. injection Hx as <-. exfalso. now apply (N n).
Qed.
Lemma material_run o : (forall u, o = Some u -> yaml_mat_ok u) -> exists m, parseMaterial c o MNone = Ok m.
Proof.
  intro H. destruct o as [u|]; [|now exists MNone]. specialize (H u eq_refl). destruct (name_dec u) as [(n & Hn)|(N & _)].
  - rewrite (parseMaterial_eq c u n MNone Hn). destruct (proj2 (own_of_ok u n Hn) H) as (o & ->). cbn. eexists. reflexivity.
  - rewrite (parseMaterial_unnamed c u MNone N). eexists. reflexivity.
Qed.
Definition vis_ok (u : YVis) : Prop :=
  (exists X, yaml_frame_at deg (yv_frame u) X) /\ (forall m, yv_material u = Some m -> yaml_mat_ok m) /\
  (yaml_has u = false \/ exists g l, yv_geometry u = Some l /\ yaml_geometry l g).
Lemma geometry_has l g : yaml_geometry l g -> exists e l', l = e :: l'.
Proof. intros (l' & t & s & -> & _). destruct l'; cbn; eauto. Qed.
Lemma parse_inv u o : parseVisual deg c u = Ok o ->
  vis_ok u /\ match o with Some v => yaml_has u = true /\ yaml_visual deg mats u v | None => yaml_has u = false end.
Proof.
  unfold parseVisual. intro H. destruct (parseFrame deg (yv_frame u)) as [[xyz rpy]| | |] eqn:Ef; try discriminate. cbn [bind] in H.
  destruct (parseMaterial c (yv_material u) MNone) as [m| | |] eqn:Em; try discriminate. cbn [bind] in H.
  destruct (parseGeometry (yv_geometry u)) as [g| | |] eqn:Eg; try discriminate. cbn [bind] in H. injection H as <-.
  assert (Fr : yaml_frame_at deg (yv_frame u) (mkPT (MatrixFromRPY (vx rpy) (vy rpy) (vz rpy)) xyz)) by (apply frame_at_iff; now exists xyz, rpy).
  destruct (material_inv _ _ Em) as (M1 & M2).
  assert (G : match g with Some g => yaml_has u = true /\ exists l, yv_geometry u = Some l /\ yaml_geometry l g | None => yaml_has u = false end).
  { unfold yaml_has. destruct g as [g|].
    - apply parseGeometry_some in Eg. destruct Eg as (l & -> & G). destruct (geometry_has _ _ G) as (e & l' & ->). split; [reflexivity|]. eexists. split; [reflexivity|exact G].
    - apply parseGeometry_none in Eg. now destruct Eg as [->| ->]. }
  split.
  - split; [now exists (mkPT (MatrixFromRPY (vx rpy) (vy rpy) (vz rpy)) xyz)|]. split; [exact M2|].
    destruct g as [g|]; [right; exists g; exact (proj2 G)|now left].
  - destruct g as [g|]; [|exact G]. destruct G as (G1 & l & G2 & G3). split; [exact G1|]. exists l. cbn.
    split; [exact G2|]. split; [exact G3|]. split; [exact Fr|]. split; [now destruct (yv_name u)|exact M1].
Qed.
Lemma parse_run u : vis_ok u -> exists o, parseVisual deg c u = Ok o.
Proof.
  intros ((X & HX) & M & G). unfold parseVisual. apply frame_at_iff in HX. destruct HX as (xyz & rpy & -> & _). cbn [bind].
  destruct (material_run _ M) as (m & ->). cbn [bind].
  assert (Eg : exists g, parseGeometry (yv_geometry u) = Ok g).
  { destruct G as [G|(g & l & G1 & G2)].
    - exists None. apply parseGeometry_none. unfold yaml_has in G. destruct (yv_geometry u) as [[|]|]; auto. discriminate.
    - exists (Some g). apply parseGeometry_some. now exists l. }
  destruct Eg as (g & ->). cbn. eexists. reflexivity.
Qed.
Lemma p_some u v : parseVisual deg c u = Ok (Some v) -> yaml_has u = true /\ yaml_visual deg mats u v.
Proof. intro H. exact (proj2 (parse_inv _ _ H)). Qed.
Lemma p_none u : parseVisual deg c u = Ok None -> yaml_has u = false.
Proof. intro H. exact (proj2 (parse_inv _ _ H)). Qed.
Lemma parses_inv n l m m' : parseVisuals deg c n l m = Ok m' ->
  (exists vs, seen m' n = seen m n ++ vs /\ Forall2 (yaml_visual deg mats) (filter yaml_has l) vs) /\
  (forall n', n' <> n -> seen m' n' = seen m n') /\
  ((forall n', mfind m n' <> Some []) -> forall n', mfind m' n' <> Some []) /\ (forall u, In u l -> exists o, parseVisual deg c u = Ok o).
Proof. exact (loop_inv (parseVisual deg c) (yaml_visual deg mats) yaml_has p_some p_none n l m m'). Qed.
Definition ylink_body (l : YVLink) (s : nat * VMaps) : res (nat * VMaps) :=
  let '(i, m) := (s : nat * VMaps) in
  let n := as_or (yvl_name l) (append "link" (str_of i)) in
  if link_kept p n (yvl_inertial l) then
    v <- parseVisuals deg c n (yvl_visual l) (fst m) ;; w <- parseVisuals deg c n (yvl_collision l) (snd m) ;; Ok (S i, (v, w))
  else Ok s.
Definition yhere (f : YVLink -> list YVis) (n : string) (ks : list (string * YVLink)) : list YVis :=
  flat_map (fun k => filter yaml_has (f (snd k))) (filter (fun k => String.eqb (fst k) n) ks).
Definition ylink_ok (k : string * YVLink) : Prop := forall u, In u (yvl_visual (snd k) ++ yvl_collision (snd k)) -> vis_ok u.
Lemma yhere_cons f n k ks : yhere f n (k :: ks) = yhere f n [k] ++ yhere f n ks.
Proof. unfold yhere. rewrite <- flat_map_app, <- filter_app. reflexivity. Qed.
Lemma yhere_one (f : YVLink -> list YVis) n n' l : yhere f n' [(n, l)] = if String.eqb n n' then filter yaml_has (f l) else [].
Proof. unfold yhere. cbn [filter fst]. destruct (String.eqb n n'); cbn; [apply app_nil_r|reflexivity]. Qed.
Lemma ylinks_inv ls : forall i m i' m', for_each ls ylink_body (i, m) = Ok (i', m') ->
  (forall k, In k (yaml_kept p i ls) -> ylink_ok k) /\
  (forall n, exists vs, seen (fst m') n = seen (fst m) n ++ vs /\ Forall2 (yaml_visual deg mats) (yhere yvl_visual n (yaml_kept p i ls)) vs) /\
  (forall n, exists vs, seen (snd m') n = seen (snd m) n ++ vs /\ Forall2 (yaml_visual deg mats) (yhere yvl_collision n (yaml_kept p i ls)) vs) /\
  ((forall n, mfind (fst m) n <> Some [] /\ mfind (snd m) n <> Some []) -> forall n, mfind (fst m') n <> Some [] /\ mfind (snd m') n <> Some []).
Proof.
  induction ls as [|l ls IH]; intros i m i' m' H.
  - cbn in H. injection H as <- <-. split; [intros k []|]. split; [|split; [|auto]]; intro n; exists []; rewrite app_nil_r; (split; [reflexivity|constructor]).
  - change (bind (ylink_body l (i, m)) (fun s => for_each ls ylink_body s) = Ok (i', m')) in H. unfold ylink_body at 1 in H. cbn [yaml_kept].
    change (as_or (yvl_name l) (append "link" (str_of i))) with (given (yvl_name l) (append "link" (str_of i))) in H.
    set (n := given (yvl_name l) (append "link" (str_of i))) in *. rewrite stays_iff in H.
    destruct (stays p n (yvl_inertial l)).
    + destruct (parseVisuals deg c n (yvl_visual l) (fst m)) as [v| | |] eqn:Ev; try discriminate. cbn [bind] in H.
      destruct (parseVisuals deg c n (yvl_collision l) (snd m)) as [w| | |] eqn:Ew; try discriminate. cbn [bind] in H.
      destruct (parses_inv _ _ _ _ Ev) as ((v1 & V1 & V2) & V3 & V4 & V5). destruct (parses_inv _ _ _ _ Ew) as ((w1 & W1 & W2) & W3 & W4 & W5).
      destruct (IH _ _ _ _ H) as (B1 & B2 & B3 & B4). cbn [fst snd] in B2, B3, B4.
      split; [intros k [<-|Hk]; [|now apply B1]; intros u Hu; cbn [snd] in Hu; apply in_app_or in Hu; destruct Hu as [Hu|Hu];
              [destruct (V5 u Hu) as (o & Ho)|destruct (W5 u Hu) as (o & Ho)]; exact (proj1 (parse_inv _ _ Ho))|].
      split; [|split].
      * intro n'. destruct (B2 n') as (b & Eb & Fb). rewrite yhere_cons, yhere_one. destruct (String.eqb n n') eqn:E.
        -- apply String.eqb_eq in E. subst n'. exists (v1 ++ b). rewrite app_assoc, <- V1. split; [exact Eb|now apply Forall2_app].
        -- exists b. cbn [app]. rewrite <- (V3 n'); [split; [exact Eb|exact Fb]|]. intros ->. now rewrite String.eqb_refl in E.
      * intro n'. destruct (B3 n') as (b & Eb & Fb). rewrite yhere_cons, yhere_one. destruct (String.eqb n n') eqn:E.
        -- apply String.eqb_eq in E. subst n'. exists (w1 ++ b). rewrite app_assoc, <- W1. split; [exact Eb|now apply Forall2_app].
        -- exists b. cbn [app]. rewrite <- (W3 n'); [split; [exact Eb|exact Fb]|]. intros ->. now rewrite String.eqb_refl in E.
      * intros Hz. apply B4. intro n'. split; [apply V4|apply W4]; intro n''; apply Hz.
    + cbn [bind] in H. exact (IH _ _ _ _ H).
Qed.
Lemma ylinks_run ls : forall i m, (forall k, In k (yaml_kept p i ls) -> ylink_ok k) -> exists s, for_each ls ylink_body (i, m) = Ok s.
Proof.
  induction ls as [|l ls IH]; intros i m A; [now exists (i, m)|].
  change (exists s, bind (ylink_body l (i, m)) (fun s => for_each ls ylink_body s) = Ok s). unfold ylink_body at 1. cbn [yaml_kept] in A.
  change (as_or (yvl_name l) (append "link" (str_of i))) with (given (yvl_name l) (append "link" (str_of i))).
  set (n := given (yvl_name l) (append "link" (str_of i))) in *. rewrite stays_iff. destruct (stays p n (yvl_inertial l)); [|cbn [bind]; now apply IH].
  assert (Al := A (n, l) (or_introl eq_refl)). unfold ylink_ok in Al. cbn [snd] in Al.
  destruct (loop_ok (parseVisual deg c) n (yvl_visual l)) with (m := fst m) as (v & Ev); [intros u Hu; apply parse_run, Al, in_or_app; now left|].
  destruct (loop_ok (parseVisual deg c) n (yvl_collision l)) with (m := snd m) as (w & Ew); [intros u Hu; apply parse_run, Al, in_or_app; now right|].
  change (parseVisuals deg c n (yvl_visual l) (fst m) = Ok v) in Ev. change (parseVisuals deg c n (yvl_collision l) (snd m) = Ok w) in Ew.
  rewrite Ev, Ew. cbn [bind]. apply IH. intros k Hk. apply A. now right.
Qed.
End yaml.
Lemma yaml_visuals_eq p r : yaml_visuals p r =
  (c <- for_each (yvr_materials r) yaml_cache_material [] ;; s <- for_each (yvr_links r) (ylink_body p (yvr_deg r) c) (1%nat, ([], [])) ;; Ok (snd s)).
Proof. reflexivity. Qed.
Lemma yaml_read_visuals p r s : yaml_visuals p r = Ok s -> forall n,
  Forall2 (yaml_visual (yvr_deg r) (yvr_materials r)) (yaml_elements p r yvl_visual n) (seen (fst s) n) /\
  Forall2 (yaml_visual (yvr_deg r) (yvr_materials r)) (yaml_elements p r yvl_collision n) (seen (snd s) n) /\
  mfind (fst s) n <> Some [] /\ mfind (snd s) n <> Some [].
Proof.
  rewrite yaml_visuals_eq. intros H n. destruct (for_each (yvr_materials r) yaml_cache_material []) as [c| | |] eqn:Ec; try discriminate. cbn [bind] in H.
  destruct (for_each (yvr_links r) (ylink_body p (yvr_deg r) c) (1%nat, ([], []))) as [[i m]| | |] eqn:El; try discriminate. cbn [bind snd] in H. injection H as <-.
  destruct (ylinks_inv p (yvr_deg r) (yvr_materials r) c Ec _ _ _ _ _ El) as (_ & V & W & Z).
  destruct (V n) as (a & Ea & Fa). destruct (W n) as (b & Eb & Fb). cbn in Ea, Eb. rewrite Ea, Eb. split; [exact Fa|]. split; [exact Fb|].
  apply Z. intro n'. split; discriminate.
Qed.
Lemma yaml_readable_iff p r : (exists s, yaml_visuals p r = Ok s) <-> yaml_readable p r.
Proof.
  rewrite yaml_visuals_eq. split.
  - intros (s & H). destruct (for_each (yvr_materials r) yaml_cache_material []) as [c| | |] eqn:Ec; try discriminate. cbn [bind] in H.
    destruct (for_each (yvr_links r) (ylink_body p (yvr_deg r) c) (1%nat, ([], []))) as [[i m]| | |] eqn:El; try discriminate.
    split; [exact (proj1 (yaml_cache_inv _ _ _ Ec))|].
    destruct (ylinks_inv p (yvr_deg r) (yvr_materials r) c Ec _ _ _ _ _ El) as (A & _). intros k u Hk Hu. exact (A k Hk u Hu).
  - intros (A & B).
    assert (Ec : exists c, for_each (yvr_materials r) yaml_cache_material [] = Ok c).
    { generalize (@nil (string * Material)). clear B. induction (yvr_materials r) as [|u l IH]; intro c; [now exists c|].
      destruct (cache_step_ok u c (A u (or_introl eq_refl))) as (c1 & E). cbn. rewrite E. cbn [bind]. apply IH. intros x Hx. apply A. now right. }
    destruct Ec as (c & Ec). rewrite Ec. cbn [bind].
    destruct (ylinks_run p (yvr_deg r) c (yvr_links r) 1 ([], [])) as (s & Es); [intros k Hk u Hu; exact (B k u Hk Hu)|].
    exists (snd s). exact (f_equal (fun x => bind x (fun s0 => Ok (snd s0))) Es).
Qed.

(** ** No undefined behaviour but for short sequences. *)
Lemma vec_req_safe (o : option (yv R)) : safe (as_vec_req o).
Proof. destruct o as [[a|l|]|]; cbn; try discriminate. destruct (elems_bad l) as [(v & ->)|E]; [discriminate|rewrite E; discriminate]. Qed.
Lemma num_req_safe (o : option (yv R)) : safe (as_num_req o).
Proof. destruct o as [[a|l|]|]; discriminate. Qed.
Lemma data_safe (o : option (yv R)) : (forall l, o = Some (YSeq (map YNum l)) -> (3 <= List.length l)%nat) -> forall A (f : V3 -> res A), (forall v, safe (f v)) ->
  safe (l <- as_vec_req o ;; v <- three_of_data l ;; f v).
Proof.
  intros H A f Hf. destruct (as_vec_req o) as [l| | |] eqn:E; cbn [bind]; try discriminate.
  - apply vec_req_iff in E. specialize (H l E). destruct l as [|x [|y [|z l]]]; cbn in H; try lia. cbn. apply Hf.
  - exfalso. now apply (vec_req_safe o).
Qed.
Lemma shape_safe t s : yaml_shape_sized t s -> safe (parseShape t s).
Proof.
  intros (Hm & Hb). unfold parseShape.
  destruct (String.eqb t "mesh") eqn:T1; [|destruct (String.eqb t "box") eqn:T2; [|destruct (String.eqb t "cylinder") eqn:T3;
      [|destruct (String.eqb t "sphere") eqn:T4; [|destruct (String.eqb t "superellipsoid") eqn:T5]]]]; try discriminate;
      match goal with T : String.eqb t _ = true |- _ => apply String.eqb_eq in T; subst t end.
  - specialize (Hm eq_refl). destruct (ys_filename s); [|discriminate]. cbn [as_str_req bind].
    destruct (ys_scale s) as [[y|l|]|]; cbn; try discriminate. destruct (elems l) as [v| | |] eqn:E; cbn; try discriminate.
    + apply elems_iff in E. subst l. destruct (Hm v eq_refl) as [L|L]; destruct v as [|a [|b [|d [|]]]]; try discriminate L; discriminate.
    + destruct (elems_bad l) as [(v & F)|F]; congruence.
  - apply data_safe; [apply Hb; now left|discriminate].
  - apply bind_safe; [apply num_req_safe|intro a; apply bind_safe; [apply num_req_safe|discriminate]].
  - apply bind_safe; [apply num_req_safe|discriminate].
  - apply data_safe; [apply Hb; now right|]. intro v. apply bind_safe; [apply num_req_safe|intro a; apply bind_safe; [apply num_req_safe|discriminate]].
Qed.
Lemma parseMaterial_safe c o out : safe (parseMaterial c o out).
Proof.
  destruct o as [u|]; [|discriminate]. destruct (name_dec u) as [(n & Hn)|(N & _)].
  - rewrite (parseMaterial_eq c u n out Hn). apply bind_safe; [|discriminate]. unfold own_of. destruct (ymt_color u); [|discriminate].
    apply bind_safe; [apply vec_req_safe|discriminate].
  - rewrite (parseMaterial_unnamed c u out N). discriminate.
Qed.
Lemma opt_vec_safe (o : option (yv R)) : safe (match o with Some y => l <- as_vec y ;; three l | None => Ok v0 end).
Proof.
  destruct o as [y|]; [|discriminate]. apply bind_safe; [exact (vec_req_safe (Some y))|]. intros [|a [|b [|d [|]]]]; discriminate.
Qed.
Lemma frame_safe deg f : safe (parseFrame deg f).
Proof.
  destruct f as [f|]; [|discriminate]. cbn [parseFrame]. apply bind_safe; [apply opt_vec_safe|]. intro v. apply bind_safe; [|discriminate].
  destruct (yf_rpy f) as [y|]; [|discriminate]. apply bind_safe; [exact (vec_req_safe (Some y))|]. intro l. apply bind_safe; [|discriminate].
  destruct l as [|a [|b [|d [|]]]]; discriminate.
Qed.
Lemma yaml_visuals_safe p r :
  (forall l u g t s, In l (yvr_links r) -> In u (yvl_visual l ++ yvl_collision l) -> yv_geometry u = Some g -> In (t, s) g -> yaml_shape_sized t s) ->
  yaml_visuals p r <> UB.
Proof.
  intro H. rewrite yaml_visuals_eq. apply bind_safe.
  - apply for_each_safe. intros u c _. unfold yaml_cache_material. destruct (String.eqb _ _); [discriminate|]. apply bind_safe; [apply parseMaterial_safe|discriminate].
  - intro c. apply bind_safe; [|discriminate]. apply for_each_safe. intros l [i m] Hl. unfold ylink_body. destruct (link_kept _ _ _); [|discriminate].
    unfold parseVisuals.
    apply bind_safe; [apply for_each_safe|intro v; apply bind_safe; [apply for_each_safe|discriminate]]; intros u m' Hu;
      (apply bind_safe; [|discriminate]); unfold parseVisual; (apply bind_safe; [apply frame_safe|]); intros [xyz rpy];
      (apply bind_safe; [apply parseMaterial_safe|]); intro mm; (apply bind_safe; [|discriminate]); unfold parseGeometry;
      destruct (yv_geometry u) as [g|] eqn:Eg; try discriminate; apply for_each_safe; intros [t s] o Hi; (apply bind_safe; [|discriminate]);
      apply shape_safe, (H l u g t s Hl); auto; apply in_or_app; auto.
Qed.
