(** Lemmas: visual and collision elements of URDF documents. *)
From Coq Require Import Reals String ZArith Bool Arith List Lia.
From Verif Require Import Res ResP SMap Vec VecP Sva JointM MultiBodyM ParserM YamlM GeomM Spec SpecParser SpecGeom ParserP ParserRotP ParserRtP.
Import ListNotations.
Open Scope R_scope.

(** ** Attributes. *)
Lemma nums_app l t : nums (map TNum l ++ TBad :: t) = l.
Proof. induction l as [|x l IH]; cbn; [reflexivity|now rewrite IH]. Qed.
Lemma nums_map l : nums (map TNum l) = l.
Proof. induction l as [|x l IH]; cbn; [reflexivity|now rewrite IH]. Qed.
Lemma nums_split t : t = map TNum (nums t) \/ exists t', t = map TNum (nums t) ++ TBad :: t'.
Proof.
  induction t as [|[x|] t IH]; cbn; [now left| |right; now exists t].
  destruct IH as [E|(t' & E)]; [left; now rewrite <- E|right; exists t'; now rewrite <- E].
Qed.
Lemma numbers_iff a l : numbers a l <-> exists t, a = Some t /\ nums t = l.
Proof.
  split.
  - intros [->|(t & ->)]; eexists; (split; [reflexivity|]); [apply nums_map|apply nums_app].
  - intros (t & -> & <-). destruct (nums_split t) as [E|(t' & E)]; [left; now rewrite <- E|right; exists t'; now rewrite <- E].
Qed.
Lemma numbers_fun a l l' : numbers a l -> numbers a l' -> l = l'.
Proof. rewrite !numbers_iff. intros (t & -> & <-) (t' & E & <-). now injection E as ->. Qed.
Lemma double_iff a d x : number_or a d x <-> attrToDouble a d = x.
Proof.
  split.
  - intros [(t & ->)|(N & ->)]; [reflexivity|]. destruct a as [[|[y|] t]|]; try reflexivity. exfalso. now apply (N y t).
  - intros <-. destruct a as [[|[y|] t]|]; cbn; try (right; split; [discriminate|reflexivity]). left. now exists t.
Qed.
Lemma attrToList_numbers a d l : numbers a l -> attrToList a d = l.
Proof. rewrite numbers_iff. intros (t & -> & <-). reflexivity. Qed.
Lemma vector_iff a d v : vector_or a d v <-> attrToVector a d = v.
Proof.
  unfold attrToVector. split.
  - intros [H|(N & ->)].
    + rewrite (attrToList_numbers _ _ _ H). apply v3_eta.
    + destruct a as [t|]; cbn; [|apply v3_eta].
      destruct (nums t) as [|x [|y [|z [|]]]] eqn:E; try reflexivity. exfalso. apply (N x y z). apply numbers_iff. now exists t.
  - intros <-. destruct a as [t|]; cbn.
    + destruct (nums t) as [|x [|y [|z [|]]]] eqn:E;
        try (right; split; [intros x' y' z' H; apply numbers_iff in H; destruct H as (t' & F & G); injection F as ->; congruence|reflexivity]).
      left. apply numbers_iff. now exists t.
    + right. split; [intros x' y' z' H; apply numbers_iff in H; destruct H as (t' & F & G); discriminate|apply v3_eta].
Qed.
Lemma vector_at a d : vector_or a d (attrToVector a d). Proof. now apply vector_iff. Qed.
Lemma double_at a d : number_or a d (attrToDouble a d). Proof. now apply double_iff. Qed.

(** ** Shapes, origins, materials. *)
Lemma mesh_iff f s g : geometryFromMesh f s = Ok g <->
  exists n, f = Some n /\ ((exists x y z, numbers s [x; y; z] /\ g = GMesh n (mkV3 x y z)) \/ (exists x, numbers s [x] /\ g = GMesh n (mkV3 x x x)) \/
    (s = None /\ g = GMesh n (mkV3 1 1 1))).
Proof.
  split.
  - unfold geometryFromMesh. destruct f as [n|]; cbn; [|discriminate]. intro H. exists n. split; [reflexivity|].
    destruct s as [t|]; cbn in H.
    + assert (Nt : numbers (Some t) (nums t)) by (apply numbers_iff; now exists t).
      destruct (nums t) as [|x [|y [|z [|]]]]; try discriminate; injection H as <-.
      * right. left. now exists x.
      * left. now exists x, y, z.
    + injection H as <-. right. now right.
  - intros (n & -> & [(x & y & z & H & ->)|[(x & H & ->)|(-> & ->)]]); unfold geometryFromMesh; cbn; [| |reflexivity];
      now rewrite (attrToList_numbers _ _ _ H).
Qed.
Lemma shape_iff g x : urdf_shape g x <-> geometryFromTag g = Ok x.
Proof.
  split.
  - intros H. unfold geometryFromTag. destruct H;
      repeat match goal with E : _ g = _ |- _ => rewrite E; clear E end.
    + apply mesh_iff. exists f. split; [reflexivity|]. left. now exists x, y, z.
    + apply mesh_iff. exists f. split; [reflexivity|]. right. left. now exists x.
    + reflexivity.
    + apply vector_iff in H1. now rewrite H1.
    + apply double_iff in H2. apply double_iff in H3. now rewrite H2, H3.
    + apply double_iff in H3. now rewrite H3.
    + apply vector_iff in H4. apply double_iff in H5. apply double_iff in H6. now rewrite H4, H5, H6.
    + reflexivity.
  - unfold geometryFromTag.
    destruct (ug_mesh g) as [[f s]|] eqn:E1.
    { intro H. apply mesh_iff in H. destruct H as (n & -> & [(a & b & c & H & ->)|[(a & H & ->)|(-> & ->)]]).
      - now apply (us_mesh g n s).
      - now apply (us_mesh_uniform g n s).
      - now apply us_mesh_plain. }
    destruct (ug_box g) as [s|] eqn:E2; [intro H; injection H as <-; apply (us_box g s); auto; apply vector_at|].
    destruct (ug_cylinder g) as [[a b]|] eqn:E3; [intro H; injection H as <-; apply (us_cylinder g a b); auto; apply double_at|].
    destruct (ug_sphere g) as [a|] eqn:E4; [intro H; injection H as <-; apply (us_sphere g a); auto; apply double_at|].
    destruct (ug_superellipsoid g) as [[[s a] b]|] eqn:E5;
      [intro H; injection H as <-; apply (us_superellipsoid g s a b); auto; try apply vector_at; apply double_at|].
    intro H. injection H as <-. now apply us_unknown.
Qed.
Lemma RPY_list_iff l E : RPY_list l = Ok E <-> exists r p y, l = [r; p; y] /\ E = mtr (euler_zyx r p y).
Proof.
  split.
  - destruct l as [|r [|p [|y [|]]]]; cbn; try discriminate. intro H. injection H as <-. exists r, p, y. split; [reflexivity|apply RPY_eq].
  - intros (r & p & y & -> & ->). cbn. now rewrite RPY_eq.
Qed.
Lemma origin_iff o X : urdf_origin o X <-> read_origin o = Ok X.
Proof.
  split.
  - intros [|u v r p y Hv Hr]; [reflexivity|]. cbn. apply vector_iff in Hv. rewrite Hv.
    assert (E : attrToList (uo_rpy u) [0; 0; 0] = [r; p; y]) by (destruct Hr as [Hr|(E & -> & -> & ->)]; [now apply attrToList_numbers|now rewrite E]).
    rewrite E. cbn. now rewrite RPY_eq.
  - destruct o as [u|]; cbn; [|intro H; injection H as <-; constructor].
    destruct (RPY_list _) as [E| | |] eqn:Er; cbn; try discriminate. intro H. injection H as <-.
    apply RPY_list_iff in Er. destruct Er as (r & p & y & El & ->). apply uo_some; [apply vector_at|].
    destruct (uo_rpy u) as [t|] eqn:Eu.
    + left. apply numbers_iff. now exists t.
    + right. cbn in El. injection El as <- <- <-. auto.
Qed.
Lemma own_iff u m : urdf_own u m <-> own_material u = Some m.
Proof.
  unfold own_material. split.
  - intros [a r g b t E H|E|f E F]; rewrite E; [now rewrite (attrToList_numbers _ _ _ H)|reflexivity|now rewrite F].
  - destruct (umt_color u) as [a|] eqn:E.
    + destruct a as [t|]; cbn.
      * destruct (nums t) as [|r [|g [|b [|q [|]]]]] eqn:F; try discriminate. intro H. injection H as <-.
        apply (uw_color u (Some t)); [exact E|]. apply numbers_iff. now exists t.
      * intro H. injection H as <-. now apply uw_red.
    + destruct (umt_texture u) as [[f|]|] eqn:F; try discriminate. intro H. injection H as <-. now apply uw_texture.
Qed.
Lemma cache_keep l : forall c n m, mfind c n = Some m -> mfind (fold_left cache_material l c) n = Some m.
Proof.
  induction l as [|u l IH]; cbn; intros c n m H; [exact H|]. apply IH. unfold cache_material.
  destruct (umt_name u) as [n'|]; [|exact H]. destruct (mfind c n') eqn:E; [exact H|]. destruct (own_material u); [|exact H].
  rewrite mfind_mset_neq; [exact H|]. intros ->. congruence.
Qed.
Lemma cache_iff l : forall c n, mfind c n = None -> forall m, mfind (fold_left cache_material l c) n = Some m <-> urdf_shared l n m.
Proof.
  induction l as [|u l IH]; cbn [fold_left]; intros c n H m.
  - rewrite H. split; [discriminate|]. intros (l1 & x & l2 & E & _). now destruct l1.
  - destruct (mfind (cache_material c u) n) as [m'|] eqn:E.
    + rewrite (cache_keep l _ _ _ E).
      assert (Hd : umt_name u = Some n /\ own_material u = Some m').
      { unfold cache_material in E. destruct (umt_name u) as [n'|]; [|congruence]. destruct (mfind c n'); [congruence|].
        destruct (own_material u); [|congruence]. destruct (string_dec n n') as [<-|Ne].
        - rewrite mfind_mset_eq in E. auto.
        - rewrite mfind_mset_neq in E by congruence. congruence. }
      destruct Hd as (Hn & Ho). split.
      * intro F. injection F as <-. exists [], u, l. split; [reflexivity|]. split; [exact Hn|]. split; [now apply own_iff|]. intros u' m'' [].
      * intros ([|x l1] & y & l2 & F & Hy & Hm & Hl).
        -- injection F as <- <-. apply own_iff in Hm. congruence.
        -- injection F as <- ->. exfalso. apply (Hl u m'); [now left|exact Hn|now apply own_iff].
    + rewrite (IH _ _ E m).
      assert (Hu : umt_name u = Some n -> forall m', ~ urdf_own u m').
      { intros Hn m' Ho. apply own_iff in Ho. unfold cache_material in E. rewrite Hn, H, Ho, mfind_mset_eq in E. discriminate. }
      split.
      * intros (l1 & y & l2 & -> & Hy & Hm & Hl). exists (u :: l1), y, l2. split; [reflexivity|]. split; [exact Hy|]. split; [exact Hm|].
        intros u' m' [<-|Hi] Hn; [now apply Hu|now apply Hl].
      * intros ([|x l1] & y & l2 & F & Hy & Hm & Hl).
        -- injection F as <- <-. exfalso. now apply (Hu Hy m).
        -- injection F as <- ->. exists l1, y, l2. split; [reflexivity|]. split; [exact Hy|]. split; [exact Hm|].
           intros u' m' Hi. apply Hl. now right.
Qed.
Lemma shared_iff l n m : urdf_shared l n m <-> mfind (fold_left cache_material l []) n = Some m.
Proof. symmetry. now apply cache_iff. Qed.
Lemma material_iff l o m : urdf_material l o m <->
  m = match o with Some u => as_or (materialFromTag (fold_left cache_material l []) u) MNone | None => MNone end.
Proof.
  set (c := fold_left cache_material l []). unfold materialFromTag. split.
  - intros [|u H|u n m' H S|u n m' H S O'|u n H S O']; [reflexivity|now rewrite H|rewrite H| |].
    + apply shared_iff in S. fold c in S. now rewrite S.
    + rewrite H. apply own_iff in O'. destruct (mfind c n) as [x|] eqn:E; [exfalso; apply (S x); now apply shared_iff|now rewrite O'].
    + rewrite H. destruct (mfind c n) as [x|] eqn:E; [exfalso; apply (S x); now apply shared_iff|].
      destruct (own_material u) as [x|] eqn:F; [exfalso; apply (O' x); now apply own_iff|reflexivity].
  - intros ->. destruct o as [u|]; [|constructor]. destruct (umt_name u) as [n|] eqn:H; [|now constructor].
    destruct (mfind c n) as [x|] eqn:E; cbn [as_or].
    + apply (um_shared l u n); [exact H|]. now apply shared_iff.
    + assert (S : forall m', ~ urdf_shared l n m') by (intros m' S; apply shared_iff in S; fold c in S; congruence).
      destruct (own_material u) as [x|] eqn:F; cbn [as_or].
      * apply (um_own l u n); [exact H|exact S|now apply own_iff].
      * apply (um_empty l u n); [exact H|exact S|]. intros m' O'. apply own_iff in O'. congruence.
Qed.
Lemma visual_iff l u v : urdf_visual l u v <-> visualFromTag (fold_left cache_material l []) u = Ok (Some v).
Proof.
  unfold urdf_visual, visualFromTag. split.
  - intros (g & -> & S & X & N & M). apply shape_iff in S. apply origin_iff in X. apply material_iff in M.
    rewrite X, S. cbn [bind]. rewrite <- M. destruct v. cbn in *. subst. now destruct (uv_name u).
  - destruct (uv_geometry u) as [g|]; [|discriminate]. destruct (read_origin _) as [X| | |] eqn:EX; try discriminate. cbn [bind].
    destruct (geometryFromTag g) as [S| | |] eqn:ES; try discriminate. cbn [bind]. intro H. injection H as <-. exists g. cbn.
    split; [reflexivity|]. split; [now apply shape_iff|]. split; [now apply origin_iff|]. split; [now destruct (uv_name u)|now apply material_iff].
Qed.
Lemma visual_none c u : visualFromTag c u = Ok None <-> uv_geometry u = None.
Proof.
  unfold visualFromTag. destruct (uv_geometry u) as [g|]; [|split; reflexivity]. split; [|discriminate].
  destruct (read_origin _); try discriminate. cbn [bind]. destruct (geometryFromTag g); discriminate.
Qed.

(** ** Maps of elements. *)
Lemma seen_push_eq m n v : seen (push m n v) n = seen m n ++ [v].
Proof. unfold seen, push. rewrite mfind_mset_eq. now destruct (mfind m n). Qed.
Lemma seen_push_neq m n v n' : n' <> n -> seen (push m n v) n' = seen m n'.
Proof. intro H. unfold seen, push. now rewrite mfind_mset_neq. Qed.
Lemma push_full m n v n' : mfind m n' <> Some [] -> mfind (push m n v) n' <> Some [].
Proof.
  intro H. unfold push. destruct (string_dec n' n) as [->|Ne]; [rewrite mfind_mset_eq|now rewrite mfind_mset_neq].
  intro F. injection F as F. symmetry in F. now apply app_cons_not_nil in F.
Qed.

(** A loop over the elements of a link. *)
Section loop.
Context {U : Type}.
Variable rd : U -> res (option Visual).
Variable rel : U -> Visual -> Prop.
Variable has : U -> bool.
Hypothesis Hsome : forall u v, rd u = Ok (Some v) -> has u = true /\ rel u v.
Hypothesis Hnone : forall u, rd u = Ok None -> has u = false.
Definition body_of (n : string) (u : U) (m : smap (list Visual)) : res (smap (list Visual)) :=
  o <- rd u ;; Ok (match o with Some v => push m n v | None => m end).
Lemma loop_inv n l : forall m m', for_each l (body_of n) m = Ok m' ->
  (exists vs, seen m' n = seen m n ++ vs /\ Forall2 rel (filter has l) vs) /\
  (forall n', n' <> n -> seen m' n' = seen m n') /\
  ((forall n', mfind m n' <> Some []) -> forall n', mfind m' n' <> Some []) /\ (forall u, In u l -> exists o, rd u = Ok o).
Proof.
  induction l as [|u l IH]; cbn; intros m m' H.
  - injection H as <-. split; [exists []; split; [now rewrite app_nil_r|constructor]|]. split; [auto|]. split; [auto|]. intros u [].
  - destruct (rd u) as [o| | |] eqn:E; unfold body_of in H at 1; rewrite E in H; try discriminate. cbn [bind] in H. destruct o as [v|].
    + destruct (Hsome u v E) as (Hu & Hr). destruct (IH _ _ H) as ((vs & V & F) & N & Z & A). rewrite Hu.
      split; [exists (v :: vs); split; [rewrite V, seen_push_eq, <- app_assoc; reflexivity|now constructor]|].
      split; [intros n' Hn; rewrite (N n' Hn); now apply seen_push_neq|]. split; [intro Hz; apply Z; intro n'; apply push_full, Hz|].
      intros x [<-|Hx]; [now exists (Some v)|now apply A].
    + rewrite (Hnone u E). destruct (IH _ _ H) as (V & N & Z & A). split; [exact V|]. split; [exact N|]. split; [exact Z|].
      intros x [<-|Hx]; [now exists None|now apply A].
Qed.
Lemma loop_ok n l : (forall u, In u l -> exists o, rd u = Ok o) -> forall m, exists m', for_each l (body_of n) m = Ok m'.
Proof.
  induction l as [|u l IH]; cbn; intros A m; [now exists m|]. destruct (A u (or_introl eq_refl)) as (o & E). unfold body_of at 1. rewrite E. cbn [bind].
  apply IH. intros x Hx. apply A. now right.
Qed.
End loop.

(** ** Links of a URDF document. *)
Lemma stays_iff p n b : link_kept p n b = stays p n b.
Proof. unfold link_kept, stays, in_names. destruct b, (pp_remove_virtual p), (existsb (String.eqb n) (pp_filtered p)), (pp_remove_filtered p); reflexivity. Qed.
Section urdf.
Variable p : PParams.
Variable mats : list UMat.
Let c := fold_left cache_material mats [].
Definition link_body (l : UVLink) (s : VMaps) : res VMaps :=
  n <- deref (uvl_name l) ;;
  if link_kept p n (uvl_inertial l) then
    v <- read_visuals c n (uvl_visual l) (fst s) ;; w <- read_visuals c n (uvl_collision l) (snd s) ;; Ok (v, w)
  else Ok s.
Definition here (f : UVLink -> list UVis) (n : string) (ls : list UVLink) : list UVis :=
  flat_map (fun l => filter (fun u => is_there (uv_geometry u)) (f l))
    (filter (fun l => String.eqb (given (uvl_name l) EmptyString) n && stays p n (uvl_inertial l)) ls).
Definition link_ok (l : UVLink) : Prop :=
  exists n, uvl_name l = Some n /\
    (stays p n (uvl_inertial l) = true -> forall u, In u (uvl_visual l ++ uvl_collision l) -> uv_geometry u = None \/ exists v, urdf_visual mats u v).
Lemma rd_some u v : visualFromTag c u = Ok (Some v) -> is_there (uv_geometry u) = true /\ urdf_visual mats u v.
Proof. intro H. apply visual_iff in H. split; [|exact H]. destruct H as (g & -> & _). reflexivity. Qed.
Lemma rd_none u : visualFromTag c u = Ok None -> is_there (uv_geometry u) = false.
Proof. intro H. apply visual_none in H. now rewrite H. Qed.
Lemma rd_ok u : (exists o, visualFromTag c u = Ok o) <-> (uv_geometry u = None \/ exists v, urdf_visual mats u v).
Proof.
  split.
  - intros ([v|] & H); [right; exists v; now apply visual_iff|left; now apply visual_none in H].
  - intros [H|(v & H)]; [exists None; now apply visual_none|exists (Some v); now apply visual_iff].
Qed.
Lemma read_inv n l m m' : read_visuals c n l m = Ok m' ->
  (exists vs, seen m' n = seen m n ++ vs /\ Forall2 (urdf_visual mats) (filter (fun u => is_there (uv_geometry u)) l) vs) /\
  (forall n', n' <> n -> seen m' n' = seen m n') /\
  ((forall n', mfind m n' <> Some []) -> forall n', mfind m' n' <> Some []) /\ (forall u, In u l -> exists o, visualFromTag c u = Ok o).
Proof. exact (loop_inv (visualFromTag c) (urdf_visual mats) (fun u => is_there (uv_geometry u)) rd_some rd_none n l m m'). Qed.
Lemma link_inv l s s' : link_body l s = Ok s' ->
  link_ok l /\
  (forall n, exists vs, seen (fst s') n = seen (fst s) n ++ vs /\ Forall2 (urdf_visual mats) (here uvl_visual n [l]) vs) /\
  (forall n, exists vs, seen (snd s') n = seen (snd s) n ++ vs /\ Forall2 (urdf_visual mats) (here uvl_collision n [l]) vs) /\
  ((forall n, mfind (fst s) n <> Some [] /\ mfind (snd s) n <> Some []) -> forall n, mfind (fst s') n <> Some [] /\ mfind (snd s') n <> Some []).
Proof.
  unfold link_body, link_ok. destruct (uvl_name l) as [n|] eqn:En; [|discriminate]. cbn [deref bind]. rewrite stays_iff.
  destruct (stays p n (uvl_inertial l)) eqn:Es.
  - intro H. destruct (read_visuals c n (uvl_visual l) (fst s)) as [v| | |] eqn:Ev; try discriminate. cbn [bind] in H.
    destruct (read_visuals c n (uvl_collision l) (snd s)) as [w| | |] eqn:Ew; try discriminate. cbn [bind] in H. injection H as <-.
    destruct (read_inv _ _ _ _ Ev) as ((v1 & V1 & V2) & V3 & V4 & V5). destruct (read_inv _ _ _ _ Ew) as ((w1 & W1 & W2) & W3 & W4 & W5). cbn [fst snd].
    split; [exists n; split; [reflexivity|]; intros _ u Hu; apply rd_ok; apply in_app_or in Hu; destruct Hu as [Hu|Hu]; [now apply V5|now apply W5]|].
    split; [|split].
    + intro n'. unfold here. cbn [filter]. rewrite En. cbn [given]. destruct (String.eqb n n') eqn:E.
      * apply String.eqb_eq in E. subst n'. rewrite Es. cbn. rewrite app_nil_r. now exists v1.
      * cbn. exists []. rewrite app_nil_r. split; [|constructor]. apply V3. intros ->. now rewrite String.eqb_refl in E.
    + intro n'. unfold here. cbn [filter]. rewrite En. cbn [given]. destruct (String.eqb n n') eqn:E.
      * apply String.eqb_eq in E. subst n'. rewrite Es. cbn. rewrite app_nil_r. now exists w1.
      * cbn. exists []. rewrite app_nil_r. split; [|constructor]. apply W3. intros ->. now rewrite String.eqb_refl in E.
    + intros Hz n'. split; [apply V4|apply W4]; intro n''; apply Hz.
  - intro H. injection H as <-. split; [exists n; split; [reflexivity|]; rewrite Es; intro F; discriminate F|].
    assert (Eh : forall f n', here f n' [l] = []).
    { intros f n'. unfold here. cbn [filter]. rewrite En. cbn [given]. destruct (String.eqb n n') eqn:E; [|reflexivity].
      apply String.eqb_eq in E. subst n'. now rewrite Es. }
    split; [|split; [|auto]]; intro n'; rewrite Eh; exists []; rewrite app_nil_r; (split; [reflexivity|constructor]).
Qed.
Lemma link_run l s : link_ok l -> exists s', link_body l s = Ok s'.
Proof.
  intros (n & En & A). unfold link_body. rewrite En. cbn [deref bind]. rewrite stays_iff. destruct (stays p n (uvl_inertial l)); [|now exists s].
  specialize (A eq_refl).
  destruct (loop_ok (visualFromTag c) n (uvl_visual l)) with (m := fst s) as (v & Ev); [intros u Hu; apply rd_ok, A, in_or_app; now left|].
  destruct (loop_ok (visualFromTag c) n (uvl_collision l)) with (m := snd s) as (w & Ew); [intros u Hu; apply rd_ok, A, in_or_app; now right|].
  exists (v, w). change (read_visuals c n (uvl_visual l) (fst s) = Ok v) in Ev. change (read_visuals c n (uvl_collision l) (snd s) = Ok w) in Ew.
  now rewrite Ev, Ew.
Qed.
Lemma here_cons f n l ls : here f n (l :: ls) = here f n [l] ++ here f n ls.
Proof. unfold here. rewrite <- flat_map_app, <- filter_app. reflexivity. Qed.
Lemma links_inv ls : forall s s', for_each ls link_body s = Ok s' ->
  (forall l, In l ls -> link_ok l) /\
  (forall n, exists vs, seen (fst s') n = seen (fst s) n ++ vs /\ Forall2 (urdf_visual mats) (here uvl_visual n ls) vs) /\
  (forall n, exists vs, seen (snd s') n = seen (snd s) n ++ vs /\ Forall2 (urdf_visual mats) (here uvl_collision n ls) vs) /\
  ((forall n, mfind (fst s) n <> Some [] /\ mfind (snd s) n <> Some []) -> forall n, mfind (fst s') n <> Some [] /\ mfind (snd s') n <> Some []).
Proof.
  induction ls as [|l ls IH]; intros s s' H.
  - cbn in H. injection H as <-. split; [intros l []|]. split; [|split; [|auto]]; intro n; exists []; rewrite app_nil_r; (split; [reflexivity|constructor]).
  - change (bind (link_body l s) (fun s => for_each ls link_body s) = Ok s') in H.
    destruct (link_body l s) as [s1| | |] eqn:E; try discriminate. cbn [bind] in H.
    destruct (link_inv _ _ _ E) as (A1 & A2 & A3 & A4). destruct (IH _ _ H) as (B1 & B2 & B3 & B4).
    split; [intros x [<-|Hx]; auto|]. split; [|split; [|auto]].
    + intro n. destruct (A2 n) as (a & Ea & Fa). destruct (B2 n) as (b & Eb & Fb). exists (a ++ b). rewrite here_cons, app_assoc, <- Ea.
      split; [exact Eb|now apply Forall2_app].
    + intro n. destruct (A3 n) as (a & Ea & Fa). destruct (B3 n) as (b & Eb & Fb). exists (a ++ b). rewrite here_cons, app_assoc, <- Ea.
      split; [exact Eb|now apply Forall2_app].
Qed.
Lemma links_run ls : (forall l, In l ls -> link_ok l) -> forall s, exists s', for_each ls link_body s = Ok s'.
Proof.
  induction ls as [|l ls IH]; intros A s; [now exists s|]. destruct (link_run l s (A l (or_introl eq_refl))) as (s1 & E).
  change (exists s', bind (link_body l s) (fun s => for_each ls link_body s) = Ok s'). rewrite E. cbn [bind]. apply IH. intros x Hx. apply A. now right.
Qed.
End urdf.
Lemma urdf_read_visuals p r s : urdf_visuals p r = Ok s -> forall n,
  Forall2 (urdf_visual (uvr_materials r)) (urdf_elements p r uvl_visual n) (seen (fst s) n) /\
  Forall2 (urdf_visual (uvr_materials r)) (urdf_elements p r uvl_collision n) (seen (snd s) n) /\
  mfind (fst s) n <> Some [] /\ mfind (snd s) n <> Some [].
Proof.
  intros H n. destruct (links_inv p (uvr_materials r) (uvr_links r) ([], []) s H) as (_ & V & W & Z).
  destruct (V n) as (a & Ea & Fa). destruct (W n) as (b & Eb & Fb). cbn in Ea, Eb. rewrite Ea, Eb. split; [exact Fa|]. split; [exact Fb|].
  apply Z. intro n'. split; discriminate.
Qed.
Lemma urdf_readable_iff p r : (exists s, urdf_visuals p r = Ok s) <-> urdf_readable p r.
Proof.
  split.
  - intros (s & H). exact (proj1 (links_inv p (uvr_materials r) (uvr_links r) ([], []) s H)).
  - intro H. exact (links_run p (uvr_materials r) (uvr_links r) H ([], [])).
Qed.

(** ** No undefined behaviour but for meshes. *)
Notation safe x := (x <> UB).
Lemma for_each_safe {A S} (f : A -> S -> res S) l : (forall a s, In a l -> safe (f a s)) -> forall s, safe (for_each l f s).
Proof.
  induction l as [|a l IH]; intros H s; [discriminate|]. cbn. specialize (H a s (or_introl eq_refl)) as H0.
  destruct (f a s) as [s'| | |]; cbn; try discriminate; [|contradiction]. apply IH. intros b t Hb. apply H. now right.
Qed.
Lemma bind_safe {A B} (x : res A) (f : A -> res B) : safe x -> (forall a, safe (f a)) -> safe (bind x f).
Proof. intros Hx Hf. destruct x; cbn; try discriminate; [apply Hf|contradiction]. Qed.
Lemma geometry_safe g : urdf_mesh_ok g -> safe (geometryFromTag g).
Proof.
  intro H. unfold geometryFromTag. destruct (ug_mesh g) as [[f s]|] eqn:E.
  - destruct (H f s E) as (Hf & Hs). destruct f as [f|]; [|contradiction]. unfold geometryFromMesh. cbn [deref bind].
    destruct Hs as [->|[(x & Hs)|(x & y & z & Hs)]]; [discriminate| |]; rewrite (attrToList_numbers _ _ _ Hs); discriminate.
  - destruct (ug_box g); [discriminate|]. destruct (ug_cylinder g) as [[]|]; [discriminate|]. destruct (ug_sphere g); [discriminate|].
    destruct (ug_superellipsoid g) as [[[]]|]; discriminate.
Qed.
Lemma RPY_safe l : safe (RPY_list l).
Proof. destruct l as [|a [|b [|d [|]]]]; discriminate. Qed.
Lemma visual_safe c u : (forall g, uv_geometry u = Some g -> urdf_mesh_ok g) -> safe (visualFromTag c u).
Proof.
  intro H. unfold visualFromTag. destruct (uv_geometry u) as [g|]; [|discriminate].
  apply bind_safe; [|intro X; apply bind_safe; [apply geometry_safe; now apply H|discriminate]].
  unfold read_origin. destruct (uv_origin u); [|discriminate]. apply bind_safe; [apply RPY_safe|discriminate].
Qed.
Lemma urdf_visuals_safe p r :
  (forall l, In l (uvr_links r) -> uvl_name l <> None) ->
  (forall l u g, In l (uvr_links r) -> In u (uvl_visual l ++ uvl_collision l) -> uv_geometry u = Some g -> urdf_mesh_ok g) ->
  urdf_visuals p r <> UB.
Proof.
  intros Hn Hm. unfold urdf_visuals. apply for_each_safe. intros l s Hl. specialize (Hn l Hl). destruct (uvl_name l) as [n|]; [|contradiction]. cbn [deref bind].
  destruct (link_kept _ _ _); [|discriminate]. unfold read_visuals.
  apply bind_safe; [apply for_each_safe|intro v; apply bind_safe; [apply for_each_safe|discriminate]];
    intros u m Hu; (apply bind_safe; [apply visual_safe; intros g Hg; apply (Hm l u g Hl); [|exact Hg]; apply in_or_app; auto|discriminate]).
Qed.
