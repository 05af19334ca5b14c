(** Proofs about filtered links: reading with a filter is reading the edited document. *)
From Coq Require Import Reals String ZArith Bool Arith List Lia.
From Verif Require Import Res SMap JointM MultiBodyM KinM GraphM ParserM YamlM SpecDoc SpecFilter.
Import ListNotations.
Open Scope bool_scope.

Lemma in_names_filter {A} (nm : A -> string) (Q : A -> bool) ls n : in_names (map nm (filter Q ls)) n = is_named nm Q ls n.
Proof. unfold in_names, is_named. induction ls as [|l ls IH]; cbn; [reflexivity|]. destruct (Q l); cbn; rewrite IH; reflexivity. Qed.
Lemma in_names_nil n : in_names [] n = false.
Proof. reflexivity. Qed.

Lemma filter_map_ext {A B} (f g : A -> B) P Q l : (forall x, f x = g x) -> (forall x, P x = Q x) -> map f (filter P l) = map g (filter Q l).
Proof. intros H1 H2. induction l as [|x l IH]; cbn; [reflexivity|]. rewrite <- H2. destruct (P x); cbn; [rewrite H1, IH|]; auto. Qed.
(** ** URDF. *)
Definition u_pair (l : ULink) : string * option UInertial := (ulink_name l, ul_inertial l).
Lemma u_links p ls : (forall l, In l ls -> ul_name l <> None) -> forall a b c,
  for_each ls (handle_link p) (mkLS a b c) =
  Ok (mkLS (a ++ map u_pair (filter (fun l => negb (u_out p l)) ls)) (b ++ map ulink_name (filter (u_fixed p) ls)) (c ++ map ulink_name (filter (u_out p) ls))).
Proof.
  induction ls as [|l ls IH]; intros H a b c; cbn [for_each filter map]; [now rewrite !app_nil_r|].
  assert (Hl : ul_name l <> None) by (apply H; now left). assert (H' : forall l, In l ls -> ul_name l <> None) by (intros; apply H; now right).
  specialize (IH H'). destruct l as [nm ine]. cbn [ul_name] in Hl. destruct nm as [nm|]; [|congruence].
  assert (EO : u_out p (mkUL (Some nm) ine) = left_out p nm (absent ine)) by reflexivity.
  assert (EX : u_fixed p (mkUL (Some nm) ine) = kept_fixed p nm (absent ine)) by reflexivity.
  rewrite EO, EX. unfold kept_fixed, left_out. unfold handle_link at 1. cbn [ul_name deref bind ul_inertial].
  change (in_names (pp_filtered p) nm) with (filtered p nm).
  destruct ine as [ine|], (pp_remove_virtual p) eqn:EV, (filtered p nm) eqn:EF, (pp_remove_filtered p) eqn:ER; cbn [absent andb orb negb bind ls_links ls_fixed ls_removed map u_pair ulink_name ul_name text ul_inertial];
    rewrite IH, <- ?app_assoc; reflexivity.
Qed.
Lemma u_none p ls : filter (fun l => negb (u_out (no_filter p) l)) ls = ls /\ filter (u_fixed (no_filter p)) ls = [] /\ filter (u_out (no_filter p)) ls = [].
Proof.
  assert (E : forall l, u_out (no_filter p) l = false) by (intro l; unfold u_out, left_out; cbn; now rewrite andb_false_r).
  assert (F : forall l, u_fixed (no_filter p) l = false) by (intro l; unfold u_fixed, kept_fixed, filtered; cbn; now rewrite andb_false_r).
  induction ls as [|l ls (I1 & I2 & I3)]; cbn; [auto|]. rewrite E, F. cbn. rewrite I1, I2, I3. auto.
Qed.
Lemma u_joints fx rm js : (forall u, In u js -> (exists n, uj_parent u = Some (Some n)) /\ (exists n, uj_child u = Some (Some n))) -> forall acc,
  for_each js (extract_joint fx rm) acc =
  Ok (acc ++ map (fun u => if in_names fx (u_child u) then u_fix u else u) (filter (fun u => negb (in_names rm (u_parent u)) && negb (in_names rm (u_child u))) js)).
Proof.
  induction js as [|u js IH]; intros H acc; cbn [for_each filter map]; [now rewrite app_nil_r|].
  destruct (H u (or_introl eq_refl)) as ((pa & EP) & (ch & EC)).
  assert (E1 : u_parent u = pa) by (unfold u_parent, ujoint_names; rewrite EP; reflexivity).
  assert (E2 : u_child u = ch) by (unfold u_child, ujoint_names; rewrite EC; reflexivity).
  unfold extract_joint at 1. rewrite EP, EC. cbn [deref bind]. rewrite E1, E2.
  rewrite IH by (intros; apply H; now right).
  destruct (negb (in_names rm pa) && negb (in_names rm ch)); [|reflexivity]. cbn [map]. rewrite <- app_assoc. rewrite E2. unfold u_fix. rewrite EP, EC. reflexivity.
Qed.
Lemma u_edit_ends p rb : urdf_named rb -> urdf_named (urdf_edited p rb).
Proof.
  intros (H1 & H2). split.
  - intros l Hl. cbn [urdf_edited ur_links] in Hl. apply filter_In in Hl. apply H1, Hl.
  - intros u Hu. cbn [urdf_edited ur_joints] in Hu. apply in_map_iff in Hu. destruct Hu as (u0 & E & Hu). apply filter_In in Hu. destruct (H2 u0 (proj1 Hu)) as (P1 & P2).
    destruct (is_named _ _ _ _); subst u; auto.
Qed.
Lemma urdf_filter_parse p rb : urdf_named rb -> parse_urdf (Some rb) p = parse_urdf (Some (urdf_edited p rb)) (no_filter p).
Proof.
  intro H. pose proof (u_edit_ends p rb H) as (H3 & H4). destruct H as (H1 & H2). unfold parse_urdf. cbn [urdf_edited ur_name]. destruct (ur_name rb) as [nm|]; [|reflexivity].
  rewrite (u_links p _ H1). rewrite (u_links (no_filter p) _ H3). cbn [bind ls_links ls_fixed ls_removed app].
  destruct (u_none p (ur_links (urdf_edited p rb))) as (N1 & N2 & N3). rewrite N1, N2, N3. cbn [map].
  cbn [urdf_edited ur_links]. destruct (map u_pair (filter (fun l => negb (u_out p l)) (ur_links rb))) as [|(first & i0) rest] eqn:EL; [reflexivity|]. cbn [pp_base pp_transform no_filter].
  destruct (for_each _ _ empty_graph); cbn [bind]; try reflexivity.
  rewrite (u_joints _ _ _ H2). rewrite (u_joints _ _ _ H4). cbn [bind app].
  assert (EJ : map (fun u => if in_names [] (u_child u) then u_fix u else u) (filter (fun u => negb (in_names [] (u_parent u)) && negb (in_names [] (u_child u))) (ur_joints (urdf_edited p rb))) = ur_joints (urdf_edited p rb)).
  { generalize (ur_joints (urdf_edited p rb)) as l. induction l as [|x l IH]; cbn; [reflexivity|]. f_equal. exact IH. }
  rewrite EJ. cbn [urdf_edited ur_joints].
  assert (EE : map (fun u => if in_names (map ulink_name (filter (u_fixed p) (ur_links rb))) (u_child u) then u_fix u else u)
     (filter (fun u => negb (in_names (map ulink_name (filter (u_out p) (ur_links rb))) (u_parent u)) && negb (in_names (map ulink_name (filter (u_out p) (ur_links rb))) (u_child u))) (ur_joints rb)) =
     map (fun u => if is_named ulink_name (u_fixed p) (ur_links rb) (u_child u) then u_fix u else u)
       (filter (fun u => negb (is_named ulink_name (u_out p) (ur_links rb) (u_parent u)) && negb (is_named ulink_name (u_out p) (ur_links rb) (u_child u))) (ur_joints rb))).
  { apply filter_map_ext; intro u; now rewrite !in_names_filter. }
  rewrite EE. reflexivity.
Qed.
Theorem urdf_filter fuel g p rb : urdf_named rb -> from_urdf fuel g (Some rb) p = from_urdf fuel g (Some (urdf_edited p rb)) (no_filter p).
Proof. intro H. unfold from_urdf. rewrite (urdf_filter_parse p rb H). reflexivity. Qed.

(** ** YAML. *)
Lemma y_links p deg ls : (forall l, In l ls -> yl_name l <> None) -> forall g b i fx rm,
  for_each ls (parseLink p deg) (mkYS g b i fx rm) =
  s <- for_each (filter (fun l => negb (y_out p l)) ls) (parseLink (no_filter p) deg) (mkYS g b i [] []) ;;
  Ok (mkYS (ys_g s) (ys_base s) (ys_link s) (fx ++ map y_name (filter (y_fixed p) ls)) (rm ++ map y_name (filter (y_out p) ls))).
Proof.
  induction ls as [|l ls IH]; intros H g b i fx rm; cbn [for_each filter map bind]; [now rewrite !app_nil_r|].
  assert (Hl : yl_name l <> None) by (apply H; now left). assert (H' : forall l, In l ls -> yl_name l <> None) by (intros; apply H; now right).
  specialize (IH H'). destruct l as [nm ine]. cbn [yl_name] in Hl. destruct nm as [nm|]; [|congruence].
  assert (EN : y_name (mkYL (Some nm) ine) = nm) by reflexivity.
  assert (EO : y_out p (mkYL (Some nm) ine) = left_out p nm (absent ine)) by reflexivity.
  assert (EX : y_fixed p (mkYL (Some nm) ine) = kept_fixed p nm (absent ine)) by reflexivity.
  rewrite EO, EX. unfold kept_fixed. unfold parseLink at 1. cbn [yl_name as_or yl_inertial ys_link ys_g ys_base ys_fixed ys_removed].
  change (in_names (pp_filtered p) nm) with (filtered p nm).
  assert (EA : match ine with None => true | Some _ => false end = absent ine) by reflexivity. rewrite EA.
  assert (LO : left_out p nm (absent ine) = (pp_remove_virtual p && absent ine) || (filtered p nm && pp_remove_filtered p)) by (unfold left_out; now rewrite (andb_comm (absent ine))).
  rewrite LO. destruct (pp_remove_virtual p && absent ine) eqn:EV; cbn [orb negb andb bind].
  { cbn [map]. rewrite EN. rewrite IH, <- ?app_assoc. reflexivity. }
  destruct (filtered p nm && pp_remove_filtered p) eqn:EF; cbn [negb andb bind].
  { cbn [map]. rewrite EN. rewrite IH, <- ?app_assoc. reflexivity. }
  cbn [for_each]. unfold parseLink at 2. cbn [yl_name as_or yl_inertial ys_link ys_g ys_base ys_fixed ys_removed no_filter pp_remove_virtual pp_filtered pp_transform andb in_names existsb].
  destruct (parseInertial deg (pp_transform p) nm ine); cbn [bind]; try reflexivity.
  destruct (grun (addBody a) g); cbn [bind]; try reflexivity.
  rewrite IH. destruct (filtered p nm) eqn:EFF; cbn [map]; [rewrite EN, <- app_assoc|]; reflexivity.
Qed.
Lemma y_joint_out p deg fx rm j s : yj_name j <> None -> yj_parent j <> None -> yj_child j <> None ->
  in_names rm (y_child j) || in_names rm (y_parent j) = true -> parseJoint p deg fx rm j s = Ok s.
Proof.
  intros N1 N2 N3 E. destruct s as [[idx g] lims]. unfold parseJoint, y_child, y_parent in *. destruct (yj_parent j); [|congruence]. destruct (yj_child j); [|congruence]. cbn [as_or text] in *. now rewrite E.
Qed.
Lemma y_joint_in p deg fx rm j s : yj_name j <> None -> yj_parent j <> None -> yj_child j <> None ->
  in_names rm (y_child j) || in_names rm (y_parent j) = false -> parseJoint p deg fx rm j s = parseJoint (no_filter p) deg [] [] (if in_names fx (y_child j) then y_fix j else j) s.
Proof.
  intros N1 N2 N3 E. destruct s as [[idx g] lims]. destruct j as [nm ty pa ch ax fr li]. cbn [yj_name yj_parent yj_child] in *. destruct nm as [nm|]; [|congruence]. destruct pa as [pa|]; [|congruence]. destruct ch as [ch|]; [|congruence].
  unfold y_child, y_parent in *. cbn [yj_parent yj_child text] in *. unfold parseJoint. cbn [yj_name yj_parent yj_child yj_type yj_axis yj_frame yj_limits as_or]. rewrite E.
  destruct (in_names fx ch); reflexivity.
Qed.
Lemma y_joints p deg fx rm js : (forall j, In j js -> yj_name j <> None /\ yj_parent j <> None /\ yj_child j <> None) -> forall s,
  for_each js (parseJoint p deg fx rm) s =
  for_each (map (fun j => if in_names fx (y_child j) then y_fix j else j) (filter (fun j => negb (in_names rm (y_parent j)) && negb (in_names rm (y_child j))) js)) (parseJoint (no_filter p) deg [] []) s.
Proof.
  induction js as [|j js IH]; intros H s; cbn [for_each filter map]; [reflexivity|].
  destruct (H j (or_introl eq_refl)) as (N1 & N2 & N3). assert (H' : forall j, In j js -> yj_name j <> None /\ yj_parent j <> None /\ yj_child j <> None) by (intros; apply H; now right).
  destruct (in_names rm (y_child j) || in_names rm (y_parent j)) eqn:E.
  - rewrite (y_joint_out p deg fx rm j s N1 N2 N3 E). cbn [bind].
    assert (EE : negb (in_names rm (y_parent j)) && negb (in_names rm (y_child j)) = false) by (destruct (in_names rm (y_child j)), (in_names rm (y_parent j)); cbn in *; congruence).
    rewrite EE. now apply IH.
  - rewrite (y_joint_in p deg fx rm j s N1 N2 N3 E).
    assert (EE : negb (in_names rm (y_parent j)) && negb (in_names rm (y_child j)) = true) by (destruct (in_names rm (y_child j)), (in_names rm (y_parent j)); cbn in *; congruence).
    rewrite EE. cbn [map for_each]. destruct (parseJoint (no_filter p) deg [] [] _ s); cbn [bind]; auto.
Qed.
Lemma yaml_filter_parse p rb : yaml_named rb -> parse_yaml (Some rb) p = parse_yaml (Some (yaml_edited p rb)) (no_filter p).
Proof.
  intros (H1 & H2). unfold parse_yaml. cbn [yaml_edited yr_name yr_links yr_deg yr_joints]. destruct (yr_name rb) as [nm|]; [|reflexivity].
  destruct (yr_links rb) as [ls|] eqn:EL; [|reflexivity]. destruct (yr_deg rb) as [deg|]; [|reflexivity]. cbn [option_map text].
  rewrite (y_links p deg ls (fun l => H1 ls l eq_refl)). set (L := filter (fun l => negb (y_out p l)) ls).
  assert (EN : forall l g b i, for_each l (parseLink (no_filter p) deg) (mkYS g b i [] []) = s <- for_each l (parseLink (no_filter p) deg) (mkYS g b i [] []) ;; Ok (mkYS (ys_g s) (ys_base s) (ys_link s) [] [])).
  { induction l as [|x l IH]; intros g b i; [reflexivity|]. cbn [for_each]. unfold parseLink at 1 3. cbn [ys_link ys_g ys_base ys_fixed ys_removed no_filter pp_remove_virtual pp_filtered pp_transform andb in_names existsb].
    destruct (parseInertial _ _ _ _); cbn [bind]; try reflexivity. destruct (grun _ _); cbn [bind]; try reflexivity. apply IH. }
  rewrite (EN L). destruct (for_each L _ _) as [s| | |]; cbn [bind]; try reflexivity. cbn [app ys_g ys_base ys_link ys_fixed ys_removed].
  destruct (yr_joints rb) as [js|] eqn:EJ; cbn [option_map]; [|reflexivity].
  rewrite (y_joints p deg _ _ js (fun j => H2 js j eq_refl)).
  assert (EE : map (fun j => if in_names (map y_name (filter (y_fixed p) ls)) (y_child j) then y_fix j else j)
     (filter (fun j => negb (in_names (map y_name (filter (y_out p) ls)) (y_parent j)) && negb (in_names (map y_name (filter (y_out p) ls)) (y_child j))) js) =
     map (fun j => if is_named y_name (y_fixed p) ls (y_child j) then y_fix j else j)
       (filter (fun j => negb (is_named y_name (y_out p) ls (y_parent j)) && negb (is_named y_name (y_out p) ls (y_child j))) js)).
  { apply filter_map_ext; intro u; now rewrite !in_names_filter. }
  rewrite EE. reflexivity.
Qed.
Theorem yaml_filter fuel g p rb : yaml_named rb -> from_yaml fuel g (Some rb) p = from_yaml fuel g (Some (yaml_edited p rb)) (no_filter p).
Proof. intro H. unfold from_yaml. rewrite (yaml_filter_parse p rb H). reflexivity. Qed.
