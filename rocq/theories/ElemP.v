(** Proofs for C75: the readers make of link and joint elements what these say. *)
From Coq Require Import Reals String Ascii ZArith Bool Arith List Lia Lra.
From Verif Require Import Res SMap Vec Sva JointM MultiBodyM KinM GraphM ParserM YamlM Spec SpecGraph SpecParser SpecGeom SpecDoc SpecIne SpecElem GeomP GeomYamlP InertiaP ParserBodyP DocWholeP.
Import ListNotations.
Open Scope R_scope.

(** ** Names. *)
Lemma substring_0 s : substring 0 (String.length s) s = s.
Proof. induction s as [|c s IH]; cbn; [reflexivity|now rewrite IH]. Qed.
Lemma substring_app a s : substring (String.length a) (String.length s) (append a s) = s.
Proof. induction a as [|c a IH]; cbn [append String.length]; [apply substring_0|exact IH]. Qed.
Lemma length_app_str a s : String.length (append a s) = (String.length a + String.length s)%nat.
Proof. induction a as [|c a IH]; cbn; [reflexivity|now rewrite IH]. Qed.
Lemma split_at : forall n k, (k <= String.length n)%nat -> exists a, n = append a (substring k (String.length n - k) n).
Proof.
  induction n as [|c n IH]; intros k L; cbn [String.length] in *.
  - exists EmptyString. replace k with 0%nat by lia. reflexivity.
  - destruct k as [|k].
    + exists EmptyString. cbn [append]. rewrite Nat.sub_0_r. symmetry. apply (substring_0 (String c n)).
    + destruct (IH k ltac:(lia)) as (a & E). exists (String c a). cbn [append substring Nat.sub]. now f_equal.
Qed.
Lemma suffix_iff n s : ends_with n s = true <-> has_suffix n s.
Proof.
  unfold ends_with, has_suffix. rewrite andb_true_iff, Nat.leb_le, String.eqb_eq. split.
  - intros (L & E). destruct (split_at n (String.length n - String.length s) ltac:(lia)) as (a & H). exists a.
    replace (String.length n - (String.length n - String.length s))%nat with (String.length s) in H by lia. now rewrite E in H.
  - intros (a & ->). rewrite length_app_str. split; [lia|]. replace (String.length a + String.length s - String.length s)%nat with (String.length a) by lia. apply substring_app.
Qed.
Lemma suffix_no n s : ends_with n s = false <-> ~ has_suffix n s.
Proof. rewrite <- suffix_iff. destruct (ends_with n s); split; congruence. Qed.

(** ** Bodies. *)
Lemma none_massless n : massless (body_mci 0 v0 mzero n).
Proof. unfold massless, body_mci; cbn [binertia imass imom iine]. split; [reflexivity|]. split; [unfold vscale, v0; cbn [vx vy vz]; f_equal; ring|reflexivity]. Qed.
Lemma urdf_inertial_ex u tf n b : read_body tf n (Some u) = Ok b -> exists m c F I, urdf_inertial u m c F I.
Proof.
  unfold read_body. set (com := match ui_origin u with Some o => attrToVector (uo_xyz o) v0 | None => v0 end).
  set (rpy := match ui_origin u with Some o => attrToList (uo_rpy o) [0; 0; 0] | None => [0; 0; 0] end).
  destruct (RPY_list rpy) as [E| | |] eqn:ER; try discriminate. cbn [bind].
  destruct (ui_mass u) as [a|] eqn:Ea; [|discriminate]. destruct (ui_inertia u) as [i|] eqn:Ei; [|discriminate]. intros _.
  assert (HX : exists X, urdf_origin (ui_origin u) X).
  { unfold rpy in ER. destruct (ui_origin u) as [o|]; [|eexists; constructor]. eexists. apply origin_iff. unfold read_origin. now rewrite ER. }
  destruct HX as (X & HX). do 4 eexists. econstructor; eauto using double_at.
Qed.
Lemma urdf_body_says p l b : urdf_body_of p l b -> urdf_link_says p l b.
Proof.
  intros (N & H). split; [exact N|]. destruct (ul_inertial l) as [u|]; [|injection H as <-; apply none_massless].
  destruct (urdf_inertial_ex _ _ _ _ H) as (m & c & F & I & HU). exists m, c, F, I. split; [exact HU|]. unfold body_says. destruct (pp_transform p).
  - destruct (urdf_turned _ _ _ _ _ (ulink_name l) HU) as (b' & E & _ & K). rewrite H in E. injection E as <-. exact K.
  - destruct (urdf_as_is _ _ _ _ _ (ulink_name l) HU) as (b' & E & _ & K). rewrite H in E. injection E as <-. exact K.
Qed.
Lemma yaml_inertial_ex deg i tf n b : parseInertial deg tf n (Some i) = Ok b -> exists m c F I, yaml_inertial deg i m c F I.
Proof.
  unfold parseInertial. destruct (parseFrame deg (yi_frame i)) as [(xyz & rpy)| | |] eqn:EF; try discriminate. intros _.
  assert (HX : yaml_frame_at deg (yi_frame i) (mkPT (MatrixFromRPY (vx rpy) (vy rpy) (vz rpy)) xyz)) by (apply frame_at_iff; eauto).
  assert (HI : exists I, yaml_inertia (yi_inertia i) I) by (destruct (yi_inertia i) as [k|]; eexists; constructor; now apply ynum_iff).
  destruct HI as (I & HI). do 4 eexists. econstructor; [exact HX|now apply ynum_iff|exact HI].
Qed.
Lemma yaml_body_says p deg n l b : yaml_body_of p deg n l b -> yaml_link_says p deg n l b.
Proof.
  intros (N & H). split; [exact N|]. destruct (yl_inertial l) as [u|]; [|injection H as <-; apply none_massless].
  destruct (yaml_inertial_ex _ _ _ _ _ H) as (m & c & F & I & HU). exists m, c, F, I. split; [exact HU|]. unfold body_says. destruct (pp_transform p).
  - destruct (yaml_turned _ _ _ _ _ _ n HU) as (b' & E & _ & K). rewrite H in E. injection E as <-. exact K.
  - destruct (yaml_as_is _ _ _ _ _ _ n HU) as (b' & E & _ & K). rewrite H in E. injection E as <-. exact K.
Qed.

(** ** URDF joints. *)
Lemma urdf_type_is suf n ty : urdf_type suf n ty (rbdynFromUrdfJoint ty (ends_with n suf)).
Proof.
  unfold rbdynFromUrdfJoint.
  destruct (String.eqb_spec ty "revolute") as [->|N1]; [constructor|]. destruct (String.eqb_spec ty "prismatic") as [->|N2]; [constructor|].
  destruct (String.eqb_spec ty "continuous") as [->|N3]; [constructor|]. destruct (String.eqb_spec ty "floating") as [->|N4].
  - destruct (ends_with n suf) eqn:E; [apply ut_ball_by_name; now apply suffix_iff|apply ut_floating; now apply suffix_no].
  - destruct (String.eqb_spec ty "ball") as [->|N5]; [constructor|]. apply ut_fixed. cbn [In]. intuition congruence.
Qed.
Lemma vdot_pos v : 0 <= vdot v v.
Proof. unfold vdot. nra. Qed.
Lemma vdot_zero v : ~ 0 < vdot v v -> v = v0.
Proof. destruct v as [x y z]. unfold vdot; cbn [vx vy vz]. intro H. assert (x = 0) by nra. assert (y = 0) by nra. assert (z = 0) by nra. subst. reflexivity. Qed.
Lemma urdf_axis_is o : urdf_axis o (match o with Some a => normalized (attrToVector a v0) | None => unitZ end).
Proof.
  destruct o as [a|]; [|constructor]. unfold normalized. pose proof (vector_at a v0) as V. set (w := attrToVector a v0) in *. destruct (Rlt_dec 0 (vdot w w)) as [P|P].
  - assert (S0 : 0 < sqrt (vdot w w)) by (now apply sqrt_lt_R0). assert (SS := sqrt_sqrt _ (vdot_pos w)). set (s := sqrt (vdot w w)) in *.
    apply (ua_some a (vscale (/ s) w) s); [|exact S0|].
    + transitivity (vdot w w * / s * / s); [destruct w as [x y z]; unfold vdot, vscale; cbn [vx vy vz]; ring|]. rewrite <- SS. field. lra.
    + replace (vscale s (vscale (/ s) w)) with w; [exact V|]. destruct w as [x y z]; unfold vscale; cbn [vx vy vz]. f_equal; field; lra.
  - rewrite (vdot_zero w P) in *. now constructor.
Qed.
Lemma urdf_values_is a : urdf_values a (map Fin (attrToList a [])).
Proof.
  exists (attrToList a []). split; [reflexivity|]. destruct a as [t|]; [left|right; split; reflexivity]. apply numbers_iff. now exists t.
Qed.
Lemma tdof_mkJ t a f n : jdof (mkJ t a f n) = tdof t. Proof. now destruct t. Qed.
Lemma urdf_limits_is jt t ty o : jtyp jt = t -> jdof jt = tdof t ->
  let '(lo, up, ef, ve) := read_limits jt ty o in urdf_limits t ty o lo up ve ef.
Proof.
  intros T D. unfold read_limits. rewrite T, D. destruct o as [l|]; [|constructor].
  assert (G : t <> Fixed -> let '(lo, up, ef, ve) := (if String.eqb ty "continuous" then (repeat MInf (tdof t), repeat PInf (tdof t), map Fin (attrToList (u_effort l) []), map Fin (attrToList (u_velocity l) []))
      else (map Fin (attrToList (u_lower l) []), map Fin (attrToList (u_upper l) []), map Fin (attrToList (u_effort l) []), map Fin (attrToList (u_velocity l) []))) in urdf_limits t ty (Some l) lo up ve ef).
  { intro N. destruct (String.eqb_spec ty "continuous") as [E|E]; [apply uli_continuous|apply uli_some]; auto using urdf_values_is. }
  destruct t; try (apply G; discriminate). now apply uli_fixed.
Qed.
Lemma urdf_link_says_so p lims u k : urdf_link_of p lims u k -> urdf_joint_says p lims u k.
Proof.
  intros (N & H & lo & up & ve & ef & L & HL). destruct k as [j pa ch X]. cbn [dl_joint dl_parent dl_child dl_X] in *.
  unfold read_joint in H. destruct (uj_name u) as [n|] eqn:En; [|discriminate]. destruct (uj_type u) as [ty|] eqn:Ety; [|discriminate]. cbn [deref bind text] in *.
  destruct (read_origin (uj_origin u)) as [Y| | |] eqn:EO; try discriminate. cbn [bind] in H.
  destruct (uj_parent u) as [[pn|]|] eqn:Ep; try discriminate. destruct (uj_child u) as [[cn|]|] eqn:Ec; try discriminate. cbn [deref bind] in H.
  pose proof (urdf_axis_is (uj_axis u)) as HA. set (ax := match uj_axis u with Some a => normalized (attrToVector a v0) | None => unitZ end) in *.
  pose proof (urdf_type_is (pp_suffix p) n ty) as HT. set (t := rbdynFromUrdfJoint ty (ends_with n (pp_suffix p))) in *.
  destruct (match uj_mimic u with Some m => match t with Fixed => Ok (mkJ t ax true n) | _ => mj <- deref (um_joint m) ;; Ok (makeMimic (mkJ t ax true n) mj (attrToDouble (um_mult m) 1) (attrToDouble (um_off m) 0)) end | None => Ok (mkJ t ax true n) end) as [jt| | |] eqn:EM; try discriminate.
  cbn [bind] in H. injection H as -> -> -> ->.
  assert (HM : urdf_mimic (mkJ t ax true n) (uj_mimic u) j /\ jname j = n /\ jtyp j = t /\ jdof j = tdof t).
  { destruct (uj_mimic u) as [m|].
    - destruct t; try (destruct (um_joint m) as [mj|] eqn:Em; [|discriminate]; cbn [deref bind] in EM); injection EM as <-;
        (split; [first [now apply umi_fixed|apply umi_some; [discriminate|exact Em|apply double_at|apply double_at]]|repeat split; reflexivity]).
    - injection EM as <-. split; [constructor|]. split; [reflexivity|]. split; [reflexivity|apply tdof_mkJ]. }
  destruct HM as (HM & J1 & J2 & J3). pose proof (urdf_limits_is j t ty (uj_limit u) J2 J3) as K. rewrite HL in K.
  rewrite J1 in L. eapply ujs; eauto. now apply origin_iff.
Qed.

(** ** YAML joints. *)
Lemma yaml_type_is suf n o t c : parseJointType suf o n false = Ok (t, c) -> yaml_type suf n o t c.
Proof.
  unfold parseJointType. destruct o as [s|]; [|intro E; injection E as <- <-; constructor].
  destruct (String.eqb_spec s "floating") as [->|NF].
  - destruct (ends_with n suf) eqn:EE; cbn; intro E; injection E as <- <-; [apply yt_ball_by_name; now apply suffix_iff|apply yt_floating; now apply suffix_no].
  - unfold joint_types, mfind. cbn [find fst snd].
    repeat match goal with |- context [String.eqb ?a ?b] => destruct (String.eqb_spec a b); [subst; cbn; intro E; injection E as <- <-; constructor|] end. discriminate.
Qed.
Lemma yaml_axis_is o a : parseJointAxis o = Ok a -> yaml_axis o a.
Proof.
  unfold parseJointAxis, yaml_axis. destruct o as [y|]; [|intro E; injection E as <-; now right]. intro E. left.
  assert (K := opt_vec_iff (Some y) a). cbn in K. apply K in E. destruct E as [E|(E & _)]; [exact E|discriminate].
Qed.

Lemma unit_id l : map (unit_of false) l = l.
Proof. induction l; cbn; congruence. Qed.
Lemma conv_fin deg (dg : option bool) n lo up ef ve : List.length lo = n -> List.length up = n -> List.length ve = n ->
  (if as_or dg deg then
     s <- for_up n (fun i s => let '(a, b, c) := s in a <- mul_at (PI / 180) a i ;; b <- mul_at (PI / 180) b i ;; c <- mul_at (PI / 180) c i ;; Ok (a, b, c)) (lo, up, ve) ;;
     let '(lower, upper, velocity) := s in Ok (lower, upper, ef, velocity)
   else Ok (lo, up, ef, ve)) =
  Ok (map (unit_of (given dg deg)) lo, map (unit_of (given dg deg)) up, ef : list dbl, map (unit_of (given dg deg)) ve).
Proof.
  intros L1 L2 L3. change (given dg deg) with (as_or dg deg). destruct (as_or dg deg); [|now rewrite !unit_id].
  rewrite fold_conv, conv_loop by lia. cbn [bind]. assert (CA : forall v, List.length v = n -> conv_upto n v = map radians v) by (intros v <-; apply conv_all). now rewrite !CA.
Qed.
Lemma bound_many n d o v : (1 < n)%nat -> ylimit_ok n o -> as_vec_def o (repeat d n) = Ok v -> yaml_bound n d o v /\ List.length v = n.
Proof.
  intros N H E. destruct o as [[x|q|]|]; cbn [as_vec_def] in E; try (injection E as <-; split; [apply yb_none; intros; [lia|discriminate]|apply repeat_length]).
  destruct H as (w & -> & L). rewrite elems_map in E. injection E as <-. split; [now apply yb_many|exact L].
Qed.
Lemma bound_one d o : yaml_bound 1 d o [as_num o d].
Proof. destruct o as [[x|q|]|]; cbn [as_num]; try (apply (yb_none 1 d); intros; [discriminate|lia]). now apply yb_one. Qed.
Lemma yaml_limits_is deg o j (c : bool) t lo up ef ve : jdof j = tdof t -> (c = true -> t = Rev) -> ylimits_ok (tdof t) o ->
  parseJointLimits deg o j c = Ok (lo, up, ef, ve) -> yaml_limits deg t c o lo up ve ef.
Proof.
  intros D C H. unfold parseJointLimits. rewrite D. destruct o as [l|]; [|intro E; injection E as <- <- <- <-; constructor]. cbn [ylimits_ok] in H.
  destruct (Nat.ltb_spec 1 (tdof t)) as [L|L].
  - destruct c; [rewrite (C eq_refl) in L; cbn in L; lia|]. destruct H as [H|(H1 & H2 & H3 & H4)]; [lia|].
    destruct (as_vec_def (y_lower l) (repeat MInf (tdof t))) as [a| | |] eqn:E1; try discriminate. cbn [bind].
    destruct (as_vec_def (y_upper l) (repeat PInf (tdof t))) as [b| | |] eqn:E2; try discriminate. cbn [bind].
    destruct (as_vec_def (y_effort l) (repeat PInf (tdof t))) as [e| | |] eqn:E3; try discriminate. cbn [bind].
    destruct (as_vec_def (y_velocity l) (repeat PInf (tdof t))) as [v| | |] eqn:E4; try discriminate. cbn [bind].
    apply (bound_many _ _ _ _ L) in E1, E2, E3, E4; auto. destruct E1 as (B1 & N1), E2 as (B2 & N2), E3 as (B3 & N3), E4 as (B4 & N4).
    rewrite conv_fin by auto. intro E. injection E as <- <- <- <-. exact (yli_some deg t false l a b v e B1 B2 B4 B3).
  - destruct (Nat.eqb_spec (tdof t) 1) as [E1|E1]; cbn [bind].
    + rewrite E1. cbn [repeat]. rewrite conv_fin by (destruct c; reflexivity). intro E. injection E as <- <- <- <-.
      assert (B := fun d o => eq_ind_r (fun n => yaml_bound n d o [as_num o d]) (bound_one d o) E1).
      pose proof (yli_some deg t c l _ _ _ _ (B MInf (y_lower l)) (B PInf (y_upper l)) (B PInf (y_velocity l)) (B PInf (y_effort l))) as K. cbn zeta in K. rewrite E1 in K.
      replace (map (unit_of (given (y_deg l) deg)) (if c then [MInf] else [as_num (y_lower l) MInf])) with (if c then repeat MInf 1 else map (unit_of (given (y_deg l) deg)) [as_num (y_lower l) MInf]) by (destruct c, (given (y_deg l) deg); reflexivity).
      replace (map (unit_of (given (y_deg l) deg)) (if c then [PInf] else [as_num (y_upper l) PInf])) with (if c then repeat PInf 1 else map (unit_of (given (y_deg l) deg)) [as_num (y_upper l) PInf]) by (destruct c, (given (y_deg l) deg); reflexivity).
      exact K.
    + assert (Z : tdof t = 0%nat) by lia. rewrite Z. cbn [repeat]. rewrite conv_fin by reflexivity. intro E. injection E as <- <- <- <-.
      assert (B := fun d o => yb_fixed (tdof t) d o Z).
      pose proof (yli_some deg t c l _ _ _ _ (B MInf (y_lower l)) (B PInf (y_upper l)) (B PInf (y_velocity l)) (B PInf (y_effort l))) as K. cbn zeta in K. rewrite Z in K. destruct c; exact K.
Qed.
Lemma type_limits p n j t c : yjoint_ok p n j -> yaml_type (pp_suffix p) n (yj_type j) t c -> (c = true -> t = Rev) /\ ylimits_ok (tdof t) (yj_limits j).
Proof.
  intros (_ & _ & H) T. assert (LE : forall d, (d <= 1)%nat -> ylimits_ok d (yj_limits j)) by (intros d L; unfold ylimits_ok; destruct (yj_limits j); [now left|exact I]).
  assert (K : forall s d, yj_type j = Some s -> s <> "floating"%string -> (forall d', In (s, d') yaml_types -> d' = d) -> ylimits_ok d (yj_limits j)).
  { intros s d E N U. rewrite E in H. destruct H as [(E' & _)|(d' & HI & HL)]; [congruence|]. now rewrite <- (U d' HI). }
  destruct (yj_type j) as [s|] eqn:Es.
  - inversion T; subst; (split; [congruence|]); cbn [tdof];
      try (apply LE; cbn; lia);
      try (eapply K; [reflexivity|discriminate|]; cbn [yaml_types In]; intros d' HI; repeat (destruct HI as [HI|HI]; [congruence|]); destruct HI);
      (destruct H as [(_ & HL)|(d & HI & _)]; [|exfalso; cbn [yaml_types In] in HI; repeat (destruct HI as [HI|HI]; [congruence|]); destruct HI]).
    + match goal with S : has_suffix _ _ |- _ => apply suffix_iff in S; now rewrite S in HL end.
    + match goal with S : ~ has_suffix _ _ |- _ => apply suffix_no in S; now rewrite S in HL end.
  - inversion T; subst. split; [reflexivity|]. apply LE. cbn; lia.
Qed.
Lemma yaml_link_says_so p deg lims ns j k : yjoint_ok p (fst ns) j -> yaml_link_of p deg lims ns j k -> yaml_joint_says p deg lims ns j k.
Proof.
  intros OK (N & HX & t & c & a & HT & HA & HJ & lo & up & ve & ef & L & HL). destruct k as [jt pa ch X]. cbn [dl_joint dl_parent dl_child dl_X] in *. subst jt. destruct ns as (n & (pn & cn)). cbn [fst snd] in *.
  injection N as -> ->. apply yaml_type_is in HT. apply yaml_axis_is in HA. destruct (type_limits _ _ _ _ _ OK HT) as (C & LO).
  apply (yaml_limits_is _ _ _ _ t) in HL; auto using tdof_mkJ. eapply (yjs p deg lims (n, (pn, cn))); cbn [fst snd]; eauto.
  apply frame_at_iff. unfold yaml_pt in HX. destruct (parseFrame deg (yj_frame j)) as [(xyz & rpy)| | |]; try discriminate. cbn [bind] in HX. injection HX as <-. eauto.
Qed.

(** ** Documents. *)
Lemma matched_at {A B} (Q Q' : nat -> A -> B -> Prop) : forall l l' i, (forall k a b, nth_error l k = Some a -> Q (i + k)%nat a b -> Q' (i + k)%nat a b) -> matched Q i l l' -> matched Q' i l l'.
Proof.
  induction l as [|a l IH]; intros [|b l'] i H; cbn [matched]; auto. intros (H1 & H2). split.
  - specialize (H 0%nat a b eq_refl). rewrite Nat.add_0_r in H. auto.
  - apply IH; auto. intros k x y E. replace (S i + k)%nat with (i + S k)%nat by lia. now apply H.
Qed.
Lemma urdf_doc fuel g p rb name : keeps_all p -> ur_name rb = Some name ->
  (forall l, In l (ur_links rb) -> ulink_ok l) -> (forall u, In u (ur_joints rb) -> ujoint_ok u) ->
  tree_names (map ulink_name (ur_links rb)) (map ujoint_names (ur_joints rb)) -> (List.length (ur_links rb) <= fuel)%nat ->
  exists r bodies links, from_urdf fuel g (Some rb) p = Ok r /\ pr_name r = name /\
    matched (fun _ => urdf_link_says p) 0 (ur_links rb) bodies /\ matched (fun _ => urdf_joint_says p (pr_limits r)) 0 (ur_joints rb) links /\
    robot_of bodies links (mkJ (if pp_fixed p then Fixed else Free) unitZ true "Root") (pr_mb r) /\ tree_robot g (pp_fixed p) r.
Proof.
  intros H1 H2 H3 H4 H5 H6. destruct (DocWholeP.urdf_read fuel g p rb name H1 H2 H3 H4 H5 H6) as (r & bs & ks & K1 & K2 & K3 & K4 & K5). exists r, bs, ks. split; [exact K1|]. split; [exact K2|].
  split; [eapply matched_impl; [|exact K3]; intros; now apply urdf_body_says|]. split; [eapply matched_impl; [|exact K4]; intros; now apply urdf_link_says_so|exact K5].
Qed.
Lemma yaml_doc fuel g p rb name deg ls js : keeps_all p ->
  yr_name rb = Some name -> yr_deg rb = Some deg -> yr_links rb = Some ls -> yr_joints rb = Some js ->
  (forall l, In l ls -> SpecDoc.ylink_ok l) -> (forall i j, nth_error js i = Some j -> yjoint_ok p (fst (yjoint_names (S i) j)) j) ->
  tree_names (numbered ylink_name 1 ls) (numbered yjoint_names 1 js) -> hd EmptyString (numbered ylink_name 1 ls) <> EmptyString -> (List.length ls <= fuel)%nat ->
  exists r bodies links, from_yaml fuel g (Some rb) p = Ok r /\ pr_name r = name /\
    matched (fun i l => yaml_link_says p deg (ylink_name i l) l) 1 ls bodies /\
    matched (fun i j => yaml_joint_says p deg (pr_limits r) (yjoint_names i j) j) 1 js links /\
    robot_of bodies links (mkJ (if pp_fixed p then Fixed else Free) unitZ true "Root") (pr_mb r) /\ tree_robot g (pp_fixed p) r.
Proof.
  intros H1 H2 H3 H4 H5 H6 H7 H8 H9 H10. destruct (DocWholeP.yaml_read fuel g p rb name deg ls js H1 H2 H3 H4 H5 H6 H7 H8 H9 H10) as (r & bs & ks & K1 & K2 & K3 & K4 & K5). exists r, bs, ks. split; [exact K1|]. split; [exact K2|].
  split; [eapply matched_impl; [|exact K3]; intros; now apply yaml_body_says|]. split; [|exact K5].
  eapply matched_at; [|exact K4]. intros k j b E. apply yaml_link_says_so. cbn [Nat.add]. now apply H7.
Qed.
