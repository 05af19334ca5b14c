(** Proofs about whole documents: URDF and YAML. *)
From Coq Require Import Reals String ZArith Bool Arith List Lia Permutation.
From Verif Require Import Res ResP SMap Vec VecP Sva SvaP JointM JointP MultiBodyM KinM GraphM ParserM YamlM Spec SpecGraph SpecGraphOp SpecParser SpecDoc DynP GraphP GraphWalkP GraphTreeP GraphUseP GraphTopP GraphSimP GraphHistP MbP DocGraphP DocP DocReadP ParserBodyP DocYamlP DocUrdfP.
Import ListNotations.
Open Scope nat_scope.

Lemma matched_ex {A B} (Q : nat -> A -> B -> Prop) : forall l i, (forall k a, nth_error l k = Some a -> exists b, Q (i + k) a b) -> exists l', matched Q i l l'.
Proof.
  induction l as [|a l IH]; intros i H; [exists []; exact I|]. destruct (H 0 a eq_refl) as (b & Hb). rewrite Nat.add_0_r in Hb.
  destruct (IH (S i)) as (l' & Hl). { intros k x Hk. destruct (H (S k) x Hk) as (y & Hy). exists y. now rewrite Nat.add_succ_comm. }
  exists (b :: l'). now split.
Qed.
Lemma matched_impl {A B} (Q Q' : nat -> A -> B -> Prop) : forall l l' i, (forall k a b, In a l -> Q k a b -> Q' k a b) -> matched Q i l l' -> matched Q' i l l'.
Proof. induction l as [|a l IH]; intros [|b l'] i H; cbn; auto. intros (H1 & H2). split; [apply H; auto; now left|]. apply IH; auto. intros k x y Hx. apply H. now right. Qed.
Lemma matched_len {A B} (Q : nat -> A -> B -> Prop) : forall l l' i, matched Q i l l' -> List.length l = List.length l'.
Proof. induction l as [|a l IH]; intros [|b l'] i; cbn; try contradiction; auto. intros (_ & H). f_equal. eauto. Qed.
Lemma matched_map {A B C} (f : nat -> A -> C) (g : B -> C) : forall l l' i, matched (fun i a b => g b = f i a) i l l' -> map g l' = numbered f i l.
Proof. induction l as [|a l IH]; intros [|b l'] i; cbn; try contradiction; auto. intros (H1 & H2). now rewrite H1, (IH _ _ H2). Qed.
Lemma matched_all {A B} (Q : nat -> A -> B -> Prop) (T : B -> Prop) : forall l l' i, (forall k a b, Q k a b -> T b) -> matched Q i l l' -> forall b, In b l' -> T b.
Proof. induction l as [|a l IH]; intros [|b l'] i H; cbn; try contradiction; auto. intros (H1 & H2) x [<-|Hx]; eauto. Qed.
Lemma numbered_map {A B} (f : A -> B) : forall l i, numbered (fun _ => f) i l = map f l.
Proof. induction l; intros; cbn; [auto|]. now rewrite IHl. Qed.

(** Adding the bodies. *)
Lemma add_bodies bodies : NoDup (map bname bodies) -> for_each bodies (fun b s => grun (addBody b) s) empty_graph = Ok (bst (fun i => nth i bodies bd) (List.length bodies)).
Proof.
  intro ND. rewrite <- (DocReadP.map_nth_seq bodies bd) at 1. rewrite for_each_map.
  pose proof (for_seq (fun a s => grun (addBody (nth a bodies bd)) s) (bst (fun i => nth i bodies bd)) (List.length bodies) 0) as FS. cbn [Nat.add] in FS. rewrite bst_0 in FS. apply FS.
  intros i Hi. apply (bst_S (List.length bodies) (fun i => nth i bodies bd)); [|lia]. apply (B_inj bodies ND).
Qed.

(** The loop over the joints: any reader that adds the joint, links the bodies and sets the limits. *)
Section Loop.
Context {U S0 : Type}.
Variable mk : nat -> GSt -> Limits -> S0.
Variable act : U -> S0 -> res S0.
Variable Q : nat -> U -> DLink -> Limits -> Prop.
(** What holds of the limits only depends on those of the joint. *)
Definition agree (l l' : Limits) (n : string) : Prop :=
  mfind (l_lower l) n = mfind (l_lower l') n /\ mfind (l_upper l) n = mfind (l_upper l') n /\ mfind (l_velocity l) n = mfind (l_velocity l') n /\ mfind (l_torque l) n = mfind (l_torque l') n.
Hypothesis HQ : forall i u k l l', agree l l' (jname (dl_joint k)) -> Q i u k l -> Q i u k l'.
Definition does (i : nat) (u : U) (k : DLink) : Prop := exists lo up ve ef,
  (forall s l, act u (mk i s l) = (s' <- put k s ;; Ok (mk (S i) s' (lim_set l (jname (dl_joint k)) lo up ve ef)))) /\
  (forall l, Q i u k (lim_set l (jname (dl_joint k)) lo up ve ef)).
Lemma set_other l n n' lo up ve ef : n' <> n -> agree l (lim_set l n lo up ve ef) n'.
Proof. intro NE. unfold agree, lim_set. cbn [l_lower l_upper l_velocity l_torque]. now rewrite !mfind_mset_neq by auto. Qed.
Lemma agree_trans l1 l2 l3 n : agree l1 l2 n -> agree l2 l3 n -> agree l1 l3 n.
Proof. unfold agree. intuition congruence. Qed.
Lemma loop us : forall ks i s s' l, matched does i us ks -> NoDup (map (fun k => jname (dl_joint k)) ks) -> for_each ks put s = Ok s' ->
  exists l', for_each us act (mk i s l) = Ok (mk (i + List.length us) s' l') /\ matched (fun i u k => Q i u k l') i us ks /\
    (forall n, ~ In n (map (fun k => jname (dl_joint k)) ks) -> agree l l' n).
Proof.
  induction us as [|u us IH]; intros [|k ks] i s s' l M ND F; cbn [matched] in M; try contradiction.
  - cbn [for_each] in *. injection F as <-. rewrite Nat.add_0_r. exists l. split; [reflexivity|]. split; [exact I|]. intros n _. repeat split.
  - destruct M as ((lo & up & ve & ef & E1 & E2) & M). cbn [for_each map] in *. destruct (put k s) as [s1| | |] eqn:EP; cbn [bind] in F; try discriminate.
    inversion_clear ND as [|? ? NI ND']. destruct (IH ks (S i) s1 s' (lim_set l (jname (dl_joint k)) lo up ve ef) M ND' F) as (l' & EL & QL & AL).
    exists l'. rewrite E1, EP. cbn [bind]. rewrite EL. cbn [List.length]. rewrite Nat.add_succ_r. split; [reflexivity|]. split.
    + split; [|exact QL]. eapply HQ; [apply AL; exact NI|apply E2].
    + intros n Hn. cbn [In] in Hn. eapply agree_trans; [|apply AL; tauto]. apply set_other. intros ->. apply Hn. now left.
Qed.
End Loop.

(** ** URDF. *)
Lemma origin_ok o : uorigin_ok o -> exists X, read_origin o = Ok X.
Proof.
  unfold uorigin_ok, read_origin. destruct o as [o|]; [|eauto]. destruct (uo_rpy o) as [l|]; cbn [attrToList]; [|cbn; eauto].
  intros (a & b & c & l' & -> & T). cbn [app nums]. replace (nums l') with (@nil R) by (destruct l' as [|[x|] l']; [reflexivity|contradiction|reflexivity]). cbn. eauto.
Qed.
Lemma origin_rpy (o : option UOrigin) : uorigin_ok o -> exists M, RPY_list (match o with Some o => attrToList (uo_rpy o) [0%R; 0%R; 0%R] | None => [0%R; 0%R; 0%R] end) = Ok M.
Proof.
  intro H. destruct (origin_ok o H) as (X & E). unfold read_origin in E. destruct o as [o|]; [|cbn; eauto]. destruct (RPY_list (attrToList (uo_rpy o) [0%R; 0%R; 0%R])); try discriminate. eauto.
Qed.
Lemma ulink_reads p l : ulink_ok l -> exists b, urdf_body_of p l b.
Proof.
  intros (NM & H). unfold urdf_body_of, ulink_name. destruct (ul_name l) as [n|]; [|congruence]. cbn [text]. unfold read_body. destruct (ul_inertial l) as [u|]; [|eexists; split; [|reflexivity]; reflexivity].
  destruct H as (HO & HM & HI). destruct (origin_rpy _ HO) as (M & ->). cbn [bind]. destruct (ui_mass u) as [m|]; [|congruence]. destruct (ui_inertia u) as [i|]; [|congruence]. cbn [deref bind].
  eexists. split; [|reflexivity]. reflexivity.
Qed.
Lemma ujoint_reads p u : ujoint_ok u -> exists k, names_k k = ujoint_names u /\ read_joint p u = Ok (mkJR (dl_joint k) (text (uj_type u) EmptyString) (dl_parent k) (dl_child k) (dl_X k)) /\
  jfwd (dl_joint k) = true /\ joint_ok (dl_joint k).
Proof.
  intros (H1 & H2 & (pa & H3) & (ch & H4) & H5 & H6). unfold ujoint_names, read_joint. destruct (uj_name u) as [n|]; [|congruence]. destruct (uj_type u) as [ty|]; [|congruence]. rewrite H3, H4. cbn [text deref bind].
  destruct (origin_ok _ H5) as (X & ->). cbn [bind]. set (t := rbdynFromUrdfJoint ty (ends_with n (pp_suffix p))). set (ax := match uj_axis u with Some a => normalized (attrToVector a v0) | None => unitZ end).
  assert (K : exists jt, match uj_mimic u, t with None, _ => Ok (mkJ t ax true n) | Some _, Fixed => Ok (mkJ t ax true n)
        | Some m, _ => mj <- deref (um_joint m) ;; Ok (makeMimic (mkJ t ax true n) mj (attrToDouble (um_mult m) 1) (attrToDouble (um_off m) 0)) end = Ok jt /\ jname jt = n /\ jfwd jt = true /\ built ax jt).
  { destruct (uj_mimic u) as [m|].
    - destruct (um_joint m) as [mj|]; [|congruence]. cbn [deref bind]. destruct t; (eexists; split; [reflexivity|]; split; [reflexivity|]; split; [reflexivity|]; repeat constructor).
    - eexists. split; [reflexivity|]. split; [reflexivity|]. split; [reflexivity|]. constructor. }
  destruct K as (jt & E & K1 & K2 & K3). rewrite E. cbn [bind]. exists (mkDL jt pa ch X). cbn [dl_joint dl_parent dl_child dl_X names_k]. unfold names_k. cbn [dl_joint dl_parent dl_child]. rewrite K1.
  split; [reflexivity|]. split; [reflexivity|]. split; [exact K2|]. now exists ax.
Qed.
Lemma for_each_matched {A B S0} (F : A -> res B) (G : B -> S0 -> res S0) : forall la lb i s, matched (fun _ a b => F a = Ok b) i la lb -> for_each la (fun a s => b <- F a ;; G b s) s = for_each lb G s.
Proof. induction la as [|a la IH]; intros [|b lb] i s; cbn [matched for_each]; try contradiction; auto. intros (-> & M). cbn [bind]. destruct (G b s) as [s'| | |]; cbn [bind]; auto. now apply (IH lb (S i)). Qed.

(** What is read, whatever is known about the graph. *)
Definition graph_reads (fuel : nat) (g : Garbage) (fixed : bool) (name : string) (ns : list string) (js : list (string * (string * string))) (C : PResult -> list Body -> list DLink -> Prop) : Prop :=
  forall bodies links lims, map bname bodies = ns -> map names_k links = js -> (forall k, In k links -> jfwd (dl_joint k) = true /\ joint_ok (dl_joint k)) ->
  exists s r, for_each links put (bst (fun i => nth i bodies bd) (List.length bodies)) = Ok s /\
    make_result fuel g (bname (nth 0 bodies bd)) fixed s lims name = Ok r /\ pr_limits r = lims /\ pr_name r = name /\ C r bodies links.
Lemma urdf_reads_as fuel g p rb name C : keeps_all p -> ur_name rb = Some name ->
  (forall l, In l (ur_links rb) -> ulink_ok l) -> (forall u, In u (ur_joints rb) -> ujoint_ok u) ->
  ur_links rb <> [] -> NoDup (map ulink_name (ur_links rb)) -> NoDup (map fst (map ujoint_names (ur_joints rb))) ->
  graph_reads fuel g (pp_fixed p) name (map ulink_name (ur_links rb)) (map ujoint_names (ur_joints rb)) C ->
  exists r bodies links, from_urdf fuel g (Some rb) p = Ok r /\ pr_name r = name /\
    matched (fun _ => urdf_body_of p) 0 (ur_links rb) bodies /\ matched (fun _ => urdf_link_of p (pr_limits r)) 0 (ur_joints rb) links /\ C r bodies links.
Proof.
  intros (PF & PV & PB) NM LO JO NEL NDB NDJ GR.
  destruct (matched_ex (fun _ => urdf_body_of p) (ur_links rb) 0) as (bodies & MB). { intros k l Hk. apply ulink_reads, LO. eapply nth_error_In; eauto. }
  destruct (matched_ex (fun (_ : nat) u k => names_k k = ujoint_names u /\ read_joint p u = Ok (mkJR (dl_joint k) (text (uj_type u) EmptyString) (dl_parent k) (dl_child k) (dl_X k)) /\ jfwd (dl_joint k) = true /\ joint_ok (dl_joint k)) (ur_joints rb) 0) as (links & ML).
  { intros k u Hk. apply ujoint_reads, JO. eapply nth_error_In; eauto. }
  assert (EB : map bname bodies = map ulink_name (ur_links rb)). { rewrite <- (numbered_map ulink_name _ 0). apply matched_map. eapply matched_impl; [|exact MB]. intros k a b _ (H & _). exact H. }
  assert (EL : map names_k links = map ujoint_names (ur_joints rb)). { rewrite <- (numbered_map ujoint_names _ 0). apply matched_map. eapply matched_impl; [|exact ML]. intros k a b _ (H & _). exact H. }
  rewrite <- EB in NDB. rewrite <- EL in NDJ. rewrite map_map in NDJ.
  assert (GL : forall k, In k links -> jfwd (dl_joint k) = true /\ joint_ok (dl_joint k)). { eapply matched_all; [|exact ML]. intros k a b (_ & _ & H). exact H. }
  set (act := do_joint p) in *.
  (* the joint loop does not depend on the configuration *)
  pose proof (matched_len _ _ _ _ MB) as LB.
  destruct (GR bodies links lim0 EB EL GL) as (s & _ & FE & _).
  pose (mk := fun (_ : nat) (s : GSt) (l : Limits) => (s, l)).
  destruct (loop mk (do_joint p) (fun _ u k l => urdf_link_of p l u k)) with (us := ur_joints rb) (ks := links) (i := 0) (s := bst (fun i => nth i bodies bd) (List.length bodies)) (s' := s) (l := lim0) as (lims' & FL & QL & _).
  { intros i u k l l' (A1 & A2 & A3 & A4) (Q1 & Q2 & lo & up & ve & ef & (L1 & L2 & L3 & L4) & Q3). split; [exact Q1|]. split; [exact Q2|]. exists lo, up, ve, ef. split; [|exact Q3]. unfold limits_at. repeat split; congruence. }
  { eapply matched_impl; [|exact ML]. intros i u k _ (Q1 & Q2 & Q3 & Q4). unfold does, mk. destruct (read_limits (dl_joint k) (text (uj_type u) EmptyString) (uj_limit u)) as [[[lo up] ef] ve] eqn:RL.
    exists lo, up, ve, ef. split.
    - intros s1 l. unfold do_joint. rewrite Q2. cbn [bind fst snd jr_joint jr_parent jr_child jr_type jr_X]. unfold put. destruct (grun (addJoint (dl_joint k)) s1) as [s2| | |]; cbn [bind]; auto.
      destruct (grun _ s2) as [s3| | |]; cbn [bind]; auto. now rewrite RL.
    - intro l. split; [exact Q1|]. split; [exact Q2|]. exists lo, up, ve, ef. split; [|exact RL]. unfold limits_at, lim_set. cbn [l_lower l_upper l_velocity l_torque]. now rewrite !mfind_mset_eq. }
  { exact NDJ. }
  { exact FE. }
  destruct (GR bodies links lims' EB EL GL) as (s' & r & FE' & MR & R2 & R3 & R4). rewrite FE in FE'. injection FE' as <-.
  exists r, bodies, links. split; [|split; [exact R3|split; [exact MB|split; [rewrite R2; exact QL|exact R4]]]].
  unfold from_urdf, parse_urdf. rewrite NM.
  assert (SEL : forall ls acc, (forall l, In l ls -> ulink_ok l) -> for_each ls (handle_link p) (mkLS acc [] []) = Ok (mkLS (acc ++ map (fun l => (ulink_name l, ul_inertial l)) ls) [] [])).
  { induction ls as [|l ls IH]; intros acc H; cbn [map for_each]; [now rewrite app_nil_r|]. unfold handle_link at 1. destruct (H l (or_introl eq_refl)) as (HN & _). destruct (ul_name l) as [n|] eqn:EN; [|congruence].
    assert (EU : ulink_name l = n) by (unfold ulink_name; now rewrite EN). rewrite EU.
    cbn [deref bind text ls_links ls_fixed ls_removed]. rewrite PV, PF. replace (match ul_inertial l with Some _ => false | None => false end) with false by (destruct (ul_inertial l); reflexivity).
    cbn [in_names existsb bind]. rewrite IH by (intros; apply H; now right). now rewrite <- app_assoc. }
  rewrite SEL by auto. cbn [bind ls_links ls_fixed ls_removed app].
  assert (HD : exists f rest, map (fun l => (ulink_name l, ul_inertial l)) (ur_links rb) = (bname (nth 0 bodies bd), f) :: rest).
  { destruct (ur_links rb) as [|l ls]; [congruence|]. destruct bodies as [|b bs]; [destruct MB|]. cbn in EB |- *. injection EB as E0 _. rewrite E0. eauto. }
  destruct HD as (f & rest & HD). rewrite HD. rewrite <- HD. rewrite PB. cbn [String.eqb]. rewrite for_each_map. cbn [fst snd].
  rewrite (for_each_matched (fun l => read_body (pp_transform p) (ulink_name l) (ul_inertial l)) (fun b s => grun (addBody b) s) (ur_links rb) bodies 0).
  2: { eapply matched_impl; [|exact MB]. intros k a b _ (_ & H). exact H. }
  rewrite add_bodies by exact NDB. cbn [bind].
  rewrite (for_each_keep (extract_joint [] [])).
  2: { intros u acc Hu. destruct (JO u Hu) as (_ & _ & (pa & E1) & (ch & E2) & _). unfold extract_joint. rewrite E1, E2. reflexivity. }
  cbn [bind app]. unfold mk in FL. rewrite FL. cbn [bind fst snd]. exact MR.
Qed.

Lemma graph_reads_tree fuel g fixed name ns js : tree_names ns js -> List.length ns <= fuel ->
  graph_reads fuel g fixed name ns js (fun r bodies links => robot_of bodies links (mkJ (if fixed then Fixed else Free) unitZ true "Root") (pr_mb r) /\ tree_robot g fixed r).
Proof.
  intros TN HF bodies links lims EB EL GL. assert (LB : List.length bodies = List.length ns) by (rewrite <- EB; now rewrite map_length).
  destruct (read_tree g fuel fixed bodies links lims name (tree_doc_of bodies links _ _ TN EB EL) GL ltac:(lia)) as (s & r & H1 & H2 & _ & H3 & H4 & H5 & H6). exists s, r. auto 10.
Qed.
Lemma urdf_read fuel g p rb name : keeps_all p -> ur_name rb = Some name ->
  (forall l, In l (ur_links rb) -> ulink_ok l) -> (forall u, In u (ur_joints rb) -> ujoint_ok u) ->
  tree_names (map ulink_name (ur_links rb)) (map ujoint_names (ur_joints rb)) -> List.length (ur_links rb) <= fuel ->
  exists r bodies links, from_urdf fuel g (Some rb) p = Ok r /\ pr_name r = name /\
    matched (fun _ => urdf_body_of p) 0 (ur_links rb) bodies /\ matched (fun _ => urdf_link_of p (pr_limits r)) 0 (ur_joints rb) links /\
    robot_of bodies links (mkJ (if pp_fixed p then Fixed else Free) unitZ true "Root") (pr_mb r) /\ tree_robot g (pp_fixed p) r.
Proof.
  intros PK NM LO JO TN HF. pose proof TN as (NE & ND & NJ & _). apply (urdf_reads_as fuel g p rb name _ PK NM LO JO).
  - intro E. rewrite E in NE. now apply NE.
  - exact ND.
  - exact NJ.
  - apply graph_reads_tree; [exact TN|]. now rewrite map_length.
Qed.

(** ** YAML. *)
Lemma yvec_reads o : yvec_ok o -> forall d, exists v, match o with Some y => l <- as_vec y ;; three l | None => Ok d end = Ok v.
Proof. intros H d. destruct o as [y|]; [|eauto]. destruct H as (a & b & c & ->). cbn. eauto. Qed.
Lemma yframe_reads deg f : yframe_ok f -> exists v, parseFrame deg f = Ok v.
Proof.
  intro H. destruct f as [f|]; [|cbn; eauto]. destruct H as (H1 & H2). unfold parseFrame. destruct (yvec_reads _ H1 v0) as (x & ->). cbn [bind].
  destruct (yf_rpy f) as [y|]; [|cbn; eauto]. destruct H2 as (a & b & c & ->). cbn. eauto.
Qed.
Lemma ylink_reads p deg n l : ylink_ok l -> exists b, yaml_body_of p deg n l b.
Proof.
  unfold ylink_ok, yaml_body_of, parseInertial. destruct (yl_inertial l) as [i|]; [|eexists; split; [|reflexivity]; reflexivity].
  intro H. destruct (yframe_reads deg _ H) as ((x & y) & ->). cbn [bind]. eexists. split; [|reflexivity]. reflexivity.
Qed.
Lemma ylimits_read deg o j (c : bool) : ylimits_ok (jdof j) o -> exists v, parseJointLimits deg o j c = Ok v.
Proof.
  intro H. unfold parseJointLimits. destruct o as [l|]; [|eauto]. cbn [ylimits_ok] in H. set (n := jdof j) in *.
  assert (FIN : forall lo up ef ve : list dbl, n <= List.length lo -> n <= List.length up -> n <= List.length ve -> exists v,
    (let '(lower, upper, effort, velocity) := (lo, up, ef, ve) in
      if as_or (y_deg l) deg then
        s <- for_up n (fun i s => let '(a, b, c) := s in
               a <- mul_at (PI / 180) a i ;; b <- mul_at (PI / 180) b i ;; c <- mul_at (PI / 180) c i ;; Ok (a, b, c))
             (lower, upper, velocity) ;;
        let '(lower, upper, velocity) := s in Ok (lower, upper, effort, velocity)
      else Ok (lower, upper, effort, velocity)) = Ok v).
  { intros lo up ef ve L1 L2 L3. destruct (as_or (y_deg l) deg); [|eauto]. rewrite fold_conv, conv_loop by auto. cbn [bind]. eauto. }
  destruct (Nat.ltb_spec 1 n) as [L|L].
  - destruct H as [H|(H1 & H2 & H3 & H4)]; [lia|].
    assert (K : forall o (d : dbl), ylimit_ok n o -> exists v, as_vec_def o (repeat d n) = Ok v /\ List.length v = n).
    { intros o d Ho. destruct o as [[x|q|]|]; cbn [as_vec_def]; try (exists (repeat d n); split; [reflexivity|apply repeat_length]). destruct Ho as (v & -> & Lv). exists v. split; [apply elems_map|auto]. }
    assert (KL : exists v, (if c then Ok (repeat MInf n) else as_vec_def (y_lower l) (repeat MInf n)) = Ok v /\ List.length v = n) by (destruct c; [exists (repeat MInf n); split; [reflexivity|apply repeat_length]|now apply K]).
    assert (KU : exists v, (if c then Ok (repeat PInf n) else as_vec_def (y_upper l) (repeat PInf n)) = Ok v /\ List.length v = n) by (destruct c; [exists (repeat PInf n); split; [reflexivity|apply repeat_length]|now apply K]).
    destruct KL as (lo & -> & N1). destruct KU as (up & -> & N2). destruct (K (y_effort l) PInf H3) as (ef & -> & N3). destruct (K (y_velocity l) PInf H4) as (ve & -> & N4). cbn [bind].
    apply FIN; lia.
  - destruct (Nat.eqb_spec n 1) as [E|E]; cbn [bind].
    + assert (N1 : forall d : dbl, n <= List.length (repeat d n)) by (intro; rewrite repeat_length; lia). destruct c; apply FIN; auto; cbn; lia.
    + assert (n = 0) by lia. apply FIN; lia.
Qed.
Lemma yjoint_reads p deg ns j : yjoint_ok p (fst ns) j -> exists k lo up ve ef, names_k k = ns /\ yaml_pt deg (yj_frame j) = Ok (dl_X k) /\ jfwd (dl_joint k) = true /\ joint_ok (dl_joint k) /\
  exists t c a, parseJointType (pp_suffix p) (yj_type j) (fst ns) false = Ok (t, c) /\ parseJointAxis (yj_axis j) = Ok a /\ dl_joint k = mkJ t a true (fst ns) /\
    parseJointLimits deg (yj_limits j) (dl_joint k) c = Ok (lo, up, ef, ve).
Proof.
  intros (H1 & H2 & H3). destruct ns as (n & (pa & ch)). cbn [fst] in *. destruct (yframe_reads deg _ H2) as ((xyz & rpy) & EF). destruct (yvec_reads _ H1 unitZ) as (a & EA).
  assert (T : exists t c, parseJointType (pp_suffix p) (yj_type j) n false = Ok (t, c) /\ ylimits_ok (tdof t) (yj_limits j)).
  { unfold parseJointType. destruct (yj_type j) as [t|].
    - destruct H3 as [(-> & H3)|(d & HI & H3)].
      + cbn [String.eqb Ascii.eqb Bool.eqb]. destruct (ends_with n (pp_suffix p)); cbn; eauto.
      + unfold yaml_types in HI. cbn [In] in HI.
        repeat (destruct HI as [HI|HI]; [injection HI as <- <-; cbn; eauto|]). destruct HI.
    - exists Rev, false. split; [reflexivity|]. unfold ylimits_ok. destruct (yj_limits j); auto. }
  destruct T as (t & c & ET & HL). destruct (ylimits_read deg (yj_limits j) (mkJ t a true n) c HL) as ((((lo & up) & ef) & ve) & EL).
  exists (mkDL (mkJ t a true n) pa ch (mkPT (MatrixFromRPY (vx rpy) (vy rpy) (vz rpy)) xyz)), lo, up, ve, ef. split; [reflexivity|]. cbn [dl_X dl_joint]. split; [unfold yaml_pt; rewrite EF; reflexivity|]. split; [reflexivity|]. split; [eexists; constructor|].
  exists t, c, a. do 3 (split; [assumption || reflexivity|]). exact EL.
Qed.
Lemma in_numbered {A B} (f : nat -> A -> B) : forall l i k a, nth_error l k = Some a -> nth_error (numbered f i l) k = Some (f (i + k) a).
Proof. induction l as [|x l IH]; intros i [|k] a; cbn; try discriminate. - intro E. injection E as <-. now rewrite Nat.add_0_r. - intro E. rewrite (IH (S i) k a E). now rewrite Nat.add_succ_comm. Qed.

Lemma numbered_len {A B} (f : nat -> A -> B) : forall l i, List.length (numbered f i l) = List.length l.
Proof. induction l; intros; cbn; auto. Qed.
Lemma yaml_reads_as fuel g p rb name deg ls js C : keeps_all p -> yr_name rb = Some name -> yr_deg rb = Some deg -> yr_links rb = Some ls -> yr_joints rb = Some js ->
  (forall l, In l ls -> ylink_ok l) -> (forall i j, nth_error js i = Some j -> yjoint_ok p (fst (yjoint_names (S i) j)) j) ->
  ls <> [] -> NoDup (numbered ylink_name 1 ls) -> NoDup (map fst (numbered yjoint_names 1 js)) -> hd EmptyString (numbered ylink_name 1 ls) <> EmptyString ->
  graph_reads fuel g (pp_fixed p) name (numbered ylink_name 1 ls) (numbered yjoint_names 1 js) C ->
  exists r bodies links, from_yaml fuel g (Some rb) p = Ok r /\ pr_name r = name /\
    matched (fun i l => yaml_body_of p deg (ylink_name i l) l) 1 ls bodies /\ matched (fun i j => yaml_link_of p deg (pr_limits r) (yjoint_names i j) j) 1 js links /\ C r bodies links.
Proof.
  intros (PF & PV & PB) NM DG LS JSS LO JO NEL NDB NDJ NE0 GR.
  destruct (matched_ex (fun i l => yaml_body_of p deg (ylink_name i l) l) ls 1) as (bodies & MB). { intros k l Hk. apply ylink_reads, LO. eapply nth_error_In; eauto. }
  pose (T := fun i (j : YJoint) (k : DLink) => exists lo up ve ef, names_k k = yjoint_names i j /\ yaml_pt deg (yj_frame j) = Ok (dl_X k) /\ jfwd (dl_joint k) = true /\ joint_ok (dl_joint k) /\
    exists t c a, parseJointType (pp_suffix p) (yj_type j) (fst (yjoint_names i j)) false = Ok (t, c) /\ parseJointAxis (yj_axis j) = Ok a /\ dl_joint k = mkJ t a true (fst (yjoint_names i j)) /\
    parseJointLimits deg (yj_limits j) (dl_joint k) c = Ok (lo, up, ef, ve)).
  destruct (matched_ex T js 1) as (links & ML). { intros k u Hk. unfold T. apply yjoint_reads. cbn [Nat.add]. now apply JO. }
  assert (EB : map bname bodies = numbered ylink_name 1 ls). { apply matched_map. eapply matched_impl; [|exact MB]. intros k a b _ (H & _). exact H. }
  assert (EL : map names_k links = numbered yjoint_names 1 js). { apply matched_map. eapply matched_impl; [|exact ML]. intros k a b _ (lo & up & ve & ef & H & _). exact H. }
  rewrite <- EB in NDB. rewrite <- EL in NDJ. rewrite map_map in NDJ.
  assert (GL : forall k, In k links -> jfwd (dl_joint k) = true /\ joint_ok (dl_joint k)). { eapply matched_all; [|exact ML]. intros k a b (lo & up & ve & ef & _ & _ & H1 & H2 & _). auto. }
  pose proof (matched_len _ _ _ _ MB) as LB.
  destruct (GR bodies links lim0 EB EL GL) as (s & _ & FE & _).
  pose (mk := fun (i : nat) (s : GSt) (l : Limits) => (i, s, l)).
  destruct (loop mk (parseJoint p deg [] []) (fun i u k l => yaml_link_of p deg l (yjoint_names i u) u k)) with (us := js) (ks := links) (i := 1) (s := bst (fun i => nth i bodies bd) (List.length bodies)) (s' := s) (l := lim0) as (lims' & FL & QL & _).
  { intros i u k l l' (A1 & A2 & A3 & A4) (Q1 & Q2 & t & c & a & Q3 & Q4 & Q5 & lo & up & ve & ef & (L1 & L2 & L3 & L4) & Q6). split; [exact Q1|]. split; [exact Q2|]. exists t, c, a. do 3 (split; [assumption|]). exists lo, up, ve, ef. split; [|exact Q6].
    rewrite Q5 in A1, A2, A3, A4. cbn [jname mkJ] in A1, A2, A3, A4. unfold limits_at. repeat split; congruence. }
  { eapply matched_impl; [|exact ML]. intros i u k _ (lo & up & ve & ef & Q1 & Q2 & _ & _ & t & c & a & Q3 & Q4 & Q5 & Q6). unfold does, mk.
    exists lo, up, ve, ef. pose proof (f_equal (fun x => fst (snd x)) Q1) as N2. pose proof (f_equal (fun x => snd (snd x)) Q1) as N3. unfold names_k in N2, N3. cbn [fst snd] in N2, N3. split.
    - intros s1 l. unfold parseJoint. change (as_or (yj_name u) ("joint" ++ str_of i)%string) with (fst (yjoint_names i u)).
      change (as_or (yj_parent u) ("link" ++ str_of i)%string) with (fst (snd (yjoint_names i u))). change (as_or (yj_child u) ("link" ++ str_of (S i))%string) with (snd (snd (yjoint_names i u))). rewrite <- N2, <- N3.
      cbn [in_names existsb orb]. rewrite Q3. cbn [bind]. rewrite Q4. cbn [bind]. unfold yaml_pt in Q2. destruct (parseFrame deg (yj_frame u)) as [(xyz & rpy)| | |]; cbn [bind fst snd] in Q2 |- *; try discriminate. injection Q2 as Q2.
      rewrite <- Q5, Q6. cbn [bind]. rewrite Q2. unfold put. assert (EN : fst (yjoint_names i u) = jname (dl_joint k)) by (rewrite Q5; reflexivity). rewrite EN.
      destruct (grun (addJoint (dl_joint k)) s1) as [s2| | |]; cbn [bind]; auto.
    - intro l. split; [exact Q1|]. split; [exact Q2|]. exists t, c, a. do 3 (split; [assumption|]). exists lo, up, ve, ef. split; [|exact Q6].
      assert (EN : fst (yjoint_names i u) = jname (dl_joint k)) by (rewrite Q5; reflexivity). rewrite EN. unfold limits_at, lim_set. cbn [l_lower l_upper l_velocity l_torque]. now rewrite !mfind_mset_eq. }
  { exact NDJ. }
  { exact FE. }
  destruct (GR bodies links lims' EB EL GL) as (s' & r & FE' & MR & R2 & R3 & R4). rewrite FE in FE'. injection FE' as <-.
  exists r, bodies, links. split; [|split; [exact R3|split; [exact MB|split; [rewrite R2; exact QL|exact R4]]]].
  unfold from_yaml, parse_yaml. rewrite NM, LS, DG, JSS.
  (* the links *)
  assert (LK : forall ls bs i s base, base <> EmptyString -> matched (fun i l => yaml_body_of p deg (ylink_name i l) l) i ls bs -> for_each ls (parseLink p deg) (mkYS s base i [] []) = (s' <- for_each bs (fun b s => grun (addBody b) s) s ;; Ok (mkYS s' base (i + List.length ls) [] []))).
  { clear - PF PV. induction ls as [|l ls IH]; intros [|b bs] i s base NE; cbn [matched for_each bind List.length]; try contradiction; [now rewrite Nat.add_0_r|]. intros ((_ & H1) & H2).
    unfold parseLink at 1. cbn [ys_link ys_g ys_base ys_fixed ys_removed]. rewrite PV, PF. cbn [andb in_names existsb]. change (as_or (yl_name l) ("link" ++ str_of i)%string) with (ylink_name i l). rewrite H1. cbn [bind].
    destruct (grun (addBody b) s) as [s1| | |]; cbn [bind]; auto. destruct (String.eqb_spec base "") as [|_]; [contradiction|]. rewrite (IH bs (S i) s1 base NE H2). now rewrite Nat.add_succ_r. }
  destruct ls as [|l0 ls0]; [congruence|]. destruct bodies as [|b0 bs0]; [destruct MB|].
  pose proof (add_bodies (b0 :: bs0) NDB) as AB. cbn [for_each] in AB |- *. destruct MB as ((N0 & H0) & MB). unfold parseLink at 1. cbn [ys_link ys_g ys_base ys_fixed ys_removed]. rewrite PV, PF. cbn [andb in_names existsb].
  change (as_or (yl_name l0) ("link" ++ str_of 1)%string) with (ylink_name 1 l0). rewrite H0. cbn [bind]. cbn [numbered hd] in NE0.
  destruct (grun (addBody b0) empty_graph) as [s1| | |]; cbn [bind] in AB |- *; try discriminate. cbn [String.eqb]. rewrite (LK ls0 bs0 2 s1 (ylink_name 1 l0) NE0 MB). rewrite AB. cbn [bind ys_fixed ys_removed ys_g ys_base].
  unfold mk in FL. rewrite FL. cbn [bind]. rewrite PB. cbn [String.eqb]. rewrite <- N0. exact MR.
Qed.
Lemma yaml_read fuel g p rb name deg ls js : keeps_all p -> yr_name rb = Some name -> yr_deg rb = Some deg -> yr_links rb = Some ls -> yr_joints rb = Some js ->
  (forall l, In l ls -> ylink_ok l) -> (forall i j, nth_error js i = Some j -> yjoint_ok p (fst (yjoint_names (S i) j)) j) ->
  tree_names (numbered ylink_name 1 ls) (numbered yjoint_names 1 js) -> hd EmptyString (numbered ylink_name 1 ls) <> EmptyString -> List.length ls <= fuel ->
  exists r bodies links, from_yaml fuel g (Some rb) p = Ok r /\ pr_name r = name /\
    matched (fun i l => yaml_body_of p deg (ylink_name i l) l) 1 ls bodies /\ matched (fun i j => yaml_link_of p deg (pr_limits r) (yjoint_names i j) j) 1 js links /\
    robot_of bodies links (mkJ (if pp_fixed p then Fixed else Free) unitZ true "Root") (pr_mb r) /\ tree_robot g (pp_fixed p) r.
Proof.
  intros PK NM DG LS JSS LO JO TN NE0 HF. pose proof TN as (NE & ND & NJ & _). apply (yaml_reads_as fuel g p rb name deg ls js _ PK NM DG LS JSS LO JO).
  - intro E. rewrite E in NE. now apply NE.
  - exact ND.
  - exact NJ.
  - exact NE0.
  - apply graph_reads_tree; [exact TN|]. now rewrite numbered_len.
Qed.
