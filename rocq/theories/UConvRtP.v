(** A document of one format written in the other describes the same robot. *)
From Coq Require Import Reals String Ascii ZArith Bool Arith List Lra Lia Permutation.
From Verif Require Import Res ResP SMap Vec VecP Sva SvaP JointM JointP MultiBodyM KinM GraphM ParserM YamlM UConvM Spec SpecGraph SpecGraphOp SpecParser SpecDoc SpecUConv UConvP ParserP ParserRotP ParserRtP ParserBodyP ParserJointP ParserExP DocGraphP DocP DocReadP DocYamlP DocUrdfP DocWholeP DocRtP DocExP.
Import ListNotations.
Open Scope nat_scope.

Lemma urdf_to_yaml fuel g p euler rb name : euler_ok euler -> plain p -> ur_name rb = Some name ->
  (forall l, In l (ur_links rb) -> ulink_ok l /\ forall b, urdf_body_of p l b -> yaml_able_body b) ->
  (forall u, In u (ur_joints rb) -> ujoint_ok u /\ fst (ujoint_names u) <> "Root"%string /\
     forall lims k, urdf_link_of p lims u k -> yaml_able_joint lims (dl_joint k) /\ yaml_able_frame euler (dl_X k)) ->
  tree_names (map ulink_name (ur_links rb)) (map ujoint_names (ur_joints rb)) -> hd EmptyString (map ulink_name (ur_links rb)) <> EmptyString -> List.length (ur_links rb) <= fuel ->
  exists r d r', from_urdf fuel g (Some rb) p = Ok r /\ to_yaml euler r = Ok d /\ from_yaml fuel g d p = Ok r' /\ same_robot r r'.
Proof.
  intros EO PL NM LO JO TN NE HF. pose proof PL as (PF & PT & PV & PB).
  destruct (urdf_read fuel g p rb name) as (r & bodies & links & E & _ & MB & ML & RO & TR); auto; [now split|intros l Hl; apply LO; auto|intros u Hu; apply JO; auto|].
  assert (EB : map bname bodies = map ulink_name (ur_links rb)). { rewrite <- (numbered_map ulink_name _ 0). apply matched_map. eapply matched_impl; [|exact MB]. intros k a b _ (H & _). exact H. }
  assert (EL : map names_k links = map ujoint_names (ur_joints rb)). { rewrite <- (numbered_map ujoint_names _ 0). apply matched_map. eapply matched_impl; [|exact ML]. intros k a b _ (H & _). exact H. }
  pose proof (tree_doc_of bodies links _ _ TN EB EL) as TD. pose proof RO as (W0 & PB' & B0 & _ & _ & _ & RI).
  assert (BL : List.length (mb_bodies (pr_mb r)) = List.length bodies) by (apply Permutation_length; auto).
  destruct (yaml_round euler g p r EO PL TR) as (d & TD' & H).
  - split.
    + eapply robot_named; eauto. intros k Hk. destruct (matched_in _ _ _ _ ML k Hk) as (_ & u & Hu & (Q1 & _)). destruct (JO u Hu) as (_ & N & _). rewrite <- Q1 in N. exact N.
    + rewrite B0, nth0_hd. intro E0. apply NE. rewrite <- EB. destruct bodies as [|b bs]; [reflexivity|]. exact E0.
  - intros b Hb. apply (Permutation_in _ PB') in Hb. destruct (matched_in _ _ _ _ MB b Hb) as (_ & l & Hl & Hb'). now apply (LO l Hl).
  - intros i j Hi Hj. assert (Li : i < List.length bodies). { rewrite <- BL. change (i < nrBodies (pr_mb r)). rewrite <- (wf_joints _ W0). apply nth_error_Some. congruence. }
    destruct (RI i ltac:(lia)) as (k & pp & Hk & _ & EJ & _). rewrite (nth_error_nth _ _ _ Hj) in EJ. subst j. destruct (matched_in _ _ _ _ ML k Hk) as (_ & u & Hu & Q). now apply (JO u Hu).
  - intros i X Hi Hj. assert (Li : i < List.length bodies). { rewrite <- BL. change (i < nrBodies (pr_mb r)). rewrite <- (wf_Xt_len _ W0). apply nth_error_Some. congruence. }
    destruct (RI i ltac:(lia)) as (k & pp & Hk & _ & _ & EX & _). rewrite (nth_error_nth _ _ _ Hj) in EX. subst X. destruct (matched_in _ _ _ _ ML k Hk) as (_ & u & Hu & Q). now apply (JO u Hu) in Q.
  - destruct (H fuel) as (r' & E' & K). { unfold nrBodies. rewrite BL, <- (matched_len _ _ _ _ MB). exact HF. } exists r, d, r'. auto.
Qed.


Lemma yaml_to_urdf fuel g p W rb name deg ls js : exact_text W -> euler_ok (w_euler W) -> plain p -> yr_name rb = Some name -> yr_deg rb = Some deg -> yr_links rb = Some ls -> yr_joints rb = Some js ->
  (forall i l, nth_error ls i = Some l -> ylink_ok l /\ forall b, yaml_body_of p deg (ylink_name (S i) l) l b -> urdf_able_body b) ->
  (forall i j, nth_error js i = Some j -> yjoint_ok p (fst (yjoint_names (S i) j)) j /\ fst (yjoint_names (S i) j) <> "Root"%string /\
     forall lims k, yaml_link_of p deg lims (yjoint_names (S i) j) j k -> urdf_able_joint (pp_suffix p) lims (dl_joint k) /\ urdf_able_frame (w_euler W) (dl_X k)) ->
  tree_names (numbered ylink_name 1 ls) (numbered yjoint_names 1 js) -> hd EmptyString (numbered ylink_name 1 ls) <> EmptyString -> List.length ls <= fuel ->
  exists r d r', from_yaml fuel g (Some rb) p = Ok r /\ to_urdf W r = Ok d /\ from_urdf fuel g d p = Ok r' /\ same_robot r r'.
Proof.
  intros ET EO PL NM DG LS JS LO JO TN NE HF. pose proof PL as (PF & PT & PV & PB).
  destruct (yaml_read fuel g p rb name deg ls js) as (r & bodies & links & E & _ & MB & ML & RO & TR); auto; [now split|intros l Hl; apply In_nth_error in Hl; destruct Hl as (i & Hl); eapply LO; eauto|intros i j Hj; eapply JO; eauto|].
  assert (EB : map bname bodies = numbered ylink_name 1 ls). { apply matched_map. eapply matched_impl; [|exact MB]. intros k a b _ (H & _). exact H. }
  assert (EL : map names_k links = numbered yjoint_names 1 js). { apply matched_map. eapply matched_impl; [|exact ML]. intros k a b _ (H & _). exact H. }
  pose proof (tree_doc_of bodies links _ _ TN EB EL) as TD. pose proof RO as (W0 & PB' & B0 & _ & _ & _ & RI).
  assert (BL : List.length (mb_bodies (pr_mb r)) = List.length bodies) by (apply Permutation_length; auto).
  destruct (urdf_round W g p r ET EO PL TR) as (d & TD' & H).
  - split.
    + eapply robot_named; eauto. intros k Hk. destruct (matched_idx _ _ _ _ ML k Hk) as (i & u & Hu & (Q1 & _)). destruct (JO i u Hu) as (_ & N & _). cbn [Nat.add] in Q1. rewrite <- Q1 in N. exact N.
    + rewrite B0, nth0_hd. intro E0. apply NE. rewrite <- EB. destruct bodies as [|b bs]; [reflexivity|]. exact E0.
  - intros b Hb. apply (Permutation_in _ PB') in Hb. destruct (matched_idx _ _ _ _ MB b Hb) as (i & l & Hl & Hb'). apply (proj2 (LO i l Hl)). exact Hb'.
  - intros i j Hi Hj. assert (Li : i < List.length bodies). { rewrite <- BL. change (i < nrBodies (pr_mb r)). rewrite <- (wf_joints _ W0). apply nth_error_Some. congruence. }
    destruct (RI i ltac:(lia)) as (k & pp & Hk & _ & EJ & _). rewrite (nth_error_nth _ _ _ Hj) in EJ. subst j. destruct (matched_idx _ _ _ _ ML k Hk) as (i' & u & Hu & Q). apply (JO i' u Hu) in Q. apply Q.
  - intros i X Hi Hj. assert (Li : i < List.length bodies). { rewrite <- BL. change (i < nrBodies (pr_mb r)). rewrite <- (wf_Xt_len _ W0). apply nth_error_Some. congruence. }
    destruct (RI i ltac:(lia)) as (k & pp & Hk & _ & _ & EX & _). rewrite (nth_error_nth _ _ _ Hj) in EX. subst X. destruct (matched_idx _ _ _ _ ML k Hk) as (i' & u & Hu & Q). apply (JO i' u Hu) in Q. apply Q.
  - destruct (H fuel) as (r' & E' & K). { unfold nrBodies. rewrite BL, <- (matched_len _ _ _ _ MB). exact HF. } exists r, d, r'. auto.
Qed.

Lemma default_plain : plain default_params. Proof. repeat split. Qed.
Lemma convert_u fuel g E c rb name : euler_ok (w_euler (e_writer E)) -> (exists a b, first_robot c (a ++ "<")%string b) -> e_xml E c = Some rb -> ur_name rb = Some name ->
  (forall l, In l (ur_links rb) -> ulink_ok l /\ forall b, urdf_body_of default_params l b -> yaml_able_body b) ->
  (forall u, In u (ur_joints rb) -> ujoint_ok u /\ fst (ujoint_names u) <> "Root"%string /\
     forall lims k, urdf_link_of default_params lims u k -> yaml_able_joint lims (dl_joint k) /\ yaml_able_frame (w_euler (e_writer E)) (dl_X k)) ->
  tree_names (map ulink_name (ur_links rb)) (map ujoint_names (ur_joints rb)) -> hd EmptyString (map ulink_name (ur_links rb)) <> EmptyString -> List.length (ur_links rb) <= fuel ->
  exists r d r', converted fuel g E c (e_yml_text E d) /\ from_urdf fuel g (Some rb) default_params = Ok r /\ from_yaml fuel g d default_params = Ok r' /\ same_robot r r'.
Proof.
  intros EO (a & b & F) EX NM LO JO TN NE HF. destruct (urdf_to_yaml fuel g default_params _ rb name EO default_plain NM LO JO TN NE HF) as (r & d & r' & E1 & E2 & E3 & S0).
  exists r, d, r'. split; [left; exists a, b, r, d; rewrite EX; auto|]. auto.
Qed.
Lemma convert_y fuel g E c rb name deg ls js : exact_text (e_writer E) -> euler_ok (w_euler (e_writer E)) -> (exists a b, first_robot c a (":" ++ b)%string /\ ~ exists a', a = (a' ++ "<")%string) ->
  e_yml E c = Some rb -> yr_name rb = Some name -> yr_deg rb = Some deg -> yr_links rb = Some ls -> yr_joints rb = Some js ->
  (forall i l, nth_error ls i = Some l -> ylink_ok l /\ forall b, yaml_body_of default_params deg (ylink_name (S i) l) l b -> urdf_able_body b) ->
  (forall i j, nth_error js i = Some j -> yjoint_ok default_params (fst (yjoint_names (S i) j)) j /\ fst (yjoint_names (S i) j) <> "Root"%string /\
     forall lims k, yaml_link_of default_params deg lims (yjoint_names (S i) j) j k -> urdf_able_joint (pp_suffix default_params) lims (dl_joint k) /\ urdf_able_frame (w_euler (e_writer E)) (dl_X k)) ->
  tree_names (numbered ylink_name 1 ls) (numbered yjoint_names 1 js) -> hd EmptyString (numbered ylink_name 1 ls) <> EmptyString -> List.length ls <= fuel ->
  exists r d r', converted fuel g E c (e_xml_text E d) /\ from_yaml fuel g (Some rb) default_params = Ok r /\ from_urdf fuel g d default_params = Ok r' /\ same_robot r r'.
Proof.
  intros ET EO (a & b & F & NA) EX NM DG LS JS LO JO TN NE HF. destruct (yaml_to_urdf fuel g default_params _ rb name deg ls js ET EO default_plain NM DG LS JS LO JO TN NE HF) as (r & d & r' & E1 & E2 & E3 & S0).
  exists r, d, r'. split; [right; exists a, b, r, d; rewrite EX; auto|]. auto.
Qed.

(** A document of each format. *)
Definition exc_u : URobot := mkUR (Some "robot"%string) [mkUL (Some "base"%string) None; wr_link exw exdoc_arm]
  [mkUJ (Some "turn"%string) (Some "revolute"%string) (Some (Some "base"%string)) (Some (Some "arm"%string)) (wr_origin exw exp_Y) None None
        (Some (mkULim (Some [TNum (-1)]) (Some [TNum 2]) (Some [TNum 10]) (Some [TNum 3])))].
Definition exc_ls : list YLink := [mkYL None None; yw_link exdoc_yarm].
Definition exc_js : list YJoint := [mkYJ None (Some "revolute"%string) None None None (yw_frame eul exp_Y)
  (Some (mkYLim (Some (YNum (Fin (-1)))) (Some (YNum (Fin 2))) (Some (YNum (Fin 10))) (Some (YNum (Fin 3))) None))].
Definition exc_y : YRobot := mkYR (Some "robot"%string) (Some false) (Some exc_ls) (Some exc_js).
Definition exc_E : Env := mkEnv "<robot name='robot'/>" true (fun _ => Some "robot: {}"%string) (fun _ => true) (fun _ => Some exc_u) (fun _ => Some exc_y) (fun _ => "<robot/>"%string) (fun _ => "robot:"%string) exw.
Lemma exc_names a b c : NoDup [a; b] -> tree_names [a; b] [(c, (a, b))].
Proof.
  intro ND. split; [discriminate|]. split; [exact ND|]. do 2 (split; [repeat constructor; intros []|]). split; [intros n [<-|[]]; now left|].
  split; [intros j [<-|[]]; cbn; auto|]. exists (fun n => if String.eqb n a then 0 else 1). intros j [<-|[]]. cbn [fst snd]. rewrite String.eqb_refl. destruct (String.eqb_spec b a) as [->|]; [|lia]. inversion ND as [|x l N _]. exfalso. apply N. now left.
Qed.
Lemma exc_u_links : forall l, In l (ur_links exc_u) -> ulink_ok l /\ forall b, urdf_body_of default_params l b -> yaml_able_body b.
Proof.
  intros l [<-|[<-|[]]]; (split; [split; [discriminate|]; first [exact I|exact uinertial_wr]|]); intros b (_ & H).
  - left. cbn [ulink_name ul_name ul_inertial text read_body] in H. rewrite body_mci_0 in H. injection H as <-. reflexivity.
  - destruct exp_I_ok as (H1 & H2 & H3). destruct exw_ok as (E1 & _). pose proof (urdf_body exw exdoc_arm E1 H1 H2 H3) as H'. change (read_body true (bname exdoc_arm) (wr_inertial exw (binertia exdoc_arm)) = Ok b) in H. rewrite H' in H. injection H as <-. right. split; [left; exact H1|now split].
Qed.
Lemma exc_u_joints : forall u, In u (ur_joints exc_u) -> ujoint_ok u /\ fst (ujoint_names u) <> "Root"%string /\
  forall lims k, urdf_link_of default_params lims u k -> yaml_able_joint lims (dl_joint k) /\ yaml_able_frame (w_euler exw) (dl_X k).
Proof.
  intros u [<-|[]]. split; [split; [discriminate|]; split; [discriminate|]; split; [eexists; reflexivity|]; split; [eexists; reflexivity|]; split; [apply uorigin_wr|exact I]|]. split; [discriminate|].
  intros lims k (_ & H & lo & up & ve & ef & HL & HR).
  unfold read_joint in H. cbn [uj_name uj_type uj_origin uj_axis uj_parent uj_child uj_mimic deref bind] in H. rewrite exdoc_read in H. cbn [bind] in H.
  destruct k as [j pa ch X]. cbn [dl_joint dl_parent dl_child dl_X] in *. pose proof (f_equal (fun r => match r with Ok a => jr_joint a | _ => jd end) H) as EJ. pose proof (f_equal (fun r => match r with Ok a => jr_X a | _ => ptid end) H) as EX.
  cbn in EJ, EX. subst j X. split; [|exact exp_Y_ok].
  split; [exists unitZ; split; [apply uZ|apply built_ctor]|]. split; [reflexivity|]. split; [reflexivity|].
  cbn in HR. injection HR as <- <- <- <-. exists (Fin (-1)), (Fin 2), (Fin 3), (Fin 10). split; [exact HL|]. discriminate.
Qed.
Lemma exc_y_links : forall i l, nth_error exc_ls i = Some l -> ylink_ok l /\ forall b, yaml_body_of default_params false (ylink_name (S i) l) l b -> urdf_able_body b.
Proof.
  intros [|[|i]] l E; cbn in E; [| |destruct i; discriminate]; injection E as <-; (split; [first [exact I|exact yinertial_wr]|]); intros b (_ & H).
  - left; cbn [ylink_name yl_name yl_inertial text parseInertial] in H; rewrite body_mci_0 in H; injection H as <-; reflexivity.
  - destruct exp_I_ok as (H1 & H2 & H3). pose proof (yaml_body exdoc_yarm (or_introl H1) H2 H3) as H'.
    change (parseInertial false true (bname exdoc_yarm) (yw_inertial (binertia exdoc_yarm)) = Ok b) in H. rewrite H' in H. injection H as <-. right. split; [exact H1|]. now split.
Qed.
Lemma exc_y_joints : forall i j, nth_error exc_js i = Some j -> yjoint_ok default_params (fst (yjoint_names (S i) j)) j /\ fst (yjoint_names (S i) j) <> "Root"%string /\
  forall lims k, yaml_link_of default_params false lims (yjoint_names (S i) j) j k -> urdf_able_joint "_spherical" lims (dl_joint k) /\ urdf_able_frame eul (dl_X k).
Proof.
  intros [|i] j E; cbn in E; [|destruct i; discriminate]; injection E as <-.
  split; [split; [exact I|]; split; [apply yframe_wr|]; right; exists 1%nat; split; [cbn; auto|left; auto]|]. split; [discriminate|].
  intros lims k (_ & HX & t & c & a & HT & HA & HJ & lo & up & ve & ef & HL & HR). cbn [yj_frame yj_type yj_axis yj_limits] in *. rewrite exdoc_yread in HX. injection HX as <-. split; [|exact exp_Y_urdf].
  cbn in HT. injection HT as <- <-. cbn in HA. injection HA as <-. rewrite HJ in *. cbn in HR. injection HR as <- <- <- <-.
  split; [exists unitZ; split; [apply uZ|apply built_ctor]|]. split; [reflexivity|]. split; [exact I|]. right. eexists _, _, _, _. split; [exact HL|].
  repeat split; try discriminate; intros d [<-|[]]; eauto.
Qed.
Lemma exc_euler : w_euler exw = eul. Proof. reflexivity. Qed.

(** A text is rejected or taken for the other format because of a comment. *)
Lemma comment_detect x : detect ("<!-- my robot -->" ++ x)%string = KNeither /\ detect ("<!-- robot: v2 -->" ++ x)%string = KYaml /\ detect ("# my robot" ++ String nl x)%string = KNeither.
Proof. repeat split. Qed.
Lemma comment_lines a x : whole_lines (a ++ x)%string -> getContent true (a ++ x)%string = (a ++ x)%string. Proof. apply content_of. Qed.
Lemma comment_urdf fuel g E f x : no_data E -> no_help [f] -> e_file E f = Some ("<!-- my robot -->" ++ x)%string -> whole_lines ("<!-- my robot -->" ++ x)%string -> conv_main fuel g E [f] = Ok (Exit (-1)).
Proof.
  intros ND NH EF WL. destruct (stdin_cases E) as (S1 & _). unfold conv_main. cbn [List.length Nat.eqb Nat.ltb Nat.leb andb orb negb nth]. rewrite (help_no f NH), (S1 ND). cbn [String.length Nat.eqb andb orb negb]. rewrite EF, comment_lines by exact WL.
  unfold convert. destruct (comment_detect x) as (-> & _). reflexivity.
Qed.
Lemma comment_yaml fuel g E f x : no_data E -> no_help [f] -> e_file E f = Some ("# my robot" ++ String nl x)%string -> whole_lines ("# my robot" ++ String nl x)%string -> conv_main fuel g E [f] = Ok (Exit (-1)).
Proof.
  intros ND NH EF WL. destruct (stdin_cases E) as (S1 & _). unfold conv_main. cbn [List.length Nat.eqb Nat.ltb Nat.leb andb orb negb nth]. rewrite (help_no f NH), (S1 ND). cbn [String.length Nat.eqb andb orb negb]. rewrite EF, comment_lines by exact WL.
  unfold convert. destruct (comment_detect x) as (_ & _ & ->). reflexivity.
Qed.
Lemma late_input fuel g E : e_avail E = false -> conv_main fuel g E [] = Ok (Exit (-1)).
Proof. intro A. unfold conv_main. rewrite A. reflexivity. Qed.
Lemma ended_content s : ended s (getContent true s).
Proof.
  destruct (content_of s) as (H1 & H2). destruct (snoc_cases s) as [->|(a & c & ->)]; [left; split; [now left|reflexivity]|]. destruct (ascii_dec c nl) as [->|N].
  - left. assert (W : whole_lines (a ++ String nl "")) by (right; now exists a). auto.
  - right. assert (W : ~ whole_lines (a ++ String c "")).
    { intros [E|(a' & E)]; [destruct a; discriminate|]. assert (L : String.length a = String.length a') by (apply (f_equal String.length) in E; rewrite !app_len in E; cbn in E; lia).
      apply (f_equal (String.get (String.length a))) in E. rewrite get_app, L, get_app in E. congruence. }
    auto.
Qed.
Lemma ended_fun s c : ended s c -> c = getContent true s.
Proof. destruct (content_of s) as (H1 & H2). intros [(W & ->)|(W & ->)]; [now rewrite H1|now rewrite H2]. Qed.
Lemma main_uses fuel g E :
  (some_data E -> forall c, ended (e_stdin E) c ->
     (forall t, conv_main fuel g E [] = Ok (Print t) <-> converted fuel g E c t) /\
     (forall o, no_help [o] -> e_can_write E o = true -> forall p t, conv_main fuel g E [o] = Ok (Save p t) <-> p = o /\ converted fuel g E c t)) /\
  (no_data E -> forall i s c, e_file E i = Some s -> ended s c ->
     (no_help [i] -> forall t, conv_main fuel g E [i] = Ok (Print t) <-> converted fuel g E c t) /\
     (forall o, e_can_write E o = true -> forall p t, conv_main fuel g E [i; o] = Ok (Save p t) <-> p = o /\ converted fuel g E c t)).
Proof.
  split.
  - intros (A & N) c EC. rewrite (ended_fun _ _ EC). split; [now apply main_pipe|]. intros o NH CW p t. now apply main_save.
  - intros ND i s c EF EC. rewrite (ended_fun _ _ EC). split; [intros; now apply main_read|]. intros o CW p t. now apply main_files.
Qed.
Lemma first_at s a b : s = (a ++ rob ++ b)%string -> String.index 0 rob (a ++ "robo")%string = None -> first_robot s a b.
Proof.
  intros -> H. split; [reflexivity|]. intro C. destruct (robot_cases (a ++ "robo")) as [N|(x & y & E & N)]; [auto|]. rewrite E in H. change "robot"%string with rob in H. rewrite first_index in H by exact N. discriminate.
Qed.
Lemma exc_first_u : first_robot "<robot name='robot'/>" "<" " name='robot'/>". Proof. now apply first_at. Qed.
Lemma exc_first_y : first_robot "robot: {}" "" ": {}". Proof. now apply first_at. Qed.
