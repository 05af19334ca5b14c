(** Proofs about whole robots: which are written, and those that do not come back. *)
From Coq Require Import Reals String ZArith Bool Arith List Lia Permutation.
From Verif Require Import Res ResP SMap Vec VecP Sva SvaP JointM JointP MultiBodyM KinM GraphM ParserM YamlM Spec SpecGraph SpecGraphOp SpecParser SpecDoc DynP MbP DocGraphP DocP DocReadP ParserRotP ParserRtP ParserBodyP ParserJointP DocYamlP DocUrdfP DocWholeP DocRtP.
Import ListNotations.
Open Scope nat_scope.

Lemma continuous_ok l n : limits_given l n -> exists b, is_continuous l n = Ok b.
Proof.
  intro H. unfold is_continuous. destruct (mfind (l_upper l) n) as [u|] eqn:EU, (mfind (l_lower l) n) as [w|] eqn:EW; [| | |eauto].
  - destruct u as [|x u]; [destruct (H [] (or_intror EU)); reflexivity|]. cbn [get nth_error bind]. destruct (match x with PInf => false | _ => true end); [eauto|].
    destruct w as [|y w]; [destruct (H [] (or_introl EW)); reflexivity|]. cbn [get nth_error bind]. eauto.
  - destruct u as [|x u]; [destruct (H [] (or_intror EU)); reflexivity|]. cbn [get nth_error bind]. destruct (match x with PInf => false | _ => true end); [eauto|]. cbn. eauto.
  - cbn [bind]. destruct w as [|y w]; [destruct (H [] (or_introl EW)); reflexivity|]. cbn [get nth_error bind]. eauto.
Qed.
Lemma type_name_cases l j : limits_given l (jname j) -> (writable j /\ exists ty, type_name l j = Ok ty) \/ (~ writable j /\ type_name l j = Throw InvalidArgument).
Proof.
  intro H. destruct (continuous_ok _ _ H) as (b & E). unfold writable, type_name. destruct (jtyp j); eauto. left. split; [exact I|]. rewrite E. cbn [bind]. eauto.
Qed.
Lemma axis_any j : joint_ok j -> writable j -> exists v, axis_of j = Ok v.
Proof.
  intros (a & B). apply built_shape in B. destruct B as (E & _ & _). unfold writable, axis_of. rewrite E. destruct (jtyp j); try contradiction; cbn; eauto.
Qed.
Lemma write_limits_ok l j : limits_given l (jname j) -> exists b, write_limits l j = Ok b.
Proof.
  intro H. destruct (continuous_ok _ _ H) as (b & E). unfold write_limits. rewrite E. cbn [bind]. destruct (has_limits l (jname j)); [|eauto]. destruct (jtyp j); eauto.
Qed.
(** One joint of a robot is written, or its type has no name. *)
Lemma write_cases W euler g fixed r : tree_robot g fixed r -> named r -> proper r ->
  let J i := nth i (mb_joints (pr_mb r)) jd in
  0 < List.length (mb_joints (pr_mb r)) /\ wr_joint W r (J 0) = Ok None /\ yw_joint euler r (J 0) = Ok None /\
  forall i, 0 < i < List.length (mb_joints (pr_mb r)) ->
    (writable (J i) /\ exists u y, wr_joint W r (J i) = Ok (Some u) /\ yw_joint euler r (J i) = Ok (Some y)) \/
    (~ writable (J i) /\ wr_joint W r (J i) = Throw InvalidArgument /\ yw_joint euler r (J i) = Throw InvalidArgument).
Proof.
  intros TR NM PR J. pose proof (robot_len g fixed r TR) as JL.
  assert (PR' : forall i, 0 < i < List.length (mb_joints (pr_mb r)) -> joint_ok (J i) /\ jfwd (J i) = true /\ limits_given (pr_limits r) (jname (J i))).
  { intros i Hi. apply (PR i); [lia|]. apply nth_error_nth'. lia. }
  pose proof (robot_view g fixed r TR NM) as RV. cbv zeta in RV.
  destruct RV as (N0 & _ & _ & _ & LP & _ & _ & _ & _ & _ & _ & JI & WR). { intros i Hi. apply PR'. lia. }
  split; [lia|]. split; [unfold wr_joint, J; rewrite JI by lia; reflexivity|]. split; [unfold yw_joint, J; rewrite JI by lia; reflexivity|].
  intros i Hi. destruct (PR' i Hi) as (JO & FW & LG). destruct (WR i ltac:(lia)) as (EN & nd & e & W1 & _).
  destruct (write_limits_ok _ _ LG) as (wl & EW).
  unfold wr_joint, yw_joint. unfold J in *. rewrite JI by lia. cbn [bind]. destruct (Z.eqb_spec (Z.of_nat i) 0); [lia|].
  destruct (type_name_cases _ _ LG) as [(WJ & ty & ET)|(NW & ET)]; rewrite ET; cbn [bind]; [left|right; auto].
  split; [exact WJ|]. rewrite EN. cbn [bind fst snd]. rewrite W1. cbn [bind]. destruct (axis_any _ JO WJ) as (v & ->). cbn [bind]. rewrite EW. cbn [bind]. eauto.
Qed.
Lemma each_ok {A B} (F : A -> res (option B)) l : (forall a, In a l -> exists o, F a = Ok o) -> forall acc,
  exists l', for_each l (fun j l => o <- F j ;; Ok (match o with Some u => l ++ [u] | None => l end)) acc = Ok l'.
Proof.
  induction l as [|a l IH]; intros H acc; cbn [for_each]; [eauto|]. destruct (H a (or_introl eq_refl)) as (o & E). rewrite E. cbn [bind]. apply IH. intros b Hb. apply H. now right.
Qed.
Lemma each_throw {A B} (F : A -> res (option B)) e l : (forall a, In a l -> (exists o, F a = Ok o) \/ F a = Throw e) -> (exists a, In a l /\ F a = Throw e) -> forall acc,
  for_each l (fun j l => o <- F j ;; Ok (match o with Some u => l ++ [u] | None => l end)) acc = Throw e.
Proof.
  induction l as [|a l IH]; intros H (b & Hb & E) acc; [destruct Hb|]. cbn [for_each]. destruct (H a (or_introl eq_refl)) as [(o & E')|E']; rewrite E'; cbn [bind]; [|reflexivity].
  apply IH; [intros c Hc; apply H; now right|]. destruct Hb as [->|Hb]; [congruence|eauto].
Qed.
Lemma written W euler g fixed r : tree_robot g fixed r -> named r -> proper r ->
  ((forall i j, 0 < i -> nth_error (mb_joints (pr_mb r)) i = Some j -> writable j) -> exists d d', to_urdf W r = Ok d /\ to_yaml euler r = Ok d') /\
  ((exists i j, 0 < i /\ nth_error (mb_joints (pr_mb r)) i = Some j /\ ~ writable j) -> to_urdf W r = Throw InvalidArgument /\ to_yaml euler r = Throw InvalidArgument).
Proof.
  intros TR NM PR. destruct (write_cases W euler g fixed r TR NM PR) as (N0 & U0 & Y0 & C). set (L := mb_joints (pr_mb r)) in *.
  assert (ALL : forall j, In j L -> (exists o y, wr_joint W r j = Ok o /\ yw_joint euler r j = Ok y) \/ (wr_joint W r j = Throw InvalidArgument /\ yw_joint euler r j = Throw InvalidArgument)).
  { intros j Hj. destruct (in_nth L jd j Hj) as (i & Li & <-). destruct i as [|i]; [left; eauto|]. destruct (C (S i)) as [(_ & u & y & E1 & E2)|(_ & E)]; [lia|left; eauto|right; exact E]. }
  split.
  - intro H. assert (OK : forall j, In j L -> exists o y, wr_joint W r j = Ok o /\ yw_joint euler r j = Ok y).
    { intros j Hj. destruct (in_nth L jd j Hj) as (i & Li & <-). destruct i as [|i]; [eauto|]. destruct (C (S i)) as [(_ & u & y & E1 & E2)|(N & _)]; [lia|eauto|]. exfalso. apply N. apply (H (S i)); [lia|]. now apply nth_error_nth'. }
    unfold to_urdf, to_yaml. fold L. destruct (each_ok (wr_joint W r) L) with (acc := @nil UJoint) as (l1 & E1). { intros j Hj. destruct (OK j Hj) as (o & _ & E & _). eauto. }
    destruct (each_ok (yw_joint euler r) L) with (acc := @nil YJoint) as (l2 & E2). { intros j Hj. destruct (OK j Hj) as (_ & o & _ & E). eauto. }
    rewrite E1, E2. cbn [bind]. eauto.
  - intros (i & j & Hi & Hj & NW). assert (Li : i < List.length L) by (apply nth_error_Some; congruence).
    destruct (C i) as [(Wr & _)|(_ & E1 & E2)]; [lia|exfalso; apply NW; now rewrite <- (nth_error_nth _ _ jd Hj)|]. rewrite (nth_error_nth _ _ jd Hj) in E1, E2.
    pose proof (nth_error_In _ _ Hj) as HI. unfold to_urdf, to_yaml. fold L.
    rewrite (each_throw (wr_joint W r) InvalidArgument), (each_throw (yw_joint euler r) InvalidArgument); [auto| |eauto| |eauto].
    + intros a Ha. destruct (ALL a Ha) as [(o & y & _ & E)|(_ & E)]; eauto.
    + intros a Ha. destruct (ALL a Ha) as [(o & y & E & _)|(E & _)]; eauto.
Qed.

(** ** Robots of two bodies. *)
Lemma two_lists {A} (l : list A) d a b : List.length l = 2 -> nth 0 l d = a -> nth 1 l d = b -> l = [a; b].
Proof. destruct l as [|x [|y [|]]]; cbn; try discriminate. now intros _ -> ->. Qed.
Lemma nodup2 (a b : string) : a <> b -> NoDup [a; b].
Proof. intro H. constructor; [intros [E|[]]; auto|]. constructor; [intros []|constructor]. Qed.
Lemma two_doc k : dl_parent k = "base"%string -> dl_child k = "arm"%string -> tree_doc [rb_base; rb_arm] [k].
Proof.
  intros EP EC. split; [discriminate|]. split; [apply nodup2; discriminate|]. cbn [map]. do 2 (split; [repeat constructor; intros []|]). rewrite EC. split; [intros b [<-|[]]; now left|].
  split; [intros k' [<-|[]]; rewrite EP, EC; cbn; auto|]. exists (fun n => if String.eqb n "base" then 0 else 1). intros k' [<-|[]]. rewrite EP, EC. apply Nat.ltb_lt. reflexivity.
Qed.
Lemma two_mb k root mb : dl_parent k = "base"%string -> dl_child k = "arm"%string -> jname (dl_joint k) <> jname root -> robot_of [rb_base; rb_arm] [k] root mb ->
  mb_bodies mb = [rb_base; rb_arm] /\ mb_joints mb = [root; dl_joint k] /\ mb_Xt mb = [ptid; dl_X k] /\ mb_parent mb = [(-1)%Z; 0%Z] /\ NoDup (map jname (mb_joints mb)).
Proof.
  intros EP EC NR RO. pose proof (robot_named _ _ _ _ (two_doc k EP EC) RO) as NJ. destruct RO as (W & PB & B0 & J0 & P0 & X0 & RI).
  assert (BL : List.length (mb_bodies mb) = 2) by (rewrite (Permutation_length PB); reflexivity).
  destruct (RI 1) as (k' & p & [<-|[]] & Lp & E1 & E2 & E3 & E4 & E5); [cbn; lia|]. assert (p = 0) by lia. subst p.
  assert (B1 : nth 1 (mb_bodies mb) bd = rb_arm).
  { assert (HI : In (nth 1 (mb_bodies mb) bd) [rb_base; rb_arm]). { apply (Permutation_in _ PB). apply nth_In. lia. } destruct HI as [E|[E|[]]]; [|now rewrite E].
    rewrite <- E, EC in E3. discriminate. }
  split; [exact (two_lists _ bd _ _ BL B0 B1)|]. split; [apply (two_lists _ jd); auto; rewrite (wf_joints _ W); exact BL|].
  split; [apply (two_lists _ ptid); auto; rewrite (wf_Xt_len _ W); exact BL|]. split; [apply (two_lists _ 0%Z); auto; rewrite (wf_parent_len _ W); exact BL|].
  apply NJ. intros k' [<-|[]]. exact NR.
Qed.
Lemma two_robot g fixed j X lims : jfwd j = true -> joint_ok j -> jname j <> "Root"%string -> exists r, two_of g fixed j X lims r.
Proof.
  intros FW JO NR. set (k := mkDL j "base" "arm" X).
  destruct (read_tree g 2 fixed [rb_base; rb_arm] [k] lims "robot"%string) as (s & r & _ & _ & _ & EL & EN & TR & RO); [now apply two_doc|intros k' [<-|[]]; now split|cbn; lia|].
  destruct (two_mb k (rootj fixed) _ eq_refl eq_refl NR RO) as (B & J & X' & P & ND). exists r. split; [exact TR|]. split; [split; [exact ND|rewrite B; discriminate]|]. now repeat split.
Qed.
(** What is written of such a robot. *)
Lemma two_written W euler g fixed j X lims r : two_of g fixed j X lims r -> jfwd j = true ->
  to_urdf W r = (ty <- type_name lims j ;; axis <- axis_of j ;; wl <- write_limits lims j ;;
    Ok (Some (mkUR (Some "robot"%string) [mkUL (Some "base"%string) None; mkUL (Some "arm"%string) None]
      [mkUJ (Some (jname j)) (Some ty) (Some (Some "base"%string)) (Some (Some "arm"%string)) (wr_origin W X) (if isZero3 axis then None else Some (wr_vec3d W axis))
         (if jmimic j then Some (mkUM (Some (jmimicName j)) (wr_double W (jmimicMul j)) (wr_double W (jmimicOff j))) else None)
         (if wl : bool then Some (ulim W lims (jname j)) else None)]))) /\
  to_yaml euler r = (ty <- type_name lims j ;; axis <- axis_of j ;; wl <- write_limits lims j ;;
    Ok (Some (mkYR (Some "robot"%string) (Some false) (Some [mkYL (Some "base"%string) None; mkYL (Some "arm"%string) None])
      (Some [mkYJ (Some (jname j)) (Some ty) (Some "base"%string) (Some "arm"%string) (if isZero3 axis then None else Some (yw_vec3d axis)) (yw_frame euler X)
         (if wl : bool then Some (ylim lims (jname j)) else None)])))).
Proof.
  intros (TR & NM & EB & EJ & EX & EP & EL & EN) FW. pose proof (robot_view g fixed r TR NM) as RV. cbv zeta in RV. rewrite EB, EJ, EX in RV. cbn [List.length] in RV.
  destruct RV as (_ & _ & _ & _ & _ & _ & _ & _ & _ & _ & _ & JI & WR). { intros i Hi. assert (i = 1) by lia. subst i. exact FW. }
  pose proof (JI 0 ltac:(lia)) as J0. pose proof (JI 1 ltac:(lia)) as J1. cbn [nth] in J0, J1.
  destruct (WR 1 ltac:(lia)) as (E1 & nd & e & E2 & E3 & E4). assert (P1 : par_of (pr_mb r) 1 = 0) by (unfold par_of; now rewrite EP). rewrite P1 in E1, E2. cbn [nth] in E1, E2, E3, E4.
  change (Z.of_nat 1) with 1%Z in *. change (Z.of_nat 0) with 0%Z in *.
  assert (FS : forall T (o : option T), match o with Some b => Some b | None => None end = o) by (intros T [|]; reflexivity).
  assert (ZI : wr_inertial W rbi0 = None) by (unfold wr_inertial; now rewrite zero_inertial). assert (ZY : yw_inertial rbi0 = None) by (unfold yw_inertial; now rewrite zero_inertial).
  split.
  - unfold to_urdf. rewrite EJ, EB, EN. cbn [for_each]. unfold wr_joint at 1. rewrite J0. cbn [bind Z.eqb]. unfold wr_joint. rewrite J1. cbn [bind Z.eqb]. rewrite EL.
    destruct (type_name lims j); cbn [bind]; auto. rewrite E1. cbn [bind fst snd]. rewrite E2. cbn [bind]. destruct (axis_of j); cbn [bind]; auto. destruct (write_limits lims j) as [wl| | |]; cbn [bind]; auto.
    rewrite E3. cbn [first_some]. rewrite E4, FS. cbn [map app]. unfold wr_link. cbn [bname binertia rb_base rb_arm]. rewrite ZI. reflexivity.
  - unfold to_yaml. rewrite EJ, EB, EN. cbn [for_each]. unfold yw_joint at 1. rewrite J0. cbn [bind Z.eqb]. unfold yw_joint. rewrite J1. cbn [bind Z.eqb]. rewrite EL.
    destruct (type_name lims j); cbn [bind]; auto. rewrite E1. cbn [bind fst snd]. rewrite E2. cbn [bind]. destruct (axis_of j); cbn [bind]; auto. destruct (write_limits lims j) as [wl| | |]; cbn [bind]; auto.
    rewrite E3. cbn [first_some]. rewrite E4, FS. cbn [map app]. unfold yw_link. cbn [bname binertia rb_base rb_arm]. rewrite ZY. reflexivity.
Qed.
(** Reading such a document. *)
Lemma two_read_urdf g p fuel u : plain p -> 2 <= fuel -> ujoint_ok u -> snd (ujoint_names u) = ("base", "arm")%string -> fst (ujoint_names u) <> "Root"%string ->
  exists r k lo up ve ef, from_urdf fuel g (Some (mkUR (Some "robot"%string) [mkUL (Some "base"%string) None; mkUL (Some "arm"%string) None] [u])) p = Ok r /\
    read_joint p u = Ok (mkJR (dl_joint k) (text (uj_type u) EmptyString) "base" "arm" (dl_X k)) /\ jname (dl_joint k) = fst (ujoint_names u) /\
    two_of g (pp_fixed p) (dl_joint k) (dl_X k) (pr_limits r) r /\
    limits_at (pr_limits r) (fst (ujoint_names u)) lo up ve ef /\ read_limits (dl_joint k) (text (uj_type u) EmptyString) (uj_limit u) = (lo, up, ef, ve).
Proof.
  intros (P1 & P2 & P3 & P4) HF UO EN NR. destruct (ujoint_names u) as (n & (pa & ch)) eqn:EU. cbn [fst snd] in *. injection EN as -> ->.
  destruct (urdf_read fuel g p (mkUR (Some "robot"%string) [mkUL (Some "base"%string) None; mkUL (Some "arm"%string) None] [u]) "robot"%string) as (r & bodies & links & E & NM & MB & ML & RO & TR); [now repeat split|reflexivity| | | |exact HF|].
  - cbn [ur_links]. intros l [<-|[<-|[]]]; (split; [discriminate|exact I]).
  - cbn [ur_joints]. now intros u' [<-|[]].
  - cbn [ur_links ur_joints map]. rewrite EU. split; [discriminate|]. split; [apply nodup2; discriminate|]. cbn [map fst snd]. do 2 (split; [repeat constructor; intros []|]). split; [intros m [<-|[]]; now left|].
    split; [intros j [<-|[]]; cbn; auto|]. exists (fun n => if String.eqb n "base" then 0 else 1). intros j [<-|[]]. apply Nat.ltb_lt. reflexivity.
  - cbn [ur_links ur_joints] in MB, ML. destruct bodies as [|b0 [|b1 [|b2 bs]]]; cbn [matched] in MB; try tauto. destruct links as [|k [|k2 ks]]; cbn [matched] in ML; try tauto.
    destruct MB as ((_ & M0) & (_ & M1) & _). cbn [ulink_name ul_name text ul_inertial read_body] in M0, M1. rewrite body_mci_0 in M0, M1. injection M0 as <-. injection M1 as <-.
    destruct ML as ((N & RJ & lo & up & ve & ef & LA & RL) & _). rewrite EU in N. injection N as N1 N2 N3. fold rb_base rb_arm in RO.
    assert (NRk : jname (dl_joint k) <> "Root"%string) by (rewrite N1; exact NR). destruct (two_mb k (rootj (pp_fixed p)) _ N2 N3 NRk RO) as (B & J & X' & P & ND).
    rewrite N2, N3 in RJ. rewrite N1 in LA. exists r, k, lo, up, ve, ef. split; [exact E|]. split; [exact RJ|]. split; [exact N1|]. split; [|split; [exact LA|exact RL]].
    split; [exact TR|]. split; [split; [exact ND|rewrite B; discriminate]|]. now repeat split.
Qed.
Lemma two_read_yaml g p fuel y : plain p -> 2 <= fuel -> yjoint_ok p (fst (yjoint_names 1 y)) y -> snd (yjoint_names 1 y) = ("base", "arm")%string -> fst (yjoint_names 1 y) <> "Root"%string ->
  exists r k, from_yaml fuel g (Some (mkYR (Some "robot"%string) (Some false) (Some [mkYL (Some "base"%string) None; mkYL (Some "arm"%string) None]) (Some [y]))) p = Ok r /\
    yaml_link_of p false (pr_limits r) (yjoint_names 1 y) y k /\ two_of g (pp_fixed p) (dl_joint k) (dl_X k) (pr_limits r) r.
Proof.
  intros (P1 & P2 & P3 & P4) HF UO EN NR. destruct (yjoint_names 1 y) as (n & (pa & ch)) eqn:EU. cbn [fst snd] in *. injection EN as -> ->.
  destruct (yaml_read fuel g p (mkYR (Some "robot"%string) (Some false) (Some [mkYL (Some "base"%string) None; mkYL (Some "arm"%string) None]) (Some [y])) "robot"%string false [mkYL (Some "base"%string) None; mkYL (Some "arm"%string) None] [y])
    as (r & bodies & links & E & NM & MB & ML & RO & TR); [now repeat split|reflexivity|reflexivity|reflexivity|reflexivity| | | |discriminate|exact HF|].
  - intros l [<-|[<-|[]]]; exact I.
  - intros [|i] j Hj; [|destruct i; discriminate]. injection Hj as <-. rewrite EU. exact UO.
  - cbn [numbered ylink_name yl_name text]. rewrite EU. split; [discriminate|]. split; [apply nodup2; discriminate|]. cbn [map fst snd]. do 2 (split; [repeat constructor; intros []|]). split; [intros m [<-|[]]; now left|].
    split; [intros j [<-|[]]; cbn; auto|]. exists (fun n => if String.eqb n "base" then 0 else 1). intros j [<-|[]]. apply Nat.ltb_lt. reflexivity.
  - destruct bodies as [|b0 [|b1 [|b2 bs]]]; cbn [matched] in MB; try tauto. destruct links as [|k [|k2 ks]]; cbn [matched] in ML; try tauto.
    destruct MB as ((_ & M0) & (_ & M1) & _). cbn [ylink_name yl_name text yl_inertial parseInertial] in M0, M1. rewrite body_mci_0 in M0, M1. injection M0 as <-. injection M1 as <-.
    destruct ML as (LK & _). rewrite EU in LK. pose proof LK as (N & _). injection N as N1 N2 N3. fold rb_base rb_arm in RO.
    assert (NRk : jname (dl_joint k) <> "Root"%string) by (rewrite N1; exact NR). destruct (two_mb k (rootj (pp_fixed p)) _ N2 N3 NRk RO) as (B & J & X' & P & ND).
    exists r, k. split; [exact E|]. split; [exact LK|]. split; [exact TR|]. split; [split; [exact ND|rewrite B; discriminate]|]. now repeat split.
Qed.

(** ** Robots that do not come back. *)
Lemma lims1_at lo up ve ef : limits_at (lims1 lo up ve ef) "j" lo up ve ef.
Proof. unfold lims1, lim_set, limits_at. cbn [l_lower l_upper l_velocity l_torque]. now rewrite !mfind_mset_eq. Qed.
Lemma origin_id W : exact_text W -> euler_ok (w_euler W) -> uorigin_ok (wr_origin W ptid).
Proof.
  intros _ _. unfold wr_origin. destruct (isZero3 (trR ptid) && isZero3 (w_euler W (mtr (rotE ptid)))); [exact I|]. cbn. destruct (isZero3 (w_euler W _)); [exact I|]. eexists _, _, _, []. split; [reflexivity|exact I].
Qed.
Lemma two_joints g fixed j X l r j' X' l' r' g' : two_of g fixed j X l r -> two_of g' fixed j' X' l' r' -> pr_mb r' = pr_mb r -> j' = j.
Proof. intros (_ & _ & _ & E & _) (_ & _ & _ & E' & _) H. rewrite H, E in E'. now injection E' as ->. Qed.
Lemma limits_same l n lo up ve ef lo' up' ve' ef' : limits_at l n lo up ve ef -> limits_at l n lo' up' ve' ef' -> lo = lo' /\ up = up' /\ ve = ve' /\ ef = ef'.
Proof. intros (E1 & E2 & E3 & E4) (F1 & F2 & F3 & F4). repeat split; congruence. Qed.

(** Writing such a robot and reading it back. *)
Lemma jtyp_read p u jr : read_joint p u = Ok jr -> exists n ty, uj_name u = Some n /\ uj_type u = Some ty /\ jtyp (jr_joint jr) = rbdynFromUrdfJoint ty (ends_with n (pp_suffix p)) /\ jdof (jr_joint jr) = tdof (jtyp (jr_joint jr)).
Proof.
  unfold read_joint. destruct (uj_name u) as [n|]; cbn [deref bind]; [|discriminate]. destruct (uj_type u) as [ty|]; cbn [deref bind]; [|discriminate]. destruct (read_origin (uj_origin u)); cbn [bind]; try discriminate.
  destruct (uj_parent u) as [pa|]; cbn [deref bind]; [|discriminate]. destruct pa as [pa|]; cbn [deref bind]; [|discriminate]. destruct (uj_child u) as [ch|]; cbn [deref bind]; [|discriminate]. destruct ch as [ch|]; cbn [deref bind]; [|discriminate].
  set (ax := match uj_axis u with Some a => _ | None => _ end). set (t := rbdynFromUrdfJoint ty _). intro E. exists n, ty. do 2 (split; [reflexivity|]). fold t.
  destruct (uj_mimic u) as [m|]; cbn [bind] in E; [|injection E as <-; split; reflexivity].
  destruct t; cbn [bind] in E; try (destruct (um_joint m); cbn [deref bind] in E; [|discriminate]); injection E as <-; split; reflexivity.
Qed.
Lemma urdf_trip W g p fuel j l ty ax wl : exact_text W -> euler_ok (w_euler W) -> plain p -> 2 <= fuel -> jfwd j = true -> joint_ok j -> jname j = "j"%string ->
  type_name l j = Ok ty -> axis_of j = Ok ax -> write_limits l j = Ok wl ->
  exists r d r' j' X' lo up ve ef, two_of g (pp_fixed p) j ptid l r /\ to_urdf W r = Ok d /\ from_urdf fuel g d p = Ok r' /\ two_of g (pp_fixed p) j' X' (pr_limits r') r' /\
    jtyp j' = rbdynFromUrdfJoint ty (ends_with "j" (pp_suffix p)) /\ jdof j' = tdof (jtyp j') /\ limits_at (pr_limits r') "j" lo up ve ef /\
    read_limits j' ty (if wl : bool then Some (ulim W l "j") else None) = (lo, up, ef, ve).
Proof.
  intros ET EO PL HF FW JO NJ TN AX WL. destruct (two_robot g (pp_fixed p) j ptid l FW JO) as (r & TR); [rewrite NJ; discriminate|].
  destruct (two_written W (w_euler W) _ _ _ _ _ _ TR FW) as (EW & _). rewrite TN, AX, WL in EW. cbn [bind] in EW. rewrite NJ in EW.
  match type of EW with _ = Ok (Some (mkUR _ _ [?u0])) => set (u := u0) in EW end.
  destruct (two_read_urdf g p fuel u PL HF) as (r' & k & lo & up & ve & ef & E & RJ & NK & T' & LA & RL); [|reflexivity|discriminate|].
  { split; [discriminate|]. split; [discriminate|]. split; [eexists; reflexivity|]. split; [eexists; reflexivity|]. split; [now apply origin_id|]. cbn [u uj_mimic]. destruct (jmimic j); [discriminate|exact I]. }
  exists r. eexists. exists r', (dl_joint k), (dl_X k), lo, up, ve, ef. split; [exact TR|]. split; [exact EW|]. split; [exact E|]. split; [exact T'|].
  destruct (jtyp_read _ _ _ RJ) as (n & ty' & E1 & E2 & E3 & E4). injection E1 as <-. injection E2 as <-. split; [exact E3|]. split; [exact E4|]. split; [exact LA|exact RL].
Qed.
Lemma frame_id e : yframe_ok (yw_frame e ptid).
Proof. unfold yw_frame. destruct (_ && _); [exact I|]. split; cbn [yf_xyz yf_rpy]; destruct (isZero3 _); try exact I; cbn; eexists _, _, _; reflexivity. Qed.
Lemma yaml_trip e g p fuel j l ty ax wl d : euler_ok e -> plain p -> 2 <= fuel -> jfwd j = true -> joint_ok j -> jname j = "j"%string ->
  type_name l j = Ok ty -> axis_of j = Ok ax -> write_limits l j = Ok wl -> In (ty, d) yaml_types -> ylimits_ok d (if wl : bool then Some (ylim l "j") else None) ->
  exists r d r' j' X' t c a lo up ve ef, two_of g (pp_fixed p) j ptid l r /\ to_yaml e r = Ok d /\ from_yaml fuel g d p = Ok r' /\ two_of g (pp_fixed p) j' X' (pr_limits r') r' /\
    j' = mkJ t a true "j" /\ parseJointType (pp_suffix p) (Some ty) "j" false = Ok (t, c) /\ limits_at (pr_limits r') "j" lo up ve ef /\
    parseJointLimits false (if wl : bool then Some (ylim l "j") else None) j' c = Ok (lo, up, ef, ve).
Proof.
  intros EO PL HF FW JO NJ TN AX WL TI LO. destruct (two_robot g (pp_fixed p) j ptid l FW JO) as (r & TR); [rewrite NJ; discriminate|].
  destruct (two_written (mkW (fun x => x) e) e _ _ _ _ _ _ TR FW) as (_ & EW). rewrite TN, AX, WL in EW. cbn [bind] in EW. rewrite NJ in EW.
  match type of EW with _ = Ok (Some (mkYR _ _ _ (Some [?u0]))) => set (u := u0) in EW end.
  destruct (two_read_yaml g p fuel u PL HF) as (r' & k & E & (NK & EX & t & c & a & PT & PA & EJ & lo & up & ve & ef & LA & RL) & T'); [|reflexivity|discriminate|].
  { split; [cbn [u yj_axis]; destruct (isZero3 ax); [exact I|]; cbn; eexists _, _, _; reflexivity|]. split; [apply frame_id|]. cbn [u yj_type]. right. exists d. split; [exact TI|exact LO]. }
  exists r. eexists. exists r', (dl_joint k), (dl_X k), t, c, a, lo, up, ve, ef. split; [exact TR|]. split; [exact EW|]. split; [exact E|]. split; [exact T'|]. split; [exact EJ|]. split; [exact PT|]. split; [exact LA|exact RL].
Qed.
(** URDF: a sliding joint without limits loses the infinite ones. *)
Lemma urdf_infinite W g p fuel : exact_text W -> euler_ok (w_euler W) -> plain p -> 2 <= fuel ->
  exists r d r', two_of g (pp_fixed p) (mkJ Prism unitX true "j") ptid (lims1 [MInf] [PInf] [PInf] [PInf]) r /\ to_urdf W r = Ok d /\ from_urdf fuel g d p = Ok r' /\ limits_at (pr_limits r') "j" [] [] [] [].
Proof.
  intros ET EO PL HF. pose proof (lims1_at [MInf] [PInf] [PInf] [PInf]) as (L1 & L2 & L3 & L4).
  destruct (urdf_trip W g p fuel (mkJ Prism unitX true "j") (lims1 [MInf] [PInf] [PInf] [PInf]) "prismatic" (slin (svscale 1 (mkSV v0 unitX))) true) as (r & d & r' & j' & X' & lo & up & ve & ef & H1 & H2 & H3 & H4 & H5 & HD & H6 & H7); auto; [exists unitX; constructor|].
  exists r, d, r'. do 3 (split; [assumption|]). unfold read_limits in H7. rewrite H5 in H7. cbn in H7. injection H7 as <- <- <- <-. exact H6.
Qed.
(** URDF: a planar joint comes back fixed. *)
Lemma write_limits_planar l : exists wl, write_limits l (mkJ Planar unitZ true "j") = Ok wl.
Proof. unfold write_limits. destruct (has_limits l (jname (mkJ Planar unitZ true "j"))); cbn [jtyp mkJ]; eauto. Qed.
Lemma urdf_planar W g p fuel l : exact_text W -> euler_ok (w_euler W) -> plain p -> 2 <= fuel ->
  exists r d r' j, two_of g (pp_fixed p) (mkJ Planar unitZ true "j") ptid l r /\ to_urdf W r = Ok d /\ from_urdf fuel g d p = Ok r' /\ nth_error (mb_joints (pr_mb r')) 1 = Some j /\ jtyp j = Fixed.
Proof.
  intros ET EO PL HF.
  destruct (write_limits_planar l) as (wl & WL).
  destruct (urdf_trip W g p fuel (mkJ Planar unitZ true "j") l "planar" unitZ wl) as (r & d & r' & j' & X' & lo & up & ve & ef & H1 & H2 & H3 & H4 & H5 & HD & H6 & H7); auto; [exists unitZ; constructor|].
  exists r, d, r', j'. do 3 (split; [assumption|]). split; [|exact H5]. destruct H4 as (_ & _ & _ & E & _). now rewrite E.
Qed.
(** A joint without end stops loses its other limits. *)
Lemma continuous_limits W e g p fuel x y : exact_text W -> euler_ok (w_euler W) -> euler_ok e -> plain p -> 2 <= fuel ->
  let l := lims1 [MInf] [PInf] [Fin x] [Fin y] in let j := mkJ Rev unitZ true "j" in
  (exists r d r', two_of g (pp_fixed p) j ptid l r /\ to_urdf W r = Ok d /\ from_urdf fuel g d p = Ok r' /\ limits_at (pr_limits r') "j" [MInf] [PInf] [PInf] [PInf]) /\
  (exists r d r', two_of g (pp_fixed p) j ptid l r /\ to_yaml e r = Ok d /\ from_yaml fuel g d p = Ok r' /\ limits_at (pr_limits r') "j" [MInf] [PInf] [PInf] [PInf]).
Proof.
  intros ET EO EO' PL HF l j. split.
  - destruct (urdf_trip W g p fuel j l "continuous" (sang (svscale 1 (mkSV unitZ v0))) false) as (r & d & r' & j' & X' & lo & up & ve & ef & H1 & H2 & H3 & H4 & H5 & HD & H6 & H7); auto; [exists unitZ; constructor|].
    exists r, d, r'. do 3 (split; [assumption|]). unfold read_limits in H7.
    rewrite HD, H5 in H7. cbn in H7. injection H7 as <- <- <- <-. exact H6.
  - destruct (yaml_trip e g p fuel j l "continuous" (sang (svscale 1 (mkSV unitZ v0))) false 1) as (r & d & r' & j' & X' & t & c & a & lo & up & ve & ef & H1 & H2 & H3 & H4 & H5 & H6 & H7 & H8); auto; [exists unitZ; constructor|cbn; auto|exact I|].
    exists r, d, r'. do 3 (split; [assumption|]). cbn in H6. injection H6 as <- <-. rewrite H5 in H8. cbn in H8. injection H8 as <- <- <- <-. exact H7.
Qed.
(** YAML: mimic joints come back as ordinary ones. *)
Lemma yaml_mimic e g p fuel : euler_ok e -> plain p -> 2 <= fuel ->
  let j := makeMimic (mkJ Rev unitZ true "j") "k" 2%R 1%R in let l := lims1 [Fin 0] [Fin 1] [Fin 1] [Fin 1] in
  exists r d r' j', two_of g (pp_fixed p) j ptid l r /\ to_yaml e r = Ok d /\ from_yaml fuel g d p = Ok r' /\ nth_error (mb_joints (pr_mb r')) 1 = Some j' /\ jmimic j' = false.
Proof.
  intros EO PL HF j l.
  destruct (yaml_trip e g p fuel j l "revolute" (sang (svscale 1 (mkSV unitZ v0))) true 1) as (r & d & r' & j' & X' & t & c & a & lo & up & ve & ef & H1 & H2 & H3 & H4 & H5 & H6 & H7 & H8); auto; [exists unitZ; repeat constructor|cbn; auto|now left|].
  exists r, d, r', j'. do 3 (split; [assumption|]). split; [|rewrite H5; reflexivity]. destruct H4 as (_ & _ & _ & E & _). now rewrite E.
Qed.
Lemma isZero3_0 : isZero3 v0 = true.
Proof. unfold isZero3, small, v0. cbn [vx vy vz]. rewrite Rabs_R0. destruct (Rle_dec 0 prec) as [|N]; [reflexivity|]. exfalso. apply N. unfold prec. apply Rlt_le, Rinv_0_lt_compat, IZR_lt. reflexivity. Qed.
Lemma parseFrame_any deg f : yframe_ok f -> exists v, parseFrame deg f = Ok v.
Proof. exact (yframe_reads deg f). Qed.
(** YAML: what stops the reader. *)
Lemma links_run p : plain p -> exists s, for_each [mkYL (Some "base"%string) None; mkYL (Some "arm"%string) None] (parseLink p false) (mkYS empty_graph EmptyString 1 [] []) = Ok s /\ ys_fixed s = [] /\ ys_removed s = [].
Proof.
  intros (P1 & P2 & P3 & P4). cbn [for_each]. unfold parseLink at 1. rewrite P1, P3. cbn [andb in_names existsb as_or yl_name yl_inertial parseInertial bind ys_base ys_link ys_fixed ys_removed ys_g String.eqb].
  destruct (grun (addBody (body_mci 0 v0 mzero "base")) empty_graph) as [g1| | |] eqn:E1; try discriminate E1. cbn [bind]. injection E1 as <-.
  unfold parseLink. rewrite P1, P3. cbn [andb in_names existsb as_or yl_name yl_inertial parseInertial bind ys_base ys_link ys_fixed ys_removed ys_g String.eqb].
  match goal with |- exists s, (x <- (g <- ?G ;; _) ;; _) = _ /\ _ => destruct G as [g2| | |] eqn:E2; try discriminate E2 end. cbn [bind]. eexists. split; [reflexivity|]. split; reflexivity.
Qed.
Lemma yaml_stops g p fuel y : plain p ->
  (forall s, parseJoint p false [] [] y s = Throw RuntimeError) ->
  from_yaml fuel g (Some (mkYR (Some "robot"%string) (Some false) (Some [mkYL (Some "base"%string) None; mkYL (Some "arm"%string) None]) (Some [y]))) p = Throw RuntimeError.
Proof.
  intros PL H. unfold from_yaml, parse_yaml. cbn [yr_name yr_deg yr_links yr_joints]. destruct (links_run p PL) as (s & E & F1 & F2). rewrite E. cbn [bind]. rewrite F1, F2. cbn [for_each]. rewrite H. reflexivity.
Qed.
(** A floating joint, with any limits given as vectors of six numbers. *)
Lemma yaml_floating e g p fuel lo up ve ef : euler_ok e -> plain p -> (forall v, In v [lo; up; ve; ef] -> List.length v = 6) -> ends_with "j" (pp_suffix p) = false ->
  exists r d, two_of g (pp_fixed p) (mkJ Free unitZ true "j") ptid (lims1 lo up ve ef) r /\ to_yaml e r = Ok d /\ from_yaml fuel g d p = Throw RuntimeError.
Proof.
  intros EO PL LEN SUF. destruct (two_robot g (pp_fixed p) (mkJ Free unitZ true "j") ptid (lims1 lo up ve ef)) as (r & TR); [reflexivity|exists unitZ; constructor|discriminate|].
  destruct (two_written (mkW (fun x => x) e) e _ _ _ _ _ _ TR eq_refl) as (_ & EW). pose proof (lims1_at lo up ve ef) as (L1 & L2 & L3 & L4).
  assert (NN : forall v, In v [lo; up; ve; ef] -> exists a b t, v = a :: b :: t). { intros v Hv. apply LEN in Hv. destruct v as [|a [|b t]]; try discriminate. eauto. }
  destruct (NN lo) as (a1 & b1 & t1 & ->); [cbn; auto|]. destruct (NN up) as (a2 & b2 & t2 & ->); [cbn; auto|]. destruct (NN ve) as (a3 & b3 & t3 & ->); [cbn; auto|]. destruct (NN ef) as (a4 & b4 & t4 & ->); [cbn; auto 6|].
  unfold write_limits, has_limits in EW. cbn [jname mkJ] in EW. rewrite L1, L2, L3, L4 in EW. cbn [andb jtyp mkJ type_name axis_of bind] in EW.
  exists r. eexists. split; [exact TR|]. split; [exact EW|]. apply yaml_stops; [exact PL|].
  intros ((idx & g0) & ls). unfold parseJoint. cbn [yj_name yj_parent yj_child yj_type yj_axis yj_frame yj_limits as_or in_names existsb orb].
  unfold parseJointType. cbn [String.eqb Ascii.eqb Bool.eqb]. rewrite SUF. cbn [mfind joint_types String.eqb Ascii.eqb Bool.eqb bind].
  assert (Z0 : isZero3 v0 = true) by (apply isZero3_0). rewrite Z0. cbn [parseJointAxis bind].
  destruct (parseFrame_any false (yw_frame e ptid) (frame_id e)) as ((xyz & rpy) & ->). cbn [bind].
  unfold parseJointLimits, ylim, yw_limit. rewrite L1. reflexivity.
Qed.
Lemma yaml_planar e g p fuel l : euler_ok e -> plain p ->
  exists r d, two_of g (pp_fixed p) (mkJ Planar unitZ true "j") ptid l r /\ to_yaml e r = Ok d /\ from_yaml fuel g d p = Throw RuntimeError.
Proof.
  intros EO PL. destruct (two_robot g (pp_fixed p) (mkJ Planar unitZ true "j") ptid l) as (r & TR); [reflexivity|exists unitZ; constructor|discriminate|].
  destruct (two_written (mkW (fun x => x) e) e _ _ _ _ _ _ TR eq_refl) as (_ & EW). destruct (write_limits_planar l) as (wl & WL). rewrite WL in EW. cbn [jtyp mkJ type_name axis_of bind] in EW.
  exists r. eexists. split; [exact TR|]. split; [exact EW|]. apply yaml_stops; [exact PL|].
  intros ((idx & g0) & ls). reflexivity.
Qed.
(** URDF: limits without lower and upper bounds. *)
Lemma urdf_no_bounds W e g p fuel : plain p -> 2 <= fuel -> exists r, from_urdf fuel g (Some (ref_doc ref_u)) p = Ok r /\ to_urdf W r = UB /\ to_yaml e r = UB.
Proof.
  intros PL HF. destruct (two_read_urdf g p fuel ref_u PL HF) as (r & k & lo & up & ve & ef & E & RJ & NK & T & LA & RL); [|reflexivity|discriminate|].
  { split; [discriminate|]. split; [discriminate|]. split; [eexists; reflexivity|]. split; [eexists; reflexivity|]. split; exact I. }
  exists r. split; [exact E|]. destruct (jtyp_read _ _ _ RJ) as (n & ty & E1 & E2 & E3 & E4). injection E1 as <-. injection E2 as <-. cbn [jr_joint] in E3, E4. change (jtyp (dl_joint k) = Rev) in E3.
  unfold read_limits in RL. rewrite E3 in RL. cbn in RL. injection RL as <- <- <- <-. change (fst (ujoint_names ref_u)) with "j"%string in LA, NK. destruct LA as (L1 & L2 & L3 & L4).
  assert (TN : type_name (pr_limits r) (dl_joint k) = UB). { unfold type_name, is_continuous. rewrite E3, NK, L1, L2. reflexivity. }
  assert (FW : jfwd (dl_joint k) = true). { unfold read_joint in RJ. cbn in RJ. injection RJ as RJ _. rewrite <- RJ. reflexivity. }
  destruct (two_written W e _ _ _ _ _ _ T FW) as (W1 & W2). rewrite TN in W1, W2. split; assumption.
Qed.
Lemma no_bounds W e g p fuel : plain p -> 2 <= fuel -> ujoint_ok ref_u /\ exists r, from_urdf fuel g (Some (ref_doc ref_u)) p = Ok r /\ to_urdf W r = UB /\ to_yaml e r = UB.
Proof.
  intros PL HF. split; [|now apply urdf_no_bounds]. split; [discriminate|]. split; [discriminate|]. split; [eexists; reflexivity|]. split; [eexists; reflexivity|]. split; exact I.
Qed.
Lemma planar_both W e g p fuel l : exact_text W -> euler_ok (w_euler W) -> euler_ok e -> plain p -> 2 <= fuel ->
  (exists r d r' j, two_of g (pp_fixed p) (mkJ Planar unitZ true "j") ptid l r /\ to_urdf W r = Ok d /\ from_urdf fuel g d p = Ok r' /\ nth_error (mb_joints (pr_mb r')) 1 = Some j /\ jtyp j = Fixed) /\
  (exists r d, two_of g (pp_fixed p) (mkJ Planar unitZ true "j") ptid l r /\ to_yaml e r = Ok d /\ from_yaml fuel g d p = Throw RuntimeError).
Proof. intros H1 H2 H3 H4 H5. split; [now apply urdf_planar|now apply yaml_planar]. Qed.
Lemma ball_case g fixed : exists r, tree_robot g fixed r /\ named r /\ proper r /\ exists j, nth_error (mb_joints (pr_mb r)) 1 = Some j /\ ~ writable j.
Proof.
  destruct (two_robot g fixed (mkJ Spherical unitZ true "j") ptid lim0) as (r & TR & NM & EB & EJ & _ & _ & EL & _); [reflexivity|exists unitZ; constructor|discriminate|].
  exists r. split; [exact TR|]. split; [exact NM|]. split; [|exists (mkJ Spherical unitZ true "j"); rewrite EJ; split; [reflexivity|intros []]].
  intros i j Hi Hj. rewrite EJ in Hj. destruct i as [|[|i]]; [lia| |destruct i; discriminate]. injection Hj as <-. split; [exists unitZ; constructor|]. split; [reflexivity|]. rewrite EL. intros v [F|F]; discriminate.
Qed.
