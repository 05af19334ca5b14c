(** Proofs about reading any document. *)
From Coq Require Import Reals String ZArith Bool Arith List Lia.
From Verif Require Import Res ResP SMap Vec Sva JointM JointP MultiBodyM KinM GraphM ParserM YamlM Spec SpecGraph SpecParser SpecRead ParserBodyP ParserRtP MbP KinP KinFinP ConfFinP DocGraphP DocP.
Import ListNotations.
Open Scope nat_scope.

(** No undefined behaviour, and a property of what is returned. *)
Definition good {A} (Q : A -> Prop) (x : res A) : Prop := x <> UB /\ forall v, x = Ok v -> Q v.
Lemma good_ok {A} (Q : A -> Prop) v : Q v -> good Q (Ok v). Proof. intro H. split; [discriminate|]. intros w E. now injection E as <-. Qed.
Lemma good_throw {A} (Q : A -> Prop) e : good Q (Throw e). Proof. split; discriminate. Qed.
Lemma good_bind {A B} (P : A -> Prop) (Q : B -> Prop) x k : good P x -> (forall v, P v -> good Q (k v)) -> good Q (bind x k).
Proof. intros (N & H) K. destruct x as [v|e| |]; cbn [bind]; [apply K; auto|apply good_throw|congruence|split; discriminate]. Qed.
Lemma good_any {A} (x : res A) : x <> UB -> good (fun _ => True) x. Proof. intro H. split; auto. Qed.
Lemma good_each {A S0} (Q : S0 -> Prop) (f : A -> S0 -> res S0) l : (forall a s, In a l -> Q s -> good Q (f a s)) -> forall s, Q s -> good Q (for_each l f s).
Proof.
  induction l as [|a l IH]; intros H s HS; cbn [for_each]; [now apply good_ok|]. eapply good_bind; [apply H; [now left|exact HS]|]. intros v HV. apply IH; auto. intros b s' Hb. apply H. now right.
Qed.
Lemma good_impl {A} (P Q : A -> Prop) x : (forall v, P v -> Q v) -> good P x -> good Q x. Proof. intros H (N & K). split; auto. Qed.

(** Graphs whose pointers point to something. *)
Record sound (s : GSt) : Prop := {
  so_body : forall n a, mfind (gBody (snd s)) n = Some a -> a < List.length (hNodes (fst s));
  so_joint : forall n p, mfind (gJoint (snd s)) n = Some p -> p < List.length (hJoints (fst s));
  so_ok : forall j, In j (hJoints (fst s)) -> joint_ok j;
  so_arc : forall nd e, In nd (hNodes (fst s)) -> In e (nArcs nd) -> aNext e < List.length (hNodes (fst s)) /\ joint_ok (aJoint e) }.
Lemma sound_0 : sound empty_graph. Proof. split; cbn; try discriminate; intros; contradiction. Qed.
Lemma mset_cases {A} (m : smap A) n (v : A) n' v' : mfind (mset m n v) n' = Some v' -> v' = v \/ mfind m n' = Some v'.
Proof.
  destruct (String.eqb_spec n' n) as [->|N]; [rewrite mfind_mset_eq; intro E; injection E; auto|]. rewrite mfind_mset_neq by auto. auto.
Qed.
Lemma sound_addBody B s : sound s -> good sound (grun (addBody B) s).
Proof.
  intros [S1 S2 S3 S4]. destruct s as (h & g). cbn [fst snd] in *. unfold grun, addBody. destruct (mfind (gBody g) (bname B)); [apply good_throw|]. apply good_ok. split; cbn [fst snd gBody gJoint hNodes hJoints].
  - intros n a E. rewrite app_length. cbn. apply mset_cases in E as [->|E]; [lia|]. apply S1 in E. lia.
  - auto.
  - auto.
  - intros nd e Hn He. rewrite app_length. apply in_app_iff in Hn as [Hn|[<-|[]]]; [|destruct He]. destruct (S4 nd e Hn He). split; [lia|auto].
Qed.
Lemma sound_addJoint J s : joint_ok J -> sound s -> good sound (grun (addJoint J) s).
Proof.
  intros JO [S1 S2 S3 S4]. destruct s as (h & g). cbn [fst snd] in *. unfold grun, addJoint. destruct (mfind (gJoint g) (jname J)); [apply good_throw|]. apply good_ok. split; cbn [fst snd gBody gJoint hNodes hJoints]; auto.
  - intros n p E. rewrite app_length. cbn. apply mset_cases in E as [->|E]; [lia|]. apply S2 in E. lia.
  - intros j Hj. apply in_app_iff in Hj as [Hj|[<-|[]]]; auto.
Qed.
Lemma in_upd {A} (l : list A) : forall i a x, In x (upd l i a) -> x = a \/ In x l.
Proof. induction l as [|b l IH]; intros [|i] a x H; cbn [upd] in H; auto; destruct H as [<-|H]; cbn [In]; auto. apply IH in H as [->|H]; auto. Qed.
Lemma upd_len {A} (l : list A) : forall i a, List.length (upd l i a) = List.length l.
Proof. induction l as [|b l IH]; intros [|i] a; cbn; auto. Qed.
Lemma sound_push h g a e : sound (h, g) -> a < List.length (hNodes h) -> aNext e < List.length (hNodes h) -> joint_ok (aJoint e) ->
  good (fun h' => sound (h', g) /\ List.length (hNodes h') = List.length (hNodes h)) (push_arc a e h).
Proof.
  intros [S1 S2 S3 S4] La Le JO. cbn [fst snd] in *. unfold push_arc. rewrite (get_nth _ _ (mkNode bd [])) by auto. cbn [bind]. unfold set_node. rewrite set_ok by auto. cbn [bind]. apply good_ok. cbn [hNodes]. rewrite upd_len.
  split; [|reflexivity]. split; cbn [fst snd hNodes hJoints]; rewrite ?upd_len; auto.
  intros nd e' Hn He. apply in_upd in Hn as [->|Hn]; [|now apply (S4 nd)]. cbn [with_arcs nArcs] in He. apply in_app_iff in He as [He|[<-|[]]]; [|auto]. apply (S4 (nth a (hNodes h) (mkNode bd []))); auto. now apply nth_In.
Qed.
Lemma joint_ok_fwd j b : joint_ok j -> joint_ok (set_forward j b).
Proof. intros (a & H). exists a. now constructor. Qed.
Lemma sound_link b1 t1 b2 t2 n d s : sound s -> good sound (grun (linkBodies b1 t1 b2 t2 n d) s).
Proof.
  intro S0. pose proof S0 as [S1 S2 S3 S4]. destruct s as (h & g). cbn [fst snd] in *. unfold grun, linkBodies, gbind, glift, gmod, mat_. cbn [fst snd].
  destruct (mfind (gBody g) b1) as [a1|] eqn:E1; [|apply good_throw]. cbn [fst snd]. destruct (mfind (gBody g) b2) as [a2|] eqn:E2; [|apply good_throw]. cbn [fst snd]. destruct (mfind (gJoint g) n) as [pj|] eqn:E3; [|apply good_throw]. cbn [bind fst snd].
  apply S1 in E1. apply S1 in E2. apply S2 in E3. rewrite (get_nth _ _ jd) by auto.
  assert (JO : joint_ok (nth pj (hJoints h) jd)) by (apply S3; now apply nth_In). set (j := nth pj (hJoints h) jd) in *.
  destruct (sound_push h g a1 (mkArc t1 (set_forward j (if d then jfwd j else negb (jfwd j))) a2) S0 E1 E2 (joint_ok_fwd _ _ JO)) as (N1 & G1).
  cbn [fst snd].
  destruct (push_arc a1 _ h) as [h1|e| |]; cbn [bind]; [|apply good_throw|congruence|split; discriminate]. destruct (G1 h1 eq_refl) as (K1 & L1). cbn [fst snd].
  destruct (sound_push h1 g a2 (mkArc t2 (set_forward j (negb (if d then jfwd j else negb (jfwd j)))) a1) K1) as (N2 & G2); [lia|cbn; lia|now apply joint_ok_fwd|].
  destruct (push_arc a2 _ h1) as [h2|e| |]; cbn [bind]; [|apply good_throw|congruence|split; discriminate]. apply good_ok. now apply G2.
Qed.

(** The vectors of makeMultiBody. *)
Record shaped (a : Acc) : Prop := {
  sh_joints : List.length (ac_joints a) = List.length (ac_bodies a);
  sh_pred : List.length (ac_pred a) = List.length (ac_bodies a);
  sh_parent : ac_parent a = ac_pred a;
  sh_succ : ac_succ a = map Z.of_nat (seq 0 (List.length (ac_bodies a)));
  sh_Xt : List.length (ac_Xt a) = List.length (ac_bodies a);
  sh_order : forall i z, nth_error (ac_pred a) i = Some z -> z = (-1)%Z \/ (0 <= z < Z.of_nat i)%Z;
  sh_ok : forall j, In j (ac_joints a) -> joint_ok j }.
Lemma shaped_push b j p X acc : shaped acc -> joint_ok j -> p = (-1)%Z \/ (0 <= p < Z.of_nat (List.length (ac_bodies acc)))%Z ->
  shaped (ac_push b j p (Z.of_nat (List.length (ac_bodies acc))) p X acc).
Proof.
  intros [H1 H2 H3 H4 H5 H6 H7] JO HP. split; cbn [ac_push ac_bodies ac_joints ac_pred ac_succ ac_parent ac_Xt]; rewrite ?app_length; cbn [List.length]; auto; try lia.
  - now rewrite H3.
  - rewrite H4, Nat.add_1_r, seq_S, map_app. reflexivity.
  - intros i z E. destruct (Nat.lt_ge_cases i (List.length (ac_pred acc))) as [L|L]; [rewrite nth_error_app1 in E by auto; now apply H6|].
    rewrite nth_error_app2 in E by auto. destruct (i - List.length (ac_pred acc)) as [|k] eqn:EK; [|destruct k; discriminate]. injection E as <-. rewrite <- H2 in HP. replace i with (List.length (ac_pred acc)) by lia. exact HP.
  - intros j' Hj. apply in_app_iff in Hj as [Hj|[<-|[]]]; auto.
Qed.
Lemma makeTree_good g h : sound (h, g) -> forall fuel a from j p X Xb acc, a < List.length (hNodes h) -> joint_ok j -> shaped acc ->
  p = (-1)%Z \/ (0 <= p < Z.of_nat (List.length (ac_bodies acc)))%Z ->
  good (fun acc' => shaped acc' /\ List.length (ac_bodies acc) < List.length (ac_bodies acc')) (makeTree fuel h a from j p (Z.of_nat (List.length (ac_bodies acc))) p X Xb acc).
Proof.
  intros [_ _ _ S4]. cbn [fst] in S4. induction fuel as [|fuel IH]; intros a from j p X Xb acc La JO SH HP; [split; discriminate|]. cbn [makeTree].
  rewrite (get_nth _ _ (mkNode bd [])) by auto. cbn [bind]. set (nd := nth a (hNodes h) (mkNode bd [])). assert (HN : In nd (hNodes h)) by now apply nth_In.
  set (XF := x_from (nArcs nd) from Xb). set (acc1 := ac_push _ j p _ p X acc).
  assert (SH1 : shaped acc1) by (unfold acc1; now apply shaped_push). assert (L1 : List.length (ac_bodies acc1) = S (List.length (ac_bodies acc))) by (unfold acc1; cbn; rewrite app_length; cbn; lia).
  eapply good_impl; [|apply (good_each (fun acc' => shaped acc' /\ List.length (ac_bodies acc1) <= List.length (ac_bodies acc')))]; [intros v (H1 & H2); split; [auto|lia]| |split; [auto|lia]].
  intros e acc2 He (SH2 & L2). destruct (is_from from e); [apply good_ok; auto|]. destruct (S4 nd e HN He) as (Ln & JE).
  eapply good_impl; [|apply (IH (aNext e) (Some a) (aJoint e) _ _ ptid acc2 Ln JE SH2)]; [intros v (H1 & H2); split; [auto|lia]|]. right. lia.
Qed.
Lemma make_result_good fuel g base fixed s l n : sound s -> good usable (make_result fuel g base fixed s l n).
Proof.
  intro S0. unfold make_result. apply (good_bind wf_mb).
  - unfold makeMultiBody_fixed, makeMultiBody_type, makeMultiBody, mat_. destruct s as (h & gr). pose proof S0 as [S1 _ _ _]. cbn [fst snd] in S1. destruct (mfind (gBody gr) base) as [a|] eqn:E; [|apply good_throw]. cbn [bind].
    eapply good_bind; [apply (makeTree_good gr h S0 fuel a None (mkJ (if fixed then Fixed else Free) unitZ true (gRoot gr)) (-1)%Z ptid ptid acc0)|].
    + eauto.
    + eexists. constructor.
    + split; cbn; auto; [intros [|i] z; discriminate|intros j []].
    + now left.
    + intros acc ([H1 H2 H3 H4 H5 H6 H7] & _).
      destruct (MultiBody_ctor_spec (ac_bodies acc) (ac_joints acc) (ac_pred acc) (ac_succ acc) (ac_parent acc) (ac_Xt acc)) as (mb & EM & _); [lia|]. rewrite EM. apply good_ok. rewrite H3 in EM.
      eapply MultiBody_ctor_wf; [|exact EM]. now split.
  - intros mb W. destruct (fresh_ok g mb) as (K0 & _); [unfold nrJoints; rewrite (wf_joints _ W); reflexivity|].
    destruct (zero_ok mb _ W K0) as (m1 & E1 & K1 & _). rewrite E1. cbn [bind]. destruct (FK_total mb m1 W K1) as (m2 & E2 & F2). rewrite E2. cbn [bind]. pose proof (FK_mbc_ok _ _ _ W K1 F2) as K2.
    destruct (FV_total mb m2 W K2) as (m3 & E3 & F3). rewrite E3. cbn [bind]. apply good_ok. split; [exact W|]. cbn [pr_mb pr_mbc]. exact (FV_mbc_ok _ _ _ K2 F3).
Qed.

(** ** URDF. *)
Lemma rpy_good l : good (fun _ => True) (RPY_list l).
Proof. unfold RPY_list. destruct l as [|a [|b [|c [|d l]]]]; try apply good_throw. now apply good_ok. Qed.
Lemma link_good p l s : ulink_complete l -> (forall x, In x (ls_links s) -> ulink_complete (mkUL (Some (fst x)) (snd x))) ->
  good (fun s => forall x, In x (ls_links s) -> ulink_complete (mkUL (Some (fst x)) (snd x))) (handle_link p l s).
Proof.
  intros (NM & IC) H. unfold handle_link. destruct (ul_name l) as [n|]; [|congruence]. cbn [deref bind].
  assert (K : forall x, In x (ls_links s ++ [(n, ul_inertial l)]) -> ulink_complete (mkUL (Some (fst x)) (snd x))).
  { intros x Hx. apply in_app_iff in Hx as [Hx|[<-|[]]]; [auto|]. split; [discriminate|exact IC]. }
  destruct (match ul_inertial l with None => pp_remove_virtual p | Some _ => false end); [now apply good_ok|]. destruct (in_names (pp_filtered p) n); [destruct (pp_remove_filtered p)|]; now apply good_ok.
Qed.
Lemma body_good t n i : ulink_complete (mkUL (Some n) i) -> good (fun _ => True) (read_body t n i).
Proof.
  intros (_ & H). cbn [ul_inertial] in H. unfold read_body. destruct i as [u|]; [|now apply good_ok]. destruct H as (H1 & H2). eapply good_bind; [apply rpy_good|]. intros M _.
  destruct (ui_mass u); [|congruence]. destruct (ui_inertia u); [|congruence]. cbn [deref bind]. now apply good_ok.
Qed.
Lemma origin_good o : good (fun _ => True) (read_origin o).
Proof. unfold read_origin. destruct o; [|now apply good_ok]. eapply good_bind; [apply rpy_good|]. intros. now apply good_ok. Qed.
Lemma extract_good fl rm j l : ujoint_complete j -> (forall u, In u l -> ujoint_complete u) -> good (fun l => forall u, In u l -> ujoint_complete u) (extract_joint fl rm j l).
Proof.
  intros JC H. pose proof JC as (H1 & H2 & (pa & H3) & (ch & H4) & H5). unfold extract_joint. rewrite H3, H4. cbn [deref bind]. apply good_ok. destruct (_ && _); [|exact H].
  intros u Hu. apply in_app_iff in Hu as [Hu|[<-|[]]]; [auto|]. destruct (in_names fl ch); [|exact JC]. split; [exact H1|]. split; [discriminate|]. split; [now exists pa|]. split; [now exists ch|exact H5].
Qed.
Lemma read_joint_good p u : ujoint_complete u -> good (fun r => joint_ok (jr_joint r)) (read_joint p u).
Proof.
  intros (H1 & H2 & (pa & H3) & (ch & H4) & H5). unfold read_joint. rewrite H3, H4. destruct (uj_name u) as [n|]; [|congruence]. destruct (uj_type u) as [ty|]; [|congruence]. cbn [deref bind].
  eapply good_bind; [apply origin_good|]. intros X _. cbn [bind]. set (t := rbdynFromUrdfJoint _ _). set (ax := match uj_axis u with Some a => _ | None => _ end).
  assert (B : joint_ok (mkJ t ax true n)) by (exists ax; constructor).
  apply (good_bind joint_ok); [|intros jt JO; now apply good_ok].
  destruct (uj_mimic u) as [m|]; [|now apply good_ok]. destruct (um_joint m) as [mj|]; [|congruence]. cbn [deref bind].
  assert (BM : forall a b, joint_ok (makeMimic (mkJ t ax true n) mj a b)) by (intros; exists ax; repeat constructor). destruct t; apply good_ok; auto.
Qed.
Lemma urdf_good fuel g d p : urdf_complete d -> good usable (from_urdf fuel g d p).
Proof.
  intro H. unfold from_urdf. apply (good_bind (fun x => sound (snd (fst x)))); [|intros (((base & name) & s) & l) S0; now apply make_result_good].
  unfold parse_urdf. destruct d as [rb|]; [|apply good_throw]. destruct H as (HL & HJ). destruct (ur_name rb) as [name|]; [|apply good_throw].
  eapply good_bind; [apply (good_each (fun s => forall x, In x (ls_links s) -> ulink_complete (mkUL (Some (fst x)) (snd x))))|].
  - intros l s Hl. apply link_good. auto.
  - intros x [].
  - intros sel HS. destruct (ls_links sel) as [|(first & i0) rest] eqn:ES; [apply good_throw|].
    apply (good_bind sound).
    + apply (good_each sound); [|exact sound_0]. intros x s Hx S0. eapply good_bind; [apply body_good; apply HS; rewrite ES; exact Hx|]. intros b _. now apply sound_addBody.
    + intros s0 S0. eapply good_bind; [apply (good_each (fun l => forall u, In u l -> ujoint_complete u))|].
      * intros u l Hu. apply extract_good. auto.
      * intros u [].
      * intros js HC. apply (good_bind (fun x => sound (fst x))).
        -- apply (good_each (fun x : GSt * Limits => sound (fst x))); [|exact S0]. intros u (s1 & l1) Hu S1. cbn [fst] in S1. unfold do_joint. eapply good_bind; [apply read_joint_good; auto|]. intros jr JO. cbn [fst snd].
           eapply good_bind; [apply sound_addJoint; eauto|]. intros s2 S2. eapply good_bind; [apply sound_link; exact S2|]. intros s3 S3. destruct (read_limits _ _ _) as (((lo & up) & ef) & ve). now apply good_ok.
        -- intros (s1 & l1) S1. now apply good_ok.
Qed.

(** ** YAML. *)
Lemma elems_good {A} (l : list (yv A)) : good (fun _ => True) (elems l).
Proof. induction l as [|[a|m|] l IH]; cbn [elems]; try apply good_throw; [now apply good_ok|]. eapply good_bind; [exact IH|]. intros. now apply good_ok. Qed.
Lemma vec_good {A} (y : yv A) : good (fun _ => True) (as_vec y).
Proof. destruct y; cbn; try apply good_throw. apply elems_good. Qed.
Lemma three_good l : good (fun _ => True) (three l).
Proof. destruct l as [|a [|b [|c [|d l]]]]; cbn; try apply good_throw. now apply good_ok. Qed.
Lemma frame_good deg f : good (fun _ => True) (parseFrame deg f).
Proof.
  unfold parseFrame. destruct f as [f|]; [|now apply good_ok]. apply (good_bind (fun _ => True)).
  - destruct (yf_xyz f) as [y|]; [|now apply good_ok]. eapply good_bind; [apply vec_good|]. intros. apply three_good.
  - intros x _. apply (good_bind (fun _ => True)); [|intros; now apply good_ok]. destruct (yf_rpy f) as [y|]; [|now apply good_ok]. eapply good_bind; [apply vec_good|]. intros v _. eapply good_bind; [apply three_good|]. intros. now apply good_ok.
Qed.
Lemma inertial_good deg t n i : good (fun _ => True) (parseInertial deg t n i).
Proof. unfold parseInertial. destruct i as [i|]; [|now apply good_ok]. eapply good_bind; [apply frame_good|]. intros (x & y) _. now apply good_ok. Qed.
Lemma ylink_good p deg l s : sound (ys_g s) -> good (fun s => sound (ys_g s)) (parseLink p deg l s).
Proof.
  intro S0. unfold parseLink. destruct (_ && match yl_inertial l with None => true | Some _ => false end); [now apply good_ok|]. destruct (_ && _); [now apply good_ok|].
  eapply good_bind; [apply inertial_good|]. intros b _. eapply good_bind; [apply sound_addBody; exact S0|]. intros g1 S1. now apply good_ok.
Qed.
Lemma most_dof_ok suf t n ff ty c : parseJointType suf t n ff = Ok (ty, c) -> tdof ty <= most_dof t /\ (c = true -> tdof ty = 1).
Proof.
  unfold parseJointType. destruct ff; [intro E; injection E as <- <-; cbn; split; [lia|discriminate]|]. destruct t as [t|]; [|intro E; injection E as <- <-; cbn; split; [lia|discriminate]].
  destruct (String.eqb_spec t "floating") as [->|NF].
  - destruct (ends_with n suf); cbn; intro E; injection E as <- <-; split; cbn; try lia; discriminate.
  - unfold joint_types. cbn [mfind].
    repeat match goal with |- context [String.eqb ?a ?b] => destruct (String.eqb_spec a b) as [->|?]; [cbn; intro E; injection E as <- <-; split; cbn; first [lia|discriminate]|] end. discriminate.
Qed.
Lemma yjoint_good p deg fl rm j s : yjoint_in_range deg j -> sound (snd (fst s)) -> good (fun s => sound (snd (fst s))) (parseJoint p deg fl rm j s).
Proof.
  intros YR S0. destruct s as ((idx & g) & l0). cbn [fst snd] in S0. unfold parseJoint. destruct (_ || _); [now apply good_ok|].
  set (n := as_or (yj_name j) _). set (ff := in_names fl _). destruct (parseJointType (pp_suffix p) (yj_type j) n ff) as [(ty & c)|e| |] eqn:ET; cbn [bind]; [|apply good_throw| |split; discriminate].
  2: { exfalso. unfold parseJointType in ET. destruct ff; [discriminate|]. destruct (yj_type j); [|discriminate]. destruct (mfind joint_types _); discriminate. }
  destruct (most_dof_ok _ _ _ _ _ _ ET) as (D1 & D2).
  apply (good_bind (fun _ => True)). { unfold parseJointAxis. destruct (yj_axis j); [|now apply good_ok]. eapply good_bind; [apply vec_good|]. intros. apply three_good. }
  intros ax _. eapply good_bind; [apply frame_good|]. intros (xyz & rpy) _. set (jt := mkJ ty ax true n).
  apply (good_bind (fun _ => True)).
  { apply good_any. apply limits_safe. unfold yjoint_in_range in YR. destruct (yj_limits j) as [l|]; [|exact I]. destruct YR as [E|H]; [now left|]. right. right. destruct (H (tdof ty) D1) as (A1 & A2 & A3). change (jdof jt) with (tdof ty). auto. }
  intros (((lo & up) & ef) & ve) _. eapply good_bind; [apply sound_addJoint; [exists ax; constructor|exact S0]|]. intros g1 S1. eapply good_bind; [apply sound_link; exact S1|]. intros g2 S2. now apply good_ok.
Qed.
Lemma yaml_good fuel g d p : yaml_in_range d -> good usable (from_yaml fuel g d p).
Proof.
  intro H. unfold from_yaml. apply (good_bind (fun x => sound (snd (fst x)))); [|intros (((base & name) & s) & l) S0; now apply make_result_good].
  unfold parse_yaml. destruct d as [rb|]; [|apply good_throw]. cbn [yaml_in_range] in H. destruct (yr_name rb) as [name|]; [|apply good_throw]. destruct (yr_links rb) as [ls|]; [|apply good_throw]. destruct (yr_deg rb) as [deg|]; [|apply good_throw].
  apply (good_bind (fun s => sound (ys_g s))).
  - apply (good_each (fun s => sound (ys_g s))); [|exact sound_0]. intros l s _. apply ylink_good.
  - intros s S0. destruct (yr_joints rb) as [js|]; [|apply good_throw]. apply (good_bind (fun s : nat * GSt * Limits => sound (snd (fst s)))).
    + apply (good_each (fun s : nat * GSt * Limits => sound (snd (fst s)))); [|exact S0]. intros j s1 Hj. apply yjoint_good. now apply (H deg js).
    + intros ((idx & g1) & l1) S1. now apply good_ok.
Qed.
