(** A concrete graph used to show that the hypotheses of the theorems on graphs can be met. *)
From Coq Require Import Reals String ZArith Bool Arith List Lia Lra Relations.
From Verif Require Import Res ResP SMap Vec VecP Mat Sva SvaP JointM JointP JointFinP MultiBodyM KinM GraphM Spec SpecDyn SpecCoM SpecGraph SpecGraphOp Ex GraphP GraphWalkP GraphTreeP GraphUseP GraphTopP GraphPoseP GraphHistP MbP KinP.
Import ListNotations.
Open Scope R_scope.
Local Open Scope nat_scope.

Definition exg_body (m : R) (n : string) : Body := mkBody (mkRBI m (mkV3 0 m 0) (mkSym (2 * m)%R 0%R 0%R m 0%R (2 * m)%R)) n.
Definition exg_ops : list gop :=
  [ OpNew "Root"; OpAddBody 0 (exg_body 10 "base"); OpAddBody 0 (exg_body 2 "arm"); OpAddBody 0 (exg_body 1 "hand"); OpAddBody 0 (exg_body 3 "head");
    OpAddJoint 0 (mkJ Rev unitZ true "shoulder"); OpAddJoint 0 (mkJ Prism unitX true "slide"); OpAddJoint 0 (mkJz Spherical false "neck");
    OpLink 0 "base" (mkPT (RotX 1) (mkV3 0 1 2)) "arm" ptid "shoulder" true;
    OpLink 0 "hand" (pttr (mkV3 1 0 0)) "arm" (mkPT (RotZ 2) (mkV3 0 0 3)) "slide" false;
    OpLink 0 "base" (pttr (mkV3 0 0 1)) "head" (mkPT (RotY 1) (mkV3 1 0 0)) "neck" true ]%string.
Ltac nf := lazy -[IZR RotX RotY RotZ Rmult Rplus Ropp Rdiv Rminus].
Definition exg_at (k : nat) : GSt :=
  match run_ops 5 (firstn k exg_ops) prog0 with
  | Some P => (pHeap P, nth 0 (pGraphs P) (Graph_ctor EmptyString)) | None => (mkHeap [] [], Graph_ctor EmptyString) end.
Definition exg1 : GSt := Eval lazy -[IZR RotX RotY RotZ Rmult Rplus Ropp Rdiv Rminus] in exg_at 1.
Definition exg2 : GSt := Eval lazy -[IZR RotX RotY RotZ Rmult Rplus Ropp Rdiv Rminus] in exg_at 2.
Definition exg3 : GSt := Eval lazy -[IZR RotX RotY RotZ Rmult Rplus Ropp Rdiv Rminus] in exg_at 3.
Definition exg4 : GSt := Eval lazy -[IZR RotX RotY RotZ Rmult Rplus Ropp Rdiv Rminus] in exg_at 4.
Definition exg5 : GSt := Eval lazy -[IZR RotX RotY RotZ Rmult Rplus Ropp Rdiv Rminus] in exg_at 5.
Definition exg6 : GSt := Eval lazy -[IZR RotX RotY RotZ Rmult Rplus Ropp Rdiv Rminus] in exg_at 6.
Definition exg7 : GSt := Eval lazy -[IZR RotX RotY RotZ Rmult Rplus Ropp Rdiv Rminus] in exg_at 7.
Definition exg8 : GSt := Eval lazy -[IZR RotX RotY RotZ Rmult Rplus Ropp Rdiv Rminus] in exg_at 8.
Definition exg9 : GSt := Eval lazy -[IZR RotX RotY RotZ Rmult Rplus Ropp Rdiv Rminus] in exg_at 9.
Definition exg10 : GSt := Eval lazy -[IZR RotX RotY RotZ Rmult Rplus Ropp Rdiv Rminus] in exg_at 10.
Definition exg11 : GSt := Eval lazy -[IZR RotX RotY RotZ Rmult Rplus Ropp Rdiv Rminus] in exg_at 11.
Definition exg : GSt := exg11.
Definition exg_P : Prog := mkProg (fst exg) [snd exg].
Lemma exg_run : run_ops 5 exg_ops prog0 = Some exg_P.
Proof. reflexivity. Qed.
Lemma exg_st : graph_st exg_P 0 = Some exg.
Proof. reflexivity. Qed.

Lemma no_conn h a b : arcs_at h b = [] -> a <> b -> ~ conn h b a.
Proof. intros E N C. apply clos_rt_rt1n in C. inversion C as [|y z (e & He & _)]; subst; [contradiction|]. rewrite E in He. destruct He. Qed.
Lemma not_linked (h : Heap) g jn : (forall a e, In a (gNodes g) -> In e (arcs_at h a) -> ajn e <> jn) -> ~ linked (h, g) jn.
Proof. intros H (a & e & H1 & H2 & H3). exact (H a e H1 H2 H3). Qed.

Lemma gok_step_addBody B s s' : addBody B s = GRet tt s' -> gok s -> gok s'. Proof. intros; eapply gok_addBody; eauto. Qed.
Lemma gok_step_addJoint J s s' : addJoint J s = GRet tt s' -> gok s -> gok s'. Proof. intros; eapply gok_addJoint; eauto. Qed.
(** Linking a body that has no link yet. *)
Lemma gok_step_link b1 t1 b2 t2 jn d n1 n2 s s' : linkBodies b1 t1 b2 t2 jn d s = GRet tt s' -> mfind (gBody (snd s)) b1 = Some n1 -> mfind (gBody (snd s)) b2 = Some n2 ->
  n1 <> n2 -> arcs_at (fst s) n1 = [] \/ arcs_at (fst s) n2 = [] -> (forall a e, In a (gNodes (snd s)) -> In e (arcs_at (fst s) a) -> ajn e <> jn) -> gok s -> gok s'.
Proof.
  intros H F1 F2 N A J G. eapply (gok_link b1 t1 b2 t2 jn d n1 n2 s s'); eauto.
  - intro C. destruct A as [A|A]; [revert C; apply no_conn; auto|].
    apply (conn_sym' s) in C; [destruct C as (C & _); revert C; apply no_conn; auto|apply (proj1 G)|]. now apply (ng_body _ (gk_names _ (proj1 G))) in F1.
  - destruct s. apply not_linked; auto.
Qed.
Ltac arcs_cases := intros a e Ha He; cbn in Ha, He;
  repeat (match goal with H : _ \/ _ |- _ => destruct H as [H|H] | H : False |- _ => destruct H end; try subst a; cbn in He);
  try contradiction; repeat (match goal with H : _ \/ _ |- _ => destruct H as [H|H] | H : False |- _ => destruct H end); try subst e.
Lemma exg_s10 : linkBodies "base" (pttr (mkV3 0 0 1)) "head" (mkPT (RotY 1) (mkV3 1 0 0)) "neck" true exg10 = GRet tt exg11. Proof. nf. reflexivity. Qed.
Lemma exg_s9 : linkBodies "hand" (pttr (mkV3 1 0 0)) "arm" (mkPT (RotZ 2) (mkV3 0 0 3)) "slide" false exg9 = GRet tt exg10. Proof. nf. reflexivity. Qed.
Lemma exg_s8 : linkBodies "base" (mkPT (RotX 1) (mkV3 0 1 2)) "arm" ptid "shoulder" true exg8 = GRet tt exg9. Proof. nf. reflexivity. Qed.
Lemma exg_8 : gok exg8.
Proof.
  apply (gok_step_addJoint (mkJz Spherical false "neck") exg7); [nf; reflexivity|].
  apply (gok_step_addJoint (mkJ Prism unitX true "slide") exg6); [nf; reflexivity|].
  apply (gok_step_addJoint (mkJ Rev unitZ true "shoulder") exg5); [nf; reflexivity|].
  apply (gok_step_addBody (exg_body 3 "head") exg4); [nf; reflexivity|].
  apply (gok_step_addBody (exg_body 1 "hand") exg3); [nf; reflexivity|].
  apply (gok_step_addBody (exg_body 2 "arm") exg2); [nf; reflexivity|].
  apply (gok_step_addBody (exg_body 10 "base") exg1); [nf; reflexivity|]. apply gok_empty.
Qed.
Lemma exg_gok : gok exg.
Proof.
  apply (gok_step_link _ _ _ _ _ _ 0 3 _ _ exg_s10); [reflexivity|reflexivity|discriminate|right; reflexivity|arcs_cases; discriminate|].
  apply (gok_step_link _ _ _ _ _ _ 2 1 _ _ exg_s9); [reflexivity|reflexivity|discriminate|left; reflexivity|arcs_cases; discriminate|].
  apply (gok_step_link _ _ _ _ _ _ 0 1 _ _ exg_s8); [reflexivity|reflexivity|discriminate|right; reflexivity|arcs_cases; discriminate|].
  exact exg_8.
Qed.
Lemma exg_rigid : graph_rigid exg.
Proof. unfold graph_rigid. arcs_cases; cbn [aX rotE pttr ptid]; auto using SO3_id, SO3_RotX, SO3_RotY, SO3_RotZ. Qed.
Lemma unit_eq t ax f nm b j : vdot ax ax = 1%R -> j = set_forward (mkJ t ax f nm) b -> joint_unit j.
Proof. intros U ->. exists ax. split; auto. repeat constructor. Qed.
Lemma exg_joints : link_joints joint_unit exg.
Proof.
  unfold link_joints. arcs_cases; cbn [aJoint];
    first [ apply (unit_eq Rev unitZ true "shoulder" true); [apply unitZ_unit|nf; reflexivity]
          | apply (unit_eq Rev unitZ true "shoulder" false); [apply unitZ_unit|nf; reflexivity]
          | apply (unit_eq Prism unitX true "slide" true); [apply unitX_unit|nf; reflexivity]
          | apply (unit_eq Prism unitX true "slide" false); [apply unitX_unit|nf; reflexivity]
          | apply (unit_eq Spherical unitZ false "neck" true); [apply unitZ_unit|nf; reflexivity]
          | apply (unit_eq Spherical unitZ false "neck" false); [apply unitZ_unit|nf; reflexivity] ].
Qed.
(** Joint positions. *)
Definition exg_q (n : string) : list R :=
  if String.eqb n "shoulder" then [1%R] else if String.eqb n "slide" then [2%R] else if String.eqb n "neck" then [3 / 5; 0; 4 / 5; 0]%R else [].
Lemma exg_qok : forall a e, In a (gNodes (snd exg)) -> In e (arcs_at (fst exg) a) -> q_ok (aJoint e) (exg_q (ajn e)).
Proof. arcs_cases; (split; [reflexivity|cbn [jtyp aJoint]; try exact Logic.I; unfold quat_unit; cbn; field]). Qed.
(** A configuration with given joint positions exists for every multibody of a graph. *)
Lemma graph_config (gb : Garbage) s r j0 X0 Xb ord base mb qn q0 : graph_ok s -> mb_of_graph s r j0 X0 Xb ord base mb -> (forall b, In b ord -> In b (gNodes (snd s))) -> wf_mb mb ->
  (forall a e, In a (gNodes (snd s)) -> In e (arcs_at (fst s) a) -> q_ok (aJoint e) (qn (ajn e))) -> q_ok j0 q0 ->
  exists m m', mbc_ok mb m /\ config_ok mb m /\ joint_pos mb m qn /\ forwardKinematics mb m = Ok m' /\ length (bodyPosW m') = nrBodies mb.
Proof.
  intros G M V W Q Q0.
  set (f := fun i => match i with 0 => q0 | S _ => qn (jname (nth i (mb_joints mb) jd)) end).
  set (m := with_q (map f (seq 0 (nrJoints mb))) (MBC_ctor gb mb)).
  assert (JQ : forall i j, nth_error (mb_joints mb) i = Some j -> nth_error (q m) i = Some (f i) /\ q_ok j (f i)).
  { intros i j Hj. assert (L : i < length (mb_joints mb)) by (apply nth_error_Some; congruence). split.
    - unfold m. cbn [q with_q]. rewrite nth_error_map, (nth_error_nth' _ 0) by (rewrite seq_length; exact L). rewrite seq_nth by exact L. reflexivity.
    - apply nth_error_nth with (d := jd) in Hj. rewrite (mg_joints_len _ _ _ _ _ _ _ _ M) in L. destruct i as [|i].
      + rewrite (proj1 (mg_first _ _ _ _ _ _ _ _ M)) in Hj. subst j. exact Q0.
      + cbn [f]. destruct (mg_next _ _ _ _ _ _ _ _ M (S i)) as (p & e & e' & Lp & _ & E1 & _ & _ & _ & E2 & _); [lia|]. rewrite <- Hj, E2.
        apply (Q (nth p ord 0) e); [apply V, nth_In; lia|exact E1]. }
  assert (OK : mbc_ok mb m).
  { assert (EJ : nrJoints mb = nrBodies mb) by (unfold nrJoints; rewrite (wf_joints _ W); auto).
    destruct (MBC_ctor_ok gb mb EJ). constructor; auto; unfold m; cbn [q with_q]; auto.
    unfold sized. cbn [q]. unfold nrJoints. apply list_ext_nth with (d := 0); [now rewrite !map_length, seq_length|].
    intros i Hi. rewrite !map_length, seq_length in Hi. rewrite (nth_indep _ 0 (length (A := R) [])) by (now rewrite !map_length, seq_length).
    rewrite (map_nth (@length R)). rewrite (nth_indep _ 0 (jparams jd)) by (now rewrite map_length). rewrite (map_nth jparams).
    destruct (JQ i (nth i (mb_joints mb) jd) (nth_error_nth' _ _ Hi)) as (E & Q1). unfold m in E. cbn [q with_q] in E. unfold nrJoints in E. rewrite (nth_error_nth _ _ _ E). apply Q1. }
  destruct (FK_ok mb m W) as (m' & E & FP); try apply OK.
  { rewrite (sized_length mb jdof); [auto|apply OK]. }
  exists m, m'. split; [exact OK|]. split; [|split; [|split; [exact E|]]].
  - intros i j qi Hj Hq. destruct (JQ i j Hj) as (E1 & E2). rewrite E1 in Hq. injection Hq as <-. exact E2.
  - intros i j Hi Hj. destruct (JQ i j Hj) as (E1 & E2). destruct i; [lia|]. rewrite E1. cbn [f]. rewrite (nth_error_nth _ _ _ Hj). reflexivity.
  - rewrite (fk_bp_len _ _ _ FP). apply OK.
Qed.
Lemma exg_all root r t axis Xb : mfind (gBody (snd exg)) root = Some r -> vdot axis axis = 1%R -> (t = Fixed \/ t = Rev) ->
  exists mb tm m m', makeMultiBody 5 root t axis ptid Xb exg = Ok mb /\ bodiesBaseTransform 5 root Xb exg = Ok tm /\
    mbc_ok mb m /\ config_ok mb m /\ joint_pos mb m exg_q /\ forwardKinematics mb m = Ok m' /\
    (forall n a, mfind (gBody (snd exg)) n = Some a -> conn (fst exg) r a -> exists X, body_pose mb m' tm n X).
Proof.
  intros Hr U Ht. destruct exg_gok as (G & CF).
  destruct (graph_all exg root r t axis ptid Xb 5 G CF Hr) as (mb & ord & base & tm & pm & sm & E & M & V & K & T & _ & _ & Z1 & N1); [apply Nat.leb_le; reflexivity|].
  assert (LO : link_joints joint_ok exg). { intros x e Hx He. destruct (exg_joints x e Hx He) as (ax & _ & Hb). exists ax. exact Hb. }
  destruct (graph_mb_wf exg r _ ptid Xb ord base mb G M K V) as (W & NM); auto. { exists axis. constructor. }
  destruct (graph_config ex_garbage exg r _ ptid Xb ord base mb exg_q (match t with Fixed => [] | _ => [1%R] end) G M V W exg_qok) as (m & m' & OK & CO & JP & FK & LW).
  { destruct Ht as [->| ->]; split; cbn; auto. }
  exists mb, tm, m, m'. do 6 (split; [assumption|]). intros n a Hn C.
  apply (mg_all _ _ _ _ _ _ _ _ M) in C. apply (In_nth _ _ 0) in C as (i & Li & <-).
  assert (EN : bname (nth i (mb_bodies mb) bd) = n). { rewrite (mg_bodies _ _ _ _ _ _ _ _ M i Li). apply (ng_body _ (gk_names _ G)) in Hn. apply Hn. }
  destruct (Z1 i Li) as (Z2 & _). rewrite EN in Z2. assert (Li2 : i < nrBodies mb) by (unfold nrBodies; rewrite (mg_bodies_len _ _ _ _ _ _ _ _ M); auto).
  eexists. exists i, (nth i (bodyPosW m') ptid), (ptinv (nth i base ptid)). split; [rewrite <- EN; apply NM; auto|]. split; [apply nth_error_nth'; rewrite LW; auto|]. split; [exact Z2|reflexivity].
Qed.
Lemma exg_conn : forall a, In a [0; 1; 2; 3] -> conn (fst exg) 0 a /\ conn (fst exg) 2 a.
Proof.
  assert (A01 : adj (fst exg) 0 1) by (eexists; split; [cbn; left; reflexivity|reflexivity]).
  assert (A10 : adj (fst exg) 1 0) by (eexists; split; [cbn; left; reflexivity|reflexivity]).
  assert (A12 : adj (fst exg) 1 2) by (eexists; split; [cbn; right; left; reflexivity|reflexivity]).
  assert (A21 : adj (fst exg) 2 1) by (eexists; split; [cbn; left; reflexivity|reflexivity]).
  assert (A03 : adj (fst exg) 0 3) by (eexists; split; [cbn; right; left; reflexivity|reflexivity]).
  unfold conn. apply rt_step in A01, A10, A12, A21, A03.
  intros a H. repeat (destruct H as [<-|H]; [split; eauto 6 using rt_trans, rt_refl|]). destruct H.
Qed.
(** A ring of three bodies, and two bodies linked twice. *)
Definition exr_ops : list gop :=
  [ OpNew "Root"; OpAddBody 0 (exg_body 1 "A"); OpAddBody 0 (exg_body 2 "B"); OpAddBody 0 (exg_body 3 "C");
    OpAddJoint 0 (mkJ Rev unitZ true "j1"); OpAddJoint 0 (mkJ Rev unitX true "j2"); OpAddJoint 0 (mkJ Rev unitY true "j3");
    OpLink 0 "A" ptid "B" ptid "j1" true ]%string.
Definition exr_at (os : list gop) : GSt :=
  match run_ops 5 os prog0 with
  | Some P => (pHeap P, nth 0 (pGraphs P) (Graph_ctor EmptyString)) | None => (mkHeap [] [], Graph_ctor EmptyString) end.
Definition exr1 : GSt := Eval lazy -[IZR RotX RotY RotZ Rmult Rplus Ropp Rdiv Rminus] in exr_at (firstn 7 exr_ops).
Definition exr2 : GSt := Eval lazy -[IZR RotX RotY RotZ Rmult Rplus Ropp Rdiv Rminus] in exr_at exr_ops.
Definition exr3 : GSt := Eval lazy -[IZR RotX RotY RotZ Rmult Rplus Ropp Rdiv Rminus] in exr_at (exr_ops ++ [OpLink 0 "B" ptid "C" ptid "j2" true]%string).
Definition exr4 : GSt := Eval lazy -[IZR RotX RotY RotZ Rmult Rplus Ropp Rdiv Rminus] in
  exr_at (exr_ops ++ [OpLink 0 "B" ptid "C" ptid "j2" true; OpLink 0 "C" ptid "A" ptid "j3" true]%string).
Definition exr5 : GSt := Eval lazy -[IZR RotX RotY RotZ Rmult Rplus Ropp Rdiv Rminus] in
  exr_at (exr_ops ++ [OpLink 0 "A" (pttr (mkV3 1 0 0)) "B" ptid "j2" true]%string).
Lemma exr1_gok : gok exr1.
Proof.
  pose proof (gok_empty (mkHeap [] []) "Root") as G0.
  assert (H : forall os, (forall o, In o os -> match o with OpAddBody 0 _ | OpAddJoint 0 _ => True | _ => False end) -> forall s P,
     gok s -> run_ops 5 os (mkProg (fst s) [snd s]) = Some P -> gok (pHeap P, nth 0 (pGraphs P) (Graph_ctor EmptyString))).
  { induction os as [|o os IH]; intros HO s P G H.
    - injection H as <-. cbn. destruct s; exact G.
    - assert (Ho := HO o (or_introl eq_refl)). destruct s as (h & g). destruct o as [|[|k] B|[|k] J| | | | | | | | ]; try destruct Ho; cbn [run_ops step on_graph pGraphs nth_error pHeap fst snd] in H.
      + destruct (addBody B (h, g)) as [[] s1|e s1| |] eqn:E; try discriminate.
        * apply (IH (fun o Ho => HO o (or_intror Ho)) s1 P); [eapply gok_addBody; eauto|exact H].
        * apply (IH (fun o Ho => HO o (or_intror Ho)) s1 P); [|exact H]. unfold addBody in E. destruct (mfind (gBody g) (bname B)); [|discriminate]. injection E as _ <-. exact G.
      + destruct (addJoint J (h, g)) as [[] s1|e s1| |] eqn:E; try discriminate.
        * apply (IH (fun o Ho => HO o (or_intror Ho)) s1 P); [eapply gok_addJoint; eauto|exact H].
        * apply (IH (fun o Ho => HO o (or_intror Ho)) s1 P); [|exact H]. unfold addJoint in E. destruct (mfind (gJoint g) (jname J)); [|discriminate]. injection E as _ <-. exact G. }
  refine (H (tl (firstn 7 exr_ops)) _ (mkHeap [] [], Graph_ctor "Root") (mkProg (fst exr1) [snd exr1]) G0 _).
  - intros o Ho. cbn in Ho. repeat (destruct Ho as [<-|Ho]; [exact Logic.I|]). destruct Ho.
  - nf. reflexivity.
Qed.
Lemma exr2_ok : graph_ok exr2.
Proof.
  refine (graph_link "A" ptid "B" ptid "j1" true 0 1 exr1 exr2 (proj1 exr1_gok) eq_refl eq_refl _ _ _); [discriminate| |nf; reflexivity].
  apply not_linked. arcs_cases.
Qed.
Lemma exr3_ok : graph_ok exr3.
Proof.
  refine (graph_link "B" ptid "C" ptid "j2" true 1 2 exr2 exr3 exr2_ok eq_refl eq_refl _ _ _); [discriminate| |nf; reflexivity].
  apply not_linked. arcs_cases; discriminate.
Qed.
Lemma exr4_ok : graph_ok exr4.
Proof.
  refine (graph_link "C" ptid "A" ptid "j3" true 2 0 exr3 exr4 exr3_ok eq_refl eq_refl _ _ _); [discriminate| |nf; reflexivity].
  apply not_linked. arcs_cases; discriminate.
Qed.
Lemma exr4_cycle : cycle (adj (fst exr4)) [0; 1; 2].
Proof.
  split; [cbn; lia|]. split; [repeat constructor; cbn; intuition discriminate|]. split.
  - split; [eexists; split; [cbn; left; reflexivity|reflexivity]|]. split; [eexists; split; [cbn; right; left; reflexivity|reflexivity]|exact I].
  - eexists; split; [cbn; right; left; reflexivity|reflexivity].
Qed.
Lemma exr5_ok : graph_ok exr5.
Proof.
  refine (graph_link "A" (pttr (mkV3 1 0 0)) "B" ptid "j2" true 0 1 exr2 exr5 exr2_ok eq_refl eq_refl _ _ _); [discriminate| |nf; reflexivity].
  apply not_linked. arcs_cases; discriminate.
Qed.
Definition rok {A} (r : res A) : bool := match r with Ok _ => true | _ => false end.
Lemma exr5_made X0 Xb : exists mb, makeMultiBody 2 "A" Fixed unitZ X0 Xb exr5 = Ok mb /\ map bname (mb_bodies mb) = ["A"; "B"; "B"]%string.
Proof.
  destruct (makeMultiBody 2 "A" Fixed unitZ X0 Xb exr5) as [mb| | |] eqn:E; lazy -[IZR RotX RotY RotZ Rmult Rplus Ropp Rdiv Rminus ptdualI ptmul ptinv] in E; try discriminate.
  injection E as <-. eexists. split; [reflexivity|reflexivity].
Qed.
(** The statements of Prop_Graph in their final form. *)
Lemma graph_tree s root r t axis X0 Xb fuel : graph_ok s -> cycle_free (fst s) (snd s) ->
  mfind (gBody (snd s)) root = Some r -> length (gNodes (snd s)) <= fuel ->
  exists mb ord base, makeMultiBody fuel root t axis X0 Xb s = Ok mb /\
     mb_of_graph s r (mkJ t axis true (gRoot (snd s))) X0 Xb ord base mb /\
     (link_joints joint_ok s -> wf_mb mb /\ names_ok mb).
Proof.
  intros G CF Hr HF. destruct (graph_all s root r t axis X0 Xb fuel G CF Hr HF) as (mb & ord & base & tm & pm & sm & E & M & V & K & _).
  exists mb, ord, base. split; auto. split; auto. intro LJ. eapply graph_mb_wf; eauto. exists axis. constructor.
Qed.
Lemma graph_returns s root r t axis X0 Xb fuel : graph_ok s -> cycle_free (fst s) (snd s) ->
  mfind (gBody (snd s)) root = Some r -> length (gNodes (snd s)) <= fuel ->
  exists mb, makeMultiBody fuel root t axis X0 Xb s = Ok mb.
Proof. intros G CF Hr HF. destruct (graph_tree s root r t axis X0 Xb fuel G CF Hr HF) as (mb & _ & _ & E & _). eauto. Qed.
Lemma graph_diverges s root r t axis X0 Xb c : graph_ok s ->
  mfind (gBody (snd s)) root = Some r -> cycle (adj (fst s)) c -> conn (fst s) r (hd 0 c) ->
  forall fuel, makeMultiBody fuel root t axis X0 Xb s = Diverge.
Proof. intros. eapply makeMultiBody_cycle; eauto. Qed.
Lemma double_link : exists s r b e1 e2, graph_ok s /\ mfind (gBody (snd s)) "A" = Some r /\
  In e1 (arcs_at (fst s) r) /\ In e2 (arcs_at (fst s) r) /\ aNext e1 = b /\ aNext e2 = b /\ r <> b /\ ajn e1 <> ajn e2 /\
  exists mb, makeMultiBody 2 "A" Fixed unitZ ptid ptid s = Ok mb /\ map bname (mb_bodies mb) = ["A"; "B"; "B"]%string.
Proof.
  exists exr5, 0, 1. do 2 eexists. split; [exact exr5_ok|]. split; [reflexivity|]. split; [cbn; left; reflexivity|]. split; [cbn; right; left; reflexivity|].
  split; [reflexivity|]. split; [reflexivity|]. split; [discriminate|]. split; [discriminate|]. apply exr5_made.
Qed.
Lemma graph_maps s root r t axis X0 Xb fuel : graph_ok s -> cycle_free (fst s) (snd s) ->
  mfind (gBody (snd s)) root = Some r -> length (gNodes (snd s)) <= fuel ->
  exists mb ord base tm pm sm, makeMultiBody fuel root t axis X0 Xb s = Ok mb /\
     mb_of_graph s r (mkJ t axis true (gRoot (snd s))) X0 Xb ord base mb /\
     bodiesBaseTransform fuel root Xb s = Ok tm /\ predecessorJoint fuel root s = Ok pm /\ successorJoints fuel root s = Ok sm /\
     (forall i, i < length ord ->
        mfind tm (bname (nth i (mb_bodies mb) bd)) = Some (ptinv (nth i base ptid)) /\
        mfind pm (bname (nth i (mb_bodies mb) bd)) = Some (jname (nth i (mb_joints mb) jd)) /\
        mfind sm (bname (nth i (mb_bodies mb) bd)) =
          Some (map (fun k => jname (nth k (mb_joints mb) jd)) (filter (fun k => (nth k (mb_parent mb) 0 =? Z.of_nat i)%Z) (seq 0 (length ord))))) /\
     (forall n, ~ In n (map bname (mb_bodies mb)) -> mfind tm n = None /\ mfind pm n = None /\ mfind sm n = None).
Proof.
  intros G CF Hr HF. destruct (graph_all s root r t axis X0 Xb fuel G CF Hr HF) as (mb & ord & base & tm & pm & sm & E & M & V & K & H).
  exists mb, ord, base, tm, pm, sm. auto.
Qed.
Lemma exg_maps : exists pm sm, predecessorJoint 5 "hand" exg = Ok pm /\ successorJoints 5 "hand" exg = Ok sm /\
  mfind pm "base" = Some "shoulder"%string /\ mfind pm "hand" = Some "Root"%string /\ mfind sm "base" = Some ["neck"]%string /\ mfind sm "arm" = Some ["shoulder"]%string /\ mfind sm "head" = Some [].
Proof. do 2 eexists. split; [vm_compute; reflexivity|]. split; [vm_compute; reflexivity|]. repeat (split; [reflexivity|]). reflexivity. Qed.
Lemma exg_relative : exists mb1 mb2 tm1 tm2 m1 m2 m1' m2' A1 B1 A2 B2,
  makeMultiBody 5 "base" Fixed unitZ ptid ptid exg = Ok mb1 /\ makeMultiBody 5 "hand" Rev unitX ptid (pttr (mkV3 1 2 3)) exg = Ok mb2 /\
  bodiesBaseTransform 5 "base" ptid exg = Ok tm1 /\ bodiesBaseTransform 5 "hand" (pttr (mkV3 1 2 3)) exg = Ok tm2 /\
  mbc_ok mb1 m1 /\ mbc_ok mb2 m2 /\ config_ok mb1 m1 /\ config_ok mb2 m2 /\ joint_pos mb1 m1 exg_q /\ joint_pos mb2 m2 exg_q /\
  forwardKinematics mb1 m1 = Ok m1' /\ forwardKinematics mb2 m2 = Ok m2' /\
  body_pose mb1 m1' tm1 "arm" A1 /\ body_pose mb1 m1' tm1 "head" B1 /\ body_pose mb2 m2' tm2 "arm" A2 /\ body_pose mb2 m2' tm2 "head" B2 /\
  ptmul B1 (ptinv A1) = ptmul B2 (ptinv A2).
Proof.
  destruct (exg_all "base" 0 Fixed unitZ ptid eq_refl unitZ_unit (or_introl eq_refl)) as (mb1 & tm1 & m1 & m1' & E1 & T1 & O1 & C1 & J1 & F1 & P1).
  destruct (exg_all "hand" 2 Rev unitX (pttr (mkV3 1 2 3)) eq_refl unitX_unit (or_intror eq_refl)) as (mb2 & tm2 & m2 & m2' & E2 & T2 & O2 & C2 & J2 & F2 & P2).
  destruct (exg_conn 1) as (K1 & K2); [cbn; auto|]. destruct (exg_conn 3) as (K3 & K4); [cbn; auto|].
  destruct (P1 "arm"%string 1 eq_refl K1) as (A1 & HA1). destruct (P1 "head"%string 3 eq_refl K3) as (B1 & HB1).
  destruct (P2 "arm"%string 1 eq_refl K2) as (A2 & HA2). destruct (P2 "head"%string 3 eq_refl K4) as (B2 & HB2).
  exists mb1, mb2, tm1, tm2, m1, m2, m1', m2', A1, B1, A2, B2. do 16 (split; [assumption|]).
  apply (relative_poses exg "base" "hand" Fixed Rev unitZ unitX ptid ptid ptid (pttr (mkV3 1 2 3)) 5 mb1 mb2 tm1 tm2 m1 m2 m1' m2' exg_q "arm" "head" A1 B1 A2 B2);
    auto using exg_rigid, exg_joints, unitZ_unit, unitX_unit, SO3_id; try apply exg_gok; apply Nat.leb_le; reflexivity.
Qed.
