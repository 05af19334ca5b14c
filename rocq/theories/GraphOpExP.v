(** The statements of Prop_GraphOp in their final form, and concrete graphs for them. *)
From Coq Require Import Reals String ZArith Bool Arith List Lia Lra Relations.
From Verif Require Import Res ResP SMap Vec VecP Mat Sva SvaP JointM JointP JointFinP MultiBodyM KinM GraphM Spec SpecDyn SpecCoM SpecGraph SpecGraphOp
  Ex GraphP GraphWalkP GraphTreeP GraphUseP GraphTopP GraphPoseP GraphHistP GraphRmP GraphCutP GraphMergeP GraphExP MbP KinP.
Import ListNotations.
Open Scope R_scope.
Local Open Scope nat_scope.

(** *** C43. *)
Lemma build_exc (s : GSt) x s' :
  (forall B, addBody B s = GExc x s' -> s' = s) /\ (forall J, addJoint J s = GExc x s' -> s' = s) /\
  (forall b1 t1 b2 t2 jn d, linkBodies b1 t1 b2 t2 jn d s = GExc x s' -> s' = s).
Proof.
  split; [|split].
  - intros B H. destruct s as (h & g). unfold addBody in H. destruct (mfind (gBody g) (bname B)); [|discriminate]. now injection H as _ <-.
  - intros J H. destruct s as (h & g). unfold addJoint in H. destruct (mfind (gJoint g) (jname J)); [|discriminate]. now injection H as _ <-.
  - intros b1 t1 b2 t2 jn d H. rewrite linkBodies_all in H. unfold gmod in H. destruct (link_all b1 t1 b2 t2 jn d s); try discriminate. now injection H as _ <-.
Qed.
Lemma link_unknown (s : GSt) b1 t1 b2 t2 jn d : mfind (gBody (snd s)) b1 = None \/ mfind (gBody (snd s)) b2 = None \/ mfind (gJoint (snd s)) jn = None ->
  linkBodies b1 t1 b2 t2 jn d s = GExc OutOfRange s.
Proof.
  intro H. rewrite linkBodies_all. unfold gmod, link_all, mat_. destruct s as (h & g). cbn [fst snd] in *.
  destruct (mfind (gBody g) b1) as [n1|]; cbn [bind]; auto. destruct (mfind (gBody g) b2) as [n2|]; cbn [bind]; auto.
  destruct (mfind (gJoint g) jn) as [p|]; cbn [bind]; auto. destruct H as [H|[H|H]]; discriminate.
Qed.
Lemma remove_exc (s : GSt) root jn js pos fuel x s' : gok s -> link_joints joint_ok s ->
  (forall r, mfind (gBody (snd s)) root = Some r -> root_name_free s r) -> length (gNodes (snd s)) <= fuel ->
  (removeJoint fuel root jn s = GExc x s' -> s' = s /\ ~ In root (body_names s)) /\
  (removeJoints fuel root js s = GExc x s' -> s' = s /\ ~ In root (body_names s)) /\
  (mergeSubBodies fuel root jn pos s = GExc x s' -> s' = s /\
     (In root (body_names s) -> forall r, mfind (gBody (snd s)) root = Some r -> ~ merge_pos_ok s r jn pos)).
Proof.
  intros GK JO RN Hf. pose proof (wn_of_ng _ (gk_names _ (proj1 GK))) as W.
  destruct (mfind (gBody (snd s)) root) as [r|] eqn:Fr.
  - specialize (RN r eq_refl). assert (Hr : In r (gNodes (snd s))) by (apply (ng_body _ (gk_names _ (proj1 GK))) in Fr; tauto). split; [|split].
    + destruct (removeJoint_cuts s root r jn fuel GK Fr RN Hf) as (s1 & E & _). rewrite E. discriminate.
    + destruct (removeJoints_cuts root r fuel js s GK Fr RN Hf) as (s1 & E & _). rewrite E. discriminate.
    + destruct (merge_bodies s GK JO r jn pos Hr RN root fuel Fr Hf) as [(Q & s1 & E & _)|(Q & y & E)]; rewrite E; [discriminate|].
      intro H. injection H as _ <-. split; auto. intros _ r' Hr'. now injection Hr' as <-.
  - assert (NR : ~ In root (body_names s)).
    { intro H. unfold body_names in H. apply in_map_iff in H as (a & H1 & H2). assert (X : mfind (gBody (snd s)) root = Some a) by (apply (ng_body _ (gk_names _ (proj1 GK))); auto). congruence. }
    split; [|split].
    + unfold removeJoint, gbind at 1, glift, mat_. rewrite Fr. intro H. injection H as _ <-. auto.
    + unfold removeJoints, gbind at 1, glift, mat_. rewrite Fr. intro H. injection H as _ <-. auto.
    + unfold mergeSubBodies, gbind at 1, glift, mat_. rewrite Fr. intro H. injection H as _ <-. split; auto.
Qed.

(** *** C47. *)
Lemma total_mass_graph s root r t axis X0 Xb fuel l : gok s -> mfind (gBody (snd s)) root = Some r -> length (gNodes (snd s)) <= fuel ->
  NoDup l -> (forall b, In b l <-> conn (fst s) r b) ->
  exists mb, makeMultiBody fuel root t axis X0 Xb s = Ok mb /\ total_mass_of mb = lsum (fun b => imass (binertia (body_at (fst s) b))) l.
Proof.
  intros (G & CF) Hr Hf ND HL. destruct (graph_tree s root r t axis X0 Xb fuel G CF Hr Hf) as (mb & ord & base & E & M & _).
  exists mb. split; auto. eapply graph_mass; eauto.
Qed.
Lemma conn_list s r : gok s -> In r (gNodes (snd s)) -> exists l, NoDup l /\ forall b, In b l <-> conn (fst s) r b.
Proof.
  intros (G & CF) Hr. destruct (graph_unfolding s r G CF Hr) as (t & Tr & Tu & Th & Tn & Tc & Tv). exists (gnodes t). split; auto.
Qed.
Lemma total_mass_root s root1 root2 r1 r2 t1 t2 ax1 ax2 X1 X2 Xb1 Xb2 fuel : gok s ->
  mfind (gBody (snd s)) root1 = Some r1 -> mfind (gBody (snd s)) root2 = Some r2 -> conn (fst s) r1 r2 -> length (gNodes (snd s)) <= fuel ->
  exists mb1 mb2, makeMultiBody fuel root1 t1 ax1 X1 Xb1 s = Ok mb1 /\ makeMultiBody fuel root2 t2 ax2 X2 Xb2 s = Ok mb2 /\ total_mass_of mb1 = total_mass_of mb2.
Proof.
  intros GK H1 H2 C Hf. assert (V1 : In r1 (gNodes (snd s))) by (apply (ng_body _ (gk_names _ (proj1 GK))) in H1; tauto).
  destruct (conn_sym' s r1 r2 (proj1 GK) V1 C) as (C' & V2).
  destruct (conn_list s r1 GK V1) as (l & ND & HL).
  destruct (total_mass_graph s root1 r1 t1 ax1 X1 Xb1 fuel l GK H1 Hf ND HL) as (mb1 & E1 & M1).
  destruct (total_mass_graph s root2 r2 t2 ax2 X2 Xb2 fuel l GK H2 Hf ND) as (mb2 & E2 & M2).
  { intro b. rewrite HL. split; intro K; eapply rt_trans; eauto. }
  exists mb1, mb2. split; auto. split; auto. congruence.
Qed.
Lemma merge_ok s root r jn pos fuel : gok s -> link_joints joint_ok s -> mfind (gBody (snd s)) root = Some r -> root_name_free s r ->
  length (gNodes (snd s)) <= fuel -> merge_pos_ok s r jn pos ->
  exists s', mergeSubBodies fuel root jn pos s = GRet tt s' /\ gok s' /\ cut r jn s s' /\
    (forall qn P, placement s r qn P -> (forall a, conn (fst s) r a -> rigid (P a)) -> graph_rigid s ->
       (forall n, joint_behind (fst s) r jn n -> mfind pos n = Some (qn n)) -> merged s s' r jn P) /\
    (forall t axis X0 Xb, exists mb mb', makeMultiBody fuel root t axis X0 Xb s = Ok mb /\ makeMultiBody fuel root t axis X0 Xb s' = Ok mb' /\
       total_mass_of mb' = total_mass_of mb).
Proof.
  intros GK JO Fr RN Hf MP. assert (Hr : In r (gNodes (snd s)) /\ bname (body_at (fst s) r) = root) by (apply (ng_body _ (gk_names _ (proj1 GK))) in Fr; tauto). destruct Hr as (Hr & Nr).
  destruct (merge_bodies s GK JO r jn pos Hr RN root fuel Fr Hf) as [(Q & s' & E & C & K & OS & MG & MM)|(Q & _)]; [|contradiction].
  exists s'. do 4 (split; auto). intros t axis X0 Xb. pose proof (cut_keeps_root _ _ _ _ C Hr) as Hr'.
  destruct (conn_list s r GK Hr) as (l & ND & HL). destruct (conn_list s' r K Hr') as (l' & ND' & HL').
  destruct (total_mass_graph s root r t axis X0 Xb fuel l GK Fr Hf ND HL) as (mb & E1 & M1).
  pose proof (wn_of_ng _ (gk_names _ (proj1 GK))) as W. pose proof (wn_merge fuel root jn pos s W) as KM. rewrite E in KM. destruct KM as (_ & NE).
  assert (NR : bname (body_at (fst s') r) = root). { rewrite (ne_name _ _ NE); auto. apply (ng_node _ (gk_names _ (proj1 GK))); auto. }
  destruct (total_mass_graph s' root r t axis X0 Xb fuel l' K) as (mb' & E2 & M2); auto.
  - apply (ng_body _ (gk_names _ (proj1 K))). auto.
  - pose proof (cut_len _ _ _ _ C). lia.
  - exists mb, mb'. split; auto. split; auto. rewrite M1, M2. apply (merge_keeps_mass s s' r jn); auto.
Qed.

(** *** C48. *)
Lemma remove_ok s root r jn fuel : gok s -> mfind (gBody (snd s)) root = Some r -> root_name_free s r -> length (gNodes (snd s)) <= fuel ->
  exists s', removeJoint fuel root jn s = GRet tt s' /\ cut r jn s s' /\ bodies_same s s' /\ gok s' /\
    ((exists a e, conn (fst s) r a /\ In e (arcs_at (fst s) a) /\ ajn e = jn) -> ~ In jn (joint_names s')) /\
    (~ In jn (joint_names s) -> s' = s).
Proof.
  intros GK Fr RN Hf. destruct (removeJoint_cuts s root r jn fuel GK Fr RN Hf) as (s' & E & C & B & K & _ & N).
  assert (Hr : In r (gNodes (snd s))) by (apply (ng_body _ (gk_names _ (proj1 GK))) in Fr; tauto).
  exists s'. do 4 (split; auto). split; auto. intros (a & e & Ca & He & Ej). apply (cut_removes s s' r jn); auto. exact (reachable_behind s r jn a e GK Hr Ca He Ej).
Qed.
Lemma removes_ok s root r js fuel : gok s -> mfind (gBody (snd s)) root = Some r -> root_name_free s r -> length (gNodes (snd s)) <= fuel ->
  exists s', removeJoints fuel root js s = GRet tt s' /\ cuts r js s s' /\ gok s'.
Proof.
  intros GK Fr RN Hf. destruct (removeJoints_cuts root r fuel js s GK Fr RN Hf) as (s' & E & C & K & _). exists s'. auto.
Qed.
Lemma exg_free r : root_name_free exg r.
Proof.
  unfold root_name_free. intros e1 He1. destruct (Nat.lt_ge_cases r 4) as [L|L].
  - assert (H : forall a e, In a (gNodes (snd exg)) -> In e (arcs_at (fst exg) a) -> ajn e <> "Root"%string) by (arcs_cases; discriminate).
    apply (H r e1); auto. cbn. lia.
  - unfold arcs_at in He1. rewrite (proj2 (nth_error_None _ _)) in He1 by (exact L). destruct He1.
Qed.
(** Seen from the head, removing the joint of the arm takes away the arm and the hand. *)
Definition exg_rm : GSt := Eval lazy -[IZR RotX RotY RotZ Rmult Rplus Ropp Rdiv Rminus] in
  match removeJoint 5 "head" "shoulder" exg with GRet _ s => s | _ => exg end.
Lemma exg_removed : removeJoint 5 "head" "shoulder" exg = GRet tt exg_rm /\ body_names exg_rm = ["base"; "head"]%string /\ joint_names exg_rm = ["neck"]%string.
Proof. split; [nf; reflexivity|]. split; reflexivity. Qed.
(** Positions for the joints of the example. *)
Definition exg_pos : smap (list R) := [("shoulder", [1%R]); ("slide", [2%R])]%string.
Lemma exg_behind a e : behind (fst exg) 3 "shoulder" a -> In e (arcs_at (fst exg) a) ->
  mfind exg_pos (ajn e) = Some (exg_q (ajn e)) /\ length (exg_q (ajn e)) = jparams (aJoint e).
Proof.
  assert (A : forall x, x = 0 \/ x = 3 -> conn_no (fst exg) "shoulder" 3 x).
  { intros x [->|Hx]; [|subst x; apply rt_refl]. apply rt_step. eexists. split; [cbn; left; reflexivity|]. split; [reflexivity|discriminate]. }
  intros (B1 & B2) He.
  assert (Ha : a <> 0 /\ a <> 3) by (split; intros ->; apply B2, A; auto).
  destruct (Nat.lt_ge_cases a 4) as [L|L]; [|unfold arcs_at in He; rewrite (proj2 (nth_error_None _ _)) in He by (exact L); destruct He].
  destruct a as [|[|[|[|a]]]]; try lia; cbn in He; repeat (destruct He as [He|He]; [subst e|]); try destruct He; split; reflexivity.
Qed.
Lemma exg_pos_ok : merge_pos_ok exg 3 "shoulder" exg_pos.
Proof. intros a e B He. destruct (exg_behind a e B He). exists (exg_q (ajn e)). auto. Qed.
Lemma exg_jok : link_joints joint_ok exg.
Proof. intros x e Hx He. destruct (exg_joints x e Hx He) as (ax & _ & Hb). exists ax. exact Hb. Qed.
Lemma exg_place : exists P, placement exg 3 exg_q P /\ (forall a, conn (fst exg) 3 a -> rigid (P a)) /\ graph_rigid exg /\
  (forall n, joint_behind (fst exg) 3 "shoulder" n -> mfind exg_pos n = Some (exg_q n)).
Proof.
  destruct exg_gok as (G & CF).
  destruct (graph_all exg "head" 3 Fixed unitZ ptid ptid 5 G CF eq_refl) as (mb & ord & base & tm & pm & sm & E & M & V & K & T & _ & _ & Z1 & N1); [apply Nat.leb_le; reflexivity|].
  destruct (graph_mb_wf exg 3 _ ptid ptid ord base mb G M K V) as (W & NM); auto using exg_jok. { exists unitZ. constructor. }
  destruct (graph_config ex_garbage exg 3 _ ptid ptid ord base mb exg_q [] G M V W exg_qok) as (m & m' & OK & CO & JP & FK & LW).
  { split; cbn; auto. }
  assert (RI : rigid ptid) by (apply SO3_id).
  assert (J0 : joint_unit (mkJ Fixed unitZ true (gRoot (snd exg)))) by (exists unitZ; split; [apply unitZ_unit|constructor]).
  exists (gpose ord base m'). split; [|split; [|split; [exact exg_rigid|]]].
  - exact (fk_placement exg 3 _ ptid ptid ord base mb G CF exg_rigid M V W exg_joints m m' exg_q OK CO FK JP).
  - intros a C. apply (mg_all _ _ _ _ _ _ _ _ M) in C. apply (In_nth _ _ 0) in C as (i & Li & <-).
    exact (gpose_rigid exg 3 _ ptid ptid ord base mb exg_rigid M V W RI RI exg_joints J0 m m' OK CO FK i Li).
  - intros n (a & e & B & He & <-). now apply (exg_behind a e).
Qed.
(** A joint that is not linked, a link named like the root joint, a joint used for two links. *)
Lemma exr1_unlinked : exists s', removeJoint 5 "A" "j1" exr1 = GRet tt s' /\ In "j1"%string (joint_names exr1) /\ In "j1"%string (joint_names s').
Proof. exists exr1. split; [nf; reflexivity|]. split; cbn; auto. Qed.
Definition exn_ops : list gop :=
  [ OpNew "Root"; OpAddBody 0 (exg_body 1 "A"); OpAddBody 0 (exg_body 2 "B"); OpAddJoint 0 (mkJ Rev unitZ true "Root"); OpLink 0 "A" ptid "B" ptid "Root" true ]%string.
Definition exn1 : GSt := Eval lazy -[IZR RotX RotY RotZ Rmult Rplus Ropp Rdiv Rminus] in exr_at (firstn 4 exn_ops).
Definition exn2 : GSt := Eval lazy -[IZR RotX RotY RotZ Rmult Rplus Ropp Rdiv Rminus] in exr_at exn_ops.
Definition exn0 (k : nat) : GSt := exr_at (firstn k exn_ops).
Lemma exn2_gok : gok exn2.
Proof.
  assert (E : linkBodies "A" ptid "B" ptid "Root" true exn1 = GRet tt exn2) by (nf; reflexivity).
  apply (gok_step_link _ _ _ _ _ _ 0 1 _ _ E); [reflexivity|reflexivity|discriminate|right; reflexivity|arcs_cases|].
  apply (gok_step_addJoint (mkJ Rev unitZ true "Root") (exn0 3)); [nf; reflexivity|].
  apply (gok_step_addBody (exg_body 2 "B") (exn0 2)); [nf; reflexivity|].
  apply (gok_step_addBody (exg_body 1 "A") (exn0 1)); [nf; reflexivity|]. apply gok_empty.
Qed.
Lemma exn2_kept : removeJoint 5 "A" "Root" exn2 = GRet tt exn2 /\ behind (fst exn2) 0 "Root" 1 /\ In 1 (gNodes (snd exn2)).
Proof.
  split; [nf; reflexivity|]. split; [|cbn; auto]. split.
  - apply rt_step. eexists. split; [cbn; left; reflexivity|reflexivity].
  - intro C. apply clos_rt_rt1n in C. inversion C as [|y z (e & He & _ & N) _]; subst. cbn in He. destruct He as [<-|[]]. now apply N.
Qed.
Definition exu_ops : list gop :=
  [ OpNew "Root"; OpAddBody 0 (exg_body 1 "A"); OpAddBody 0 (exg_body 1 "B"); OpAddBody 0 (exg_body 1 "C"); OpAddBody 0 (exg_body 1 "D"); OpAddBody 0 (exg_body 1 "E");
    OpAddJoint 0 (mkJ Rev unitZ true "j1"); OpAddJoint 0 (mkJ Rev unitZ true "j2"); OpAddJoint 0 (mkJ Rev unitZ true "j3");
    OpLink 0 "A" ptid "B" ptid "j1" true; OpLink 0 "B" ptid "C" ptid "j2" true; OpLink 0 "C" ptid "D" ptid "j3" true; OpLink 0 "B" ptid "E" ptid "j3" true ]%string.
Definition exu : GSt := Eval lazy -[IZR RotX RotY RotZ Rmult Rplus Ropp Rdiv Rminus] in exr_at exu_ops.
Definition exu' : GSt := Eval lazy -[IZR RotX RotY RotZ Rmult Rplus Ropp Rdiv Rminus] in match removeJoint 5 "A" "j1" exu with GExc _ s => s | _ => exu end.
Lemma exu_throws : exists os P s s', run_ops 5 os prog0 = Some P /\ graph_st P 0 = Some s /\
  removeJoint 5 "A" "j1" s = GExc OutOfRange s' /\ In "j1"%string (joint_names s) /\ In "C"%string (body_names s) /\
  ~ In "j1"%string (joint_names s') /\ ~ In "C"%string (body_names s').
Proof.
  exists exu_ops, (mkProg (fst exu) [snd exu]), exu, exu'. split; [nf; reflexivity|]. split; [reflexivity|]. split; [nf; reflexivity|].
  split; [cbn; auto|]. split; [cbn; auto|]. split; cbn; intuition discriminate.
Qed.
