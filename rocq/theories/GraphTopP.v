(** The multibody of a graph: well-formed, with the graph's joint maps, mass and poses. *)
From Coq Require Import Reals String ZArith Bool Arith List Lia Lra Relations Permutation.
From Verif Require Import DynP Res ResP SMap Vec Mat Sva SvaP JointM JointP JointFinP MultiBodyM KinM GraphM Spec SpecDyn SpecCoM SpecGraph GraphP GraphWalkP GraphTreeP GraphUseP MbP CoMCtorP KinP KinPathP TreeP.
Import ListNotations.
Open Scope R_scope.
Local Open Scope nat_scope.

Lemma mg_parent_lt s r j0 X0 Xb ord base mb : mb_of_graph s r j0 X0 Xb ord base mb -> forall i, i < length ord ->
  nth i (mb_parent mb) 0%Z = (-1)%Z \/ (0 <= nth i (mb_parent mb) 0%Z < Z.of_nat i)%Z.
Proof.
  intros M i Hi. destruct i as [|i].
  - left. apply (mg_first _ _ _ _ _ _ _ _ M).
  - right. destruct (mg_next _ _ _ _ _ _ _ _ M (S i)) as (p & e & e' & L & E & _); [lia|]. rewrite E. lia.
Qed.
Lemma graph_mb_wf s r j0 X0 Xb ord base mb : graph_ok s -> mb_of_graph s r j0 X0 Xb ord base mb ->
  MultiBody_ctor (mb_bodies mb) (mb_joints mb) (mb_pred mb) (mb_succ mb) (mb_pred mb) (mb_Xt mb) = Ok mb ->
  (forall b, In b ord -> In b (gNodes (snd s))) ->
  joint_ok j0 -> link_joints joint_ok s -> wf_mb mb /\ names_ok mb.
Proof.
  intros G M C VV J0 LJ. split.
  - apply (MultiBody_ctor_wf _ _ _ _ _ mb) in C; auto. pose proof (mg_parent_lt _ _ _ _ _ _ _ _ M) as PL. destruct M. constructor.
    + congruence.
    + rewrite mg_pred. congruence.
    + rewrite mg_succ. now rewrite mg_bodies_len.
    + congruence.
    + intros i z Hz. rewrite mg_pred in Hz. assert (Li : i < length ord) by (rewrite <- mg_parent_len; apply nth_error_Some; congruence).
      apply (nth_error_nth _ _ 0%Z) in Hz. rewrite <- Hz. now apply PL.
    + intros j Hj. apply (In_nth _ _ jd) in Hj as (i & Hi & <-). rewrite mg_joints_len in Hi. destruct i as [|i].
      * rewrite (proj1 mg_first). auto.
      * destruct (mg_next (S i)) as (p & e & e' & L & _ & E1 & _ & _ & _ & E2 & _); [lia|]. rewrite E2. eapply LJ; eauto.
        apply VV. apply nth_In. lia.
  - eapply names_distinct; [|exact C|].
    + rewrite (mg_bodies_len _ _ _ _ _ _ _ _ M), (mg_joints_len _ _ _ _ _ _ _ _ M). auto.
    + assert (E : map bname (mb_bodies mb) = names_of (fst s) ord).
      { apply (list_ext_nth _ _ EmptyString); unfold names_of; rewrite !map_length.
        - apply (mg_bodies_len _ _ _ _ _ _ _ _ M).
        - intros i Hi. rewrite (mg_bodies_len _ _ _ _ _ _ _ _ M) in Hi.
          rewrite (nth_map_lt bname _ _ bd), (nth_map_lt _ ord _ 0) by (rewrite ?(mg_bodies_len _ _ _ _ _ _ _ _ M); auto).
          now rewrite (mg_bodies _ _ _ _ _ _ _ _ M). }
      rewrite E. pose proof (mg_once _ _ _ _ _ _ _ _ M) as ND. pose proof (ng_bodies _ (gk_names _ G)) as NB. clear -ND NB VV.
      unfold names_of. induction ord as [|b l IH]; [constructor|]. cbn [map]. inversion ND; subst. constructor.
      * intro H. apply in_map_iff in H as (b' & E & Hb'). assert (b' = b); [|subst; auto].
        unfold body_names in NB. destruct (in_split b (gNodes (snd s)) (VV b (or_introl eq_refl))) as (l1 & l2 & El). rewrite El in NB.
        destruct (NoDup_map_remove _ _ _ _ NB) as (_ & Q). pose proof (VV b' (or_intror Hb')) as Vb. rewrite El in Vb.
        apply in_app_iff in Vb. destruct Vb as [Vb|[Vb|Vb]]; auto; exfalso; apply (Q b'); auto; apply in_app_iff; auto.
      * apply IH; auto. intros; apply VV; now right.
Qed.
Lemma names_nodup s l : graph_ok s -> NoDup l -> (forall b, In b l -> In b (gNodes (snd s))) -> NoDup (names_of (fst s) l).
Proof.
  intros G ND VV. pose proof (ng_bodies _ (gk_names _ G)) as NB. unfold names_of. induction l as [|b l IH]; [constructor|]. cbn [map]. inversion ND; subst. constructor.
  - intro H. apply in_map_iff in H as (b' & E & Hb'). assert (b' = b); [|subst; auto].
    unfold body_names in NB. destruct (in_split b (gNodes (snd s)) (VV b (or_introl eq_refl))) as (l1 & l2 & El). rewrite El in NB.
    destruct (NoDup_map_remove _ _ _ _ NB) as (_ & Q). pose proof (VV b' (or_intror Hb')) as Vb. rewrite El in Vb.
    apply in_app_iff in Vb. destruct Vb as [Vb|[Vb|Vb]]; auto; exfalso; apply (Q b'); auto; apply in_app_iff; auto.
  - apply IH; auto. intros; apply VV; now right.
Qed.

(** Everything a graph says from a root. *)
Lemma graph_all s root r t axis X0 Xb fuel : graph_ok s -> cycle_free (fst s) (snd s) ->
  mfind (gBody (snd s)) root = Some r -> length (gNodes (snd s)) <= fuel ->
  exists mb ord base tm pm sm, makeMultiBody fuel root t axis X0 Xb s = Ok mb /\
     mb_of_graph s r (mkJ t axis true (gRoot (snd s))) X0 Xb ord base mb /\
     (forall b, In b ord -> In b (gNodes (snd s))) /\
     MultiBody_ctor (mb_bodies mb) (mb_joints mb) (mb_pred mb) (mb_succ mb) (mb_pred mb) (mb_Xt mb) = Ok mb /\
     bodiesBaseTransform fuel root Xb s = Ok tm /\ predecessorJoint fuel root s = Ok pm /\ successorJoints fuel root s = Ok sm /\
     (forall i, i < length ord ->
        mfind tm (bname (nth i (mb_bodies mb) bd)) = Some (ptinv (nth i base ptid)) /\
        mfind pm (bname (nth i (mb_bodies mb) bd)) = Some (jname (nth i (mb_joints mb) jd)) /\
        mfind sm (bname (nth i (mb_bodies mb) bd)) =
          Some (map (fun k => jname (nth k (mb_joints mb) jd)) (filter (fun k => (nth k (mb_parent mb) 0 =? Z.of_nat i)%Z) (seq 0 (length ord))))) /\
     (forall n, ~ In n (map bname (mb_bodies mb)) -> mfind tm n = None /\ mfind pm n = None /\ mfind sm n = None).
Proof.
  intros G CF Hr HF. assert (Vr : In r (gNodes (snd s))) by (now apply (ng_body _ (gk_names _ G)) in Hr).
  destruct (graph_unfolding s r G CF Vr) as (tr & T1 & T2 & T3 & T4 & T5 & T6).
  destruct (makeMultiBody_tree s root r t axis X0 Xb fuel tr G CF Hr T1 T2) as (mb & base & E & M & C); auto; [lia|].
  destruct (makeMultiBody_run s root r t axis X0 Xb fuel tr Hr T1 T2) as (mb2 & E2 & H); [lia|]. rewrite E in E2. injection E2 as <-. cbv zeta in H.
  set (j0 := mkJ t axis true (gRoot (snd s))) in *. set (L := pre (fst s) None (-1)%Z j0 X0 Xb 0 tr) in *. destruct H as (EB & EJ & EP & ES & EPa & EX & _).
  assert (EN : map n_a L = gnodes tr) by apply pre_nodes.
  assert (NN : map (fun en => bname (body_at (fst s) (n_a en))) L = names_of (fst s) (gnodes tr)) by (unfold names_of; rewrite <- EN, map_map; reflexivity).
  assert (NDN : NoDup (names_of (fst s) (gnodes tr))) by (apply names_nodup; auto).
  assert (HB : bodiesBaseTransform fuel root Xb s = Ok (msets (fst s) (fun en => ptinv (n_base en)) L [])).
  { unfold bodiesBaseTransform, mat_. rewrite Hr. cbn [bind]. rewrite <- T1. apply transform_pre; auto. lia. }
  assert (HP : predecessorJoint fuel root s = Ok (msets (fst s) (fun en => jname (n_joint en)) L [])).
  { unfold predecessorJoint, mat_. rewrite Hr. cbn [bind]. rewrite <- T1. change (gRoot (snd s)) with (jname j0). apply predecessor_pre; auto. lia. }
  destruct (successors_pre (fst s) tr fuel None (-1)%Z j0 X0 Xb 0 [] T2 ltac:(lia) NDN) as (sm & HS & S1 & S2). fold L in S2.
  assert (HS' : successorJoints fuel root s = Ok sm).
  { unfold successorJoints, mat_. rewrite Hr. cbn [bind]. rewrite <- T1. exact HS. }
  rewrite <- NN in NDN. destruct (msets_find (fst s) (fun en => ptinv (n_base en)) L [] NDN) as (B1 & B2).
  destruct (msets_find (fst s) (fun en => jname (n_joint en)) L [] NDN) as (P1 & P2).
  assert (EBN : map bname (mb_bodies mb) = names_of (fst s) (gnodes tr)) by (rewrite EB, map_map, <- NN; reflexivity).
  assert (LN : length L = length (gnodes tr)) by (rewrite <- EN; now rewrite map_length).
  (* the frames of the bodies *)
  assert (EBA : forall i, i < length (gnodes tr) -> exists en, nth_error L i = Some en).
  { intros i Hi. destruct (nth_error L i) as [en|] eqn:Q; [eauto|]. apply nth_error_None in Q. lia. }
  pose proof (makeMultiBody_tree) as _.
  assert (EBase : exists base', base' = map n_base L /\ mb_of_graph s r j0 X0 Xb (gnodes tr) base' mb).
  { exists (map n_base L). split; [reflexivity|]. destruct M. constructor; auto.
    - rewrite map_length. auto.
    - intros i Hi. destruct (EBA i Hi) as (en & Q). rewrite EB, (nth_map_e _ _ _ bd _ Q), (nth_map_e n_base _ _ ptid _ Q).
      rewrite <- EN. rewrite (nth_map_e n_a _ _ 0 _ Q). reflexivity.
    - destruct mg_first as (F1 & F2 & F3 & _). do 3 (split; [assumption|]).
      pose proof (pre_hd (fst s) tr None (-1)%Z j0 X0 Xb 0) as HD. fold L in HD. rewrite hd_error_nth_error in HD.
      rewrite (nth_map_e n_base _ _ ptid _ HD). cbn [n_base]. unfold x_from. destruct (find (is_from None) _) eqn:F; [|reflexivity].
      apply find_some in F as (_ & F). discriminate.
    - intros i (Hi & Li). destruct (EBA i Li) as (en & Q).
      destruct (pre_below (fst s) tr _ _ _ _ _ _ T2 i en Hi Q) as (p & ep & Q1 & Q2 & e & W1 & W2 & W3 & W4 & W5 & W6 & W7). fold L in Q2.
      assert (Vp : In (n_a ep) (gNodes (snd s))). { apply T6. rewrite <- EN. apply in_map. eapply nth_error_In; eauto. }
      destruct (gk_pair _ G _ _ Vp W1) as (e' & Z1 & Z2 & _). rewrite W2 in Z1.
      exists p, e, e'. split; [exact Q1|]. rewrite EPa, EJ, EX, <- EN.
      rewrite (nth_map_e n_par _ _ 0%Z _ Q), (nth_map_e n_a _ _ 0 _ Q), (nth_map_e n_a _ _ 0 _ Q2), (nth_map_e n_joint _ _ jd _ Q),
        (nth_map_e n_X _ _ ptid _ Q), !(nth_map_e n_base _ _ ptid _ Q), (nth_map_e n_base _ _ ptid _ Q2).
      split; [rewrite W3; reflexivity|]. do 6 (split; [assumption|]). rewrite W6. apply x_from_unique; auto.
      apply (cf_single _ _ CF). eapply gk_next in W1; eauto. now rewrite W2 in W1. }
  destruct EBase as (base' & Ebase & M').
  exists mb, (gnodes tr), base', (msets (fst s) (fun en => ptinv (n_base en)) L []), (msets (fst s) (fun en => jname (n_joint en)) L []), sm.
  do 7 (split; [assumption|]). split.
  - intros i Hi. destruct (EBA i Hi) as (en & Q). assert (HI : In en L) by (eapply nth_error_In; eauto).
    rewrite EB, (nth_map_e _ _ _ bd _ Q). cbn [ent_body bname]. rewrite (B2 en HI), (P2 en HI), (S2 en HI).
    rewrite Ebase, (nth_map_e n_base _ _ ptid _ Q). split; [reflexivity|]. rewrite EJ, (nth_map_e n_joint _ _ jd _ Q). split; [reflexivity|]. f_equal.
    pose proof (pre_kids (fst s) tr None (-1)%Z j0 X0 Xb 0 T2 ltac:(lia) i en Q) as KI. fold L in KI. rewrite kids_of_seq in KI. cbn [Nat.add] in KI.
    apply (f_equal (map (fun x => jname (snd x)))) in KI. rewrite !map_map in KI. cbn [snd] in KI. rewrite EPa, <- LN. unfold ajn. symmetry. exact KI.
  - intros n Hn. rewrite EBN in Hn. rewrite B1, P1 by (rewrite NN; auto). rewrite S1 by auto. auto.
Qed.
