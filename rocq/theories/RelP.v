(** The constructor of relative Jacobians. *)
From Coq Require Import Reals String ZArith Bool Arith List Lia Lra.
From Verif Require Import Res ResP SMap Vec VecP Sva SvaP Mat JointM MultiBodyM KinM DynM JacM Spec SpecDyn SpecJac SpecRel
  JointP KinP KinPathP MbP TreeP DynP DynCP ConvP KinFinP SpecDeriv DerivP DerivTreeP JacP JacFinP JacFin2P.
Import ListNotations.
Open Scope R_scope.

Lemma zmem_iff k l : zmem (Z.of_nat k) l = true <-> In k l.
Proof.
  unfold zmem. rewrite existsb_exists. split.
  - intros (x & Hx & E). apply Z.eqb_eq in E. apply Nat2Z.inj in E. now subst.
  - intro H. exists k. split; auto. apply Z.eqb_refl.
Qed.
Lemma path_dof_one mb i : path_dof mb [i] = jdof (nth i (mb_joints mb) jd).
Proof. unfold path_dof. cbn. lia. Qed.
(** The path to a body of a path is its first part. *)
Lemma root_path_split mb b l c lc : wf_mb mb -> root_path mb b l -> In c l -> root_path mb c lc -> exists s, l = lc ++ s.
Proof.
  intros W H. induction H as [i H|i p l H R IH]; intros I RC.
  - destruct I as [->|[]]. exists []. rewrite app_nil_r. eapply root_path_unique; eauto. now constructor.
  - apply in_app_iff in I. destruct I as [I|[->|[]]].
    + destruct (IH I RC) as (s & ->). exists (s ++ [i]). now rewrite app_assoc.
    + exists []. rewrite app_nil_r. eapply root_path_unique; eauto. eapply rp_step; eauto.
Qed.
Lemma ref_walk_hit mb r : wf_mb mb -> forall i, (i < nrBodies mb)%nat -> anc mb r i -> forall fuel path sign dof, (i + 2 <= fuel)%nat ->
  exists lr s, root_path mb r lr /\ root_path mb i (lr ++ s) /\
    ref_walk mb (Z.of_nat r) fuel (Z.of_nat i) path sign dof =
    Ok (Z.of_nat r, s ++ path, map (fun _ => 1) s ++ sign, (dof + path_dof mb s)%nat).
Proof.
  intros W i. induction i as [i IH] using lt_wf_ind. intros L HA fuel path sign dof F.
  pose proof (wf_nrJoints _ W) as NJ. pose proof (wf_pred_len _ W) as Lp.
  destruct fuel as [|fuel]; [lia|]. cbn [ref_walk].
  replace (Z.of_nat i =? -1)%Z with false by (symmetry; apply Z.eqb_neq; lia).
  destruct (Z.of_nat i =? Z.of_nat r)%Z eqn:E.
  - apply Z.eqb_eq in E. apply Nat2Z.inj in E. subst r. destruct (root_path_exists mb W i L) as (l & RP). exists l, [].
    rewrite app_nil_r. split; auto. split; auto. cbn. now rewrite Nat.add_0_r.
  - rewrite (wf_parent _ W).
    rewrite !getz_nat, (get_nth (mb_joints mb) i jd) by (fold (nrJoints mb); lia). cbn [bind].
    inversion HA as [|k p i' Hp Ha]; subst; [rewrite Z.eqb_refl in E; discriminate|].
    pose proof (par_lt mb i p W L (pred_par _ _ _ Hp)).
    unfold get. rewrite Hp. cbn [bind]. rewrite Nat2Z.id.
    destruct (IH p H ltac:(lia) Ha fuel (i :: path) (1 :: sign) (dof + jdof (nth i (mb_joints mb) jd))%nat) as (lr & s & R1 & R2 & E1); [lia|].
    exists lr, (s ++ [i]). split; auto. split; [rewrite app_assoc; eapply rp_step; eauto|].
    rewrite E1, path_dof_app, path_dof_one, map_app, <- !app_assoc. cbn [map app]. do 2 f_equal. lia.
Qed.
Lemma ref_walk_miss mb r : wf_mb mb -> forall i, (i < nrBodies mb)%nat -> ~ anc mb r i -> forall fuel path sign dof, (i + 2 <= fuel)%nat ->
  exists l, root_path mb i l /\
    ref_walk mb (Z.of_nat r) fuel (Z.of_nat i) path sign dof =
    Ok ((-1)%Z, l ++ path, map (fun _ => 1) l ++ sign, (dof + path_dof mb l)%nat).
Proof.
  intros W i. induction i as [i IH] using lt_wf_ind. intros L HA fuel path sign dof F.
  pose proof (wf_nrJoints _ W) as NJ. pose proof (wf_pred_len _ W) as Lp.
  destruct fuel as [|fuel]; [lia|]. cbn [ref_walk].
  replace (Z.of_nat i =? -1)%Z with false by (symmetry; apply Z.eqb_neq; lia).
  destruct (Z.of_nat i =? Z.of_nat r)%Z eqn:E; [apply Z.eqb_eq in E; apply Nat2Z.inj in E; subst r; contradict HA; constructor|].
  rewrite (wf_parent _ W).
  rewrite !getz_nat, (get_nth (mb_joints mb) i jd) by (fold (nrJoints mb); lia). cbn [bind].
  destruct (wf_get_pred mb i W L) as [[Ep Pp]|(p & Ep & Hp & Pp)]; rewrite Ep; cbn [bind]; rewrite Nat2Z.id.
  - exists [i]. split; [constructor; now apply get_Ok|].
    destruct fuel as [|fuel]; [lia|]. cbn [ref_walk]. rewrite Z.eqb_refl. rewrite path_dof_one. reflexivity.
  - destruct (IH p Hp ltac:(lia)) with (fuel := fuel) (path := i :: path) (sign := 1 :: sign) (dof := (dof + jdof (nth i (mb_joints mb) jd))%nat) as (l & RP & E1); [|lia|].
    { intro HA'. apply HA. eapply anc_step; eauto. now apply get_Ok. }
    exists (l ++ [i]). split; [eapply rp_step; eauto; now apply get_Ok|].
    rewrite E1, path_dof_app, path_dof_one, map_app, <- !app_assoc. cbn [map app]. do 2 f_equal. lia.
Qed.
Lemma ref_climb_ok mb l : wf_mb mb -> one_root mb -> In 0%nat l -> forall i, (i < nrBodies mb)%nat -> ~ In i l -> forall fuel front sign dof, (i + 1 <= fuel)%nat ->
  exists c lc s, In c l /\ root_path mb c lc /\ root_path mb i (lc ++ s) /\ (forall k, In k s -> ~ In k l) /\ (c < nrBodies mb)%nat /\
    ref_climb mb fuel (Z.of_nat i) front l sign dof =
    Ok (Z.of_nat c, front ++ rev s, map (fun _ => -1) s ++ sign, (dof + path_dof mb s)%nat).
Proof.
  intros W O1 I0 i. induction i as [i IH] using lt_wf_ind. intros L NI fuel front sign dof F.
  pose proof (wf_nrJoints _ W) as NJ. pose proof (wf_pred_len _ W) as Lp.
  destruct fuel as [|fuel]; [lia|]. cbn [ref_climb].
  rewrite (wf_parent _ W).
  rewrite !getz_nat, (get_nth (mb_joints mb) i jd) by (fold (nrJoints mb); lia). cbn [bind].
  destruct (wf_get_pred mb i W L) as [[Ep Pp]|(p & Ep & Hp & Pp)]; rewrite Ep; cbn [bind]; rewrite Nat2Z.id.
  - apply get_Ok in Ep. apply O1 in Ep. subst i. contradiction.
  - destruct (zmem (Z.of_nat p) l) eqn:Z.
    + apply zmem_iff in Z. destruct (root_path_exists mb W p ltac:(lia)) as (lp & RP). exists p, lp, [i].
      split; auto. split; auto. split; [eapply rp_step; eauto; now apply get_Ok|]. split; [intros k [<-|[]]; auto|]. split; [lia|].
      rewrite path_dof_one. reflexivity.
    + assert (NP : ~ In p l) by (rewrite <- zmem_iff, Z; discriminate).
      destruct (IH p Hp ltac:(lia) NP fuel (front ++ [i]) (-1 :: sign) (dof + jdof (nth i (mb_joints mb) jd))%nat) as (c & lc & s & H1 & H2 & H3 & H4 & H5 & E); [lia|].
      exists c, lc, (s ++ [i]). split; auto. split; auto. split; [rewrite app_assoc; eapply rp_step; eauto; now apply get_Ok|].
      split; [intros k Hk; apply in_app_iff in Hk; destruct Hk as [Hk|[<-|[]]]; auto|]. split; auto.
      rewrite E, path_dof_app, path_dof_one, map_app, rev_app_distr, <- !app_assoc. cbn [map app rev]. do 2 f_equal. lia.
Qed.
Lemma common_from_ok l c r : ~ In c l -> common_from (l ++ c :: r) (Z.of_nat c) = Ok (length l).
Proof.
  induction l as [|a l IH]; intro N; cbn [app common_from length].
  - now rewrite Z.eqb_refl.
  - replace (Z.of_nat a =? Z.of_nat c)%Z with false by (symmetry; apply Z.eqb_neq; intro E; apply Nat2Z.inj in E; apply N; now left).
    rewrite IH by (intro; apply N; now right). reflexivity.
Qed.
Lemma root_path_head mb i l : wf_mb mb -> one_root mb -> root_path mb i l -> exists l', l = 0%nat :: l'.
Proof.
  intros W O1 H. induction H as [i H|i p l H R (l' & ->)].
  - apply O1 in H. subst. eauto.
  - exists (l' ++ [i]). reflexivity.
Qed.
Lemma root_path_zero mb c lc : wf_mb mb -> one_root mb -> root_path mb c lc -> c = 0%nat -> lc = [0%nat].
Proof.
  intros W O1 H ->. inversion H as [i E|i p l E R]; subst; auto.
  exfalso. assert (L : (0 < nrBodies mb)%nat) by (rewrite <- (wf_pred_len _ W); apply nth_error_Some; congruence).
  pose proof (par_lt mb 0 p W L (pred_par _ _ _ E)). lia.
Qed.

(** What the constructor makes: the path goes down from the reference body ([down], with sign -1)
    and up to the body ([up]). *)
Inductive rel_shape (mb : MultiBody) (b r : nat) : list nat -> list nat -> Prop :=
| rs_up lr s : root_path mb r lr -> root_path mb b (lr ++ s) -> rel_shape mb b r [] s
| rs_common c lc sb sr : root_path mb c lc -> root_path mb b (lc ++ sb) -> root_path mb r (lc ++ sr) ->
    (forall k, In k sr -> ~ In k (lc ++ sb)) -> c <> 0%nat -> rel_shape mb b r (rev sr) sb
| rs_root sb sr : root_path mb b (0%nat :: sb) -> root_path mb r (0%nat :: sr) -> (forall k, In k sr -> ~ In k (0%nat :: sb)) -> r <> 0%nat ->
    rel_shape mb b r (rev sr) (0%nat :: sb).
Definition rel_object (mb : MultiBody) (b r : nat) (p : V3) (dn up : list nat) (J : Jac) : Prop :=
  jc_path J = dn ++ up /\ jc_sign J = map (fun _ => -1) dn ++ map (fun _ => 1) up /\ jc_point J = pttr p /\
  length (jc_jac J) = path_dof mb (dn ++ up) /\ length (jc_dot J) = path_dof mb (dn ++ up) /\ jc_body J = Z.of_nat b /\ jc_ref J = Z.of_nat r.
Lemma path_dof_rev mb l : path_dof mb (rev l) = path_dof mb l.
Proof.
  induction l as [|a l IH]; [reflexivity|]. cbn [rev]. change (a :: l) with ([a] ++ l). rewrite !path_dof_app, IH. lia.
Qed.
Lemma map_const_rev {A B} (x : B) (l : list A) : map (fun _ => x) (rev l) = map (fun _ => x) l.
Proof.
  induction l as [|a l IH]; [reflexivity|]. cbn [rev]. rewrite map_app, IH. cbn. clear. induction l; cbn; congruence.
Qed.
Lemma firstn_app_exact {A} (l l' : list A) : firstn (length l) (l ++ l') = l.
Proof. now rewrite firstn_app, Nat.sub_diag, firstn_all, firstn_O, app_nil_r. Qed.
Lemma skipn_app_exact {A} (l l' : list A) : skipn (length l) (l ++ l') = l'.
Proof. now rewrite skipn_app, Nat.sub_diag, skipn_all. Qed.
Lemma ref_ctor_ok g mb name ref p b r : wf_mb mb -> one_root mb -> (b < nrBodies mb)%nat -> (r < nrBodies mb)%nat ->
  sBodyIndexByName mb name = Ok (Z.of_nat b) -> sBodyIndexByName mb ref = Ok (Z.of_nat r) ->
  exists J dn up, Jacobian_ref_ctor g mb name ref p = Ok J /\ rel_shape mb b r dn up /\ rel_object mb b r p dn up J.
Proof.
  intros W O1 Hb Hr Eb Er. unfold Jacobian_ref_ctor. rewrite Eb, Er. cbn [bind]. pose proof (wf_nrJoints _ W) as NJ.
  destruct (root_path_exists mb W b Hb) as (lb & RB).
  destruct (in_dec Nat.eq_dec r lb) as [I|NI].
  - apply (root_path_anc mb b lb W RB) in I.
    destruct (ref_walk_hit mb r W b Hb I (S (nrJoints mb)) [] [] 0) as (lr & s & R1 & R2 & E); [lia|].
    rewrite E. cbn [bind]. rewrite Z.eqb_refl. cbn [bind]. rewrite !app_nil_r. cbn [Nat.add].
    eexists. exists [], s. split; [reflexivity|]. split; [econstructor; eauto|].
    unfold rel_object. cbn [jc_path jc_sign jc_point jc_jac jc_dot jc_body jc_ref app map]. rewrite !garbage_length. auto 10.
  - assert (NA : ~ anc mb r b) by (intro; apply NI; now apply (root_path_anc mb b lb W RB)).
    destruct (ref_walk_miss mb r W b Hb NA (S (nrJoints mb)) [] [] 0) as (l & RL & E); [lia|].
    rewrite (root_path_unique _ _ _ _ W RB RL) in *. clear lb RB.
    rewrite E. cbn [bind]. rewrite !app_nil_r. cbn [Nat.add]. 
    replace (-1 =? Z.of_nat r)%Z with false by (symmetry; apply Z.eqb_neq; lia).
    destruct (root_path_head _ _ _ W O1 RL) as (l' & El).
    assert (I0 : In 0%nat l) by (rewrite El; now left).
    destruct (ref_climb_ok mb l W O1 I0 r Hr NI (S (nrJoints mb)) [] (map (fun _ => 1) l) (path_dof mb l)) as (c & lc & s & H1 & H2 & H3 & H4 & H5 & E1); [lia|].
    rewrite E1. cbn [bind app].
    destruct (root_path_split mb b l c lc W RL H1 H2) as (sb & Es).
    destruct (Z.of_nat c >? 0)%Z eqn:Zc.
    + assert (NC : c <> 0%nat) by lia.
      destruct (root_path_last mb c lc H2) as (lc' & Elc).
      assert (ND : NoDup lc) by (eapply root_path_increasing; eauto).
      destruct lc' as [|z lc'].
      { exfalso. rewrite Elc in Es. cbn in Es. rewrite El in Es. injection Es as Ez _. lia. }
      assert (TL : tl l = lc' ++ c :: sb) by (rewrite Es, Elc; cbn; now rewrite <- app_assoc).
      assert (NIc : ~ In c lc').
      { rewrite Elc in ND. cbn in ND. apply NoDup_cons_iff in ND. destruct ND as [_ ND]. apply NoDup_remove_2 in ND. now rewrite app_nil_r in ND. }
      rewrite TL, (common_from_ok lc' c sb NIc). cbn [bind].
      assert (Ll : S (S (length lc')) = length lc) by (rewrite Elc; cbn; rewrite app_length; cbn; lia). rewrite Ll.
      rewrite Es, firstn_app_exact.
      rewrite (map_res_all_Ok _ (fun k => nth k (mb_joints mb) jd)).
      2:{ intros k Hk. apply get_nth. fold (nrJoints mb). rewrite NJ. exact (root_path_in _ _ _ W H2 k Hk). }
      cbn [bind]. rewrite map_map. fold (path_dof mb lc). rewrite rev_length, skipn_app_exact.
      assert (LM : length (map (fun _ : nat => -1) s) = length s) by apply map_length.
      assert (F1 : firstn (length s) (map (fun _ : nat => -1) s ++ map (fun _ : nat => 1) (lc ++ sb)) = map (fun _ => -1) s) by (rewrite <- LM at 1; apply firstn_app_exact).
      assert (F2 : skipn (length s + length lc) (map (fun _ : nat => -1) s ++ map (fun _ : nat => 1) (lc ++ sb)) = map (fun _ => 1) sb).
      { rewrite map_app, app_assoc. replace (length s + length lc)%nat with (length (map (fun _ : nat => -1) s ++ map (fun _ : nat => 1) lc)) by now rewrite app_length, !map_length.
        apply skipn_app_exact. }
      rewrite F1, F2.
      assert (DD : (path_dof mb (lc ++ sb) + path_dof mb s - path_dof mb lc)%nat = path_dof mb (rev s ++ sb)) by (rewrite !path_dof_app, path_dof_rev; lia).
      rewrite DD. eexists. exists (rev s), sb. split; [reflexivity|]. rewrite Es in *. split; [now apply (rs_common mb b r c lc sb s)|].
      unfold rel_object. cbn [jc_path jc_sign jc_point jc_jac jc_dot jc_body jc_ref]. rewrite !garbage_length, map_const_rev. auto 10.
    + assert (C0 : c = 0%nat) by lia. cbn [bind].
      pose proof (root_path_zero mb c lc W O1 H2 C0) as Elc. rewrite Elc in *. cbn [app] in Es.
      assert (DD : (path_dof mb l + path_dof mb s)%nat = path_dof mb (rev s ++ l)) by (rewrite !path_dof_app, path_dof_rev; lia).
      rewrite DD. eexists. exists (rev s), l. split; [reflexivity|]. rewrite Es in *. split; [apply (rs_root mb b r sb s); auto; intros ->; contradiction|].
      unfold rel_object. cbn [jc_path jc_sign jc_point jc_jac jc_dot jc_body jc_ref]. rewrite !garbage_length, map_const_rev. auto 10.
Qed.
