(** Reuse of the objects made of Jacobians, continued: momentum matrix, Coriolis, inverse kinematics, inverse statics. *)
From Coq Require Import Reals String ZArith Bool Arith List Lia Lra.
From Verif Require Import Res ResP SMap Vec Sva Mat JointM MultiBodyM KinM DynM JacM CoMM MomM CoriolisM ISM IkM Spec SpecDyn SpecJac SpecReuse MbP Reuse1P Reuse2P Reuse4P.
Import ListNotations.
Open Scope nat_scope.

(** ** CentroidalMomentumMatrix *)
Record msame (mb : MultiBody) (c c' : CMM) : Prop := {
  ms_vec : vsame mb (cm_vec c) (cm_vec c');
  ms_blocks : cm_blocks c = cm_blocks c';
  ms_weight : cm_weight c = cm_weight c';
  ms_mat : dims 6 (mb_nrDof mb) (cm_mat c) (cm_mat c');
  ms_dot : dims 6 (mb_nrDof mb) (cm_dot c) (cm_dot c');
  ms_work : length (cm_work c) = nrBodies mb;
  ms_work' : length (cm_work c') = nrBodies mb;
  ms_nacc : length (cm_nacc c) = nrBodies mb;
  ms_nacc' : length (cm_nacc c') = nrBodies mb
}.
Lemma dims_sym {r c M N} : dims r c M N -> dims r c N M.
Proof. intros (H1 & H2 & H3 & H4). repeat split; auto. Qed.
Lemma ms_sym mb a b : msame mb a b -> msame mb b a.
Proof. intros H. destruct H. constructor; auto; [now apply vsame_sym|now apply dims_sym|now apply dims_sym]. Qed.
Lemma ms_trans mb a b c : msame mb a b -> msame mb b c -> msame mb a c.
Proof. intros H K. destruct H, K. constructor; try congruence; [eapply vsame_trans; eauto|eapply dims_mix; eauto|eapply dims_mix; eauto]. Qed.
Lemma clear_dims r c M N : dims r c M N -> mat_clear M = mat_clear N /\ mrows (mat_clear M) = r /\ mcols (mat_clear M) = c.
Proof. intros (H1 & H2 & H3 & H4). unfold mat_clear. rewrite H1, H2, H3, H4. auto. Qed.
Definition mloop mb vec0 (v v' : list Jac) (w w' : list (list SV)) : Prop :=
  vsame mb v v' /\ vsame mb vec0 v /\ length w = nrBodies mb /\ length w' = nrBodies mb.
Lemma set_len {A} n (l l' : list A) i a : length l = n -> length l' = n -> rel (fun x y => length x = n /\ length y = n) (set l i a) (set l' i a).
Proof. intros H H'. unfold set. rewrite H, H'. destruct (i <? n); simpl; auto. rewrite !upd_length. auto. Qed.
Lemma two_rel mb m J J' : jsame mb J J' ->
  rel (fun a b => jsame mb a b /\ jsame mb J a /\ jc_jac a = jc_jac b /\ jc_dot a = jc_dot b)
      (J <- bodyJacobian mb m J ;; bodyJacobianDot mb m J) (J <- bodyJacobian mb m J' ;; bodyJacobianDot mb m J).
Proof.
  intros H. eapply rel_bind; [now apply bodyJacobian_rel|]. intros a b (H1 & H2 & H3 & _).
  eapply rel_mono; [now apply bodyJacobianDot_rel|]. intros x y (K1 & K2 & K3 & K4 & K5).
  split; [auto|]. split; [eapply js_trans; eauto|]. split; [congruence|auto].
Qed.
Lemma bind_assoc {A B C} (x : res A) (f : A -> res B) (g : B -> res C) : bind x (fun a => bind (f a) g) = bind (bind x f) g.
Proof. destruct x; auto. Qed.
Lemma computeMatrix_rel mb m com c c' : msame mb c c' ->
  rel (fun a b => msame mb a b /\ msame mb c a /\ cm_mat a = cm_mat b) (computeMatrix mb m com c) (computeMatrix mb m com c').
Proof.
  intros HC. unfold computeMatrix. destruct (clear_dims _ _ _ _ (ms_mat _ _ _ HC)) as (EC & R1 & R2). rewrite <- EC. eapply rel_bind.
  - apply (rel_for_up (fun _ s s' => mloop mb (cm_vec c) (fst (fst s)) (fst (fst s')) (snd (fst s)) (snd (fst s')) /\ snd s = snd s' /\ mrows (snd s) = 6 /\ mcols (snd s) = mb_nrDof mb)).
    + simpl. split; [|auto]. split; [apply HC|]. split; [eapply vsame_refl; apply HC|]. split; apply HC.
    + intros i [[v w] M] [[v' w'] M'] _. cbn [fst snd]. intros ((H1 & H2 & H3 & H4) & <- & D1 & D2). unfold cmm_step.
      rewrite <- (ms_weight _ _ _ HC), <- (ms_blocks _ _ _ HC).
      eapply rel_bind; [apply rel_get2; exact H1|]. intros J J' (HJ & EJ & EJ').
      eapply rel_bind; [apply bodyJacobian_rel; exact HJ|]. intros a b (Hab & Ha & Ec & _).
      eapply rel_bind; [apply (rel_set2 (jsame mb)); [exact H1|exact Hab]|]. intros x y [Hxy Ex].
      apply rel_bs; intros X _. apply rel_bs; intros bo _. apply rel_bs; intros wi _. cbv zeta. rewrite <- Ec.
      eapply rel_bind; [apply (set_len (nrBodies mb)); auto|]. intros u u' [L L'].
      apply rel_bs; intros bs _. apply rel_bs; intros M2 EM. apply addFull_compact_dims in EM. simpl.
      split; [|intuition congruence]. split; [auto|]. split; [rewrite Ex; eapply vsame_put; eauto|auto].
  - intros [[v w] M] [[v' w'] M']. cbn [fst snd]. intros ((H1 & H2 & H3 & H4) & <- & D1 & D2). simpl.
    destruct HC. split; [|split; [|auto]]; constructor; simpl; auto; try (repeat split; auto; fail); try (eapply dims_self; eauto); try (split; [apply ms_mat0|]; split; [apply ms_mat0|]; auto).
Qed.
Lemma computeMatrixDot_rel mb m com comDot c c' : msame mb c c' ->
  rel (fun a b => msame mb a b /\ msame mb c a /\ cm_dot a = cm_dot b) (computeMatrixDot mb m com comDot c) (computeMatrixDot mb m com comDot c').
Proof.
  intros HC. unfold computeMatrixDot. destruct (clear_dims _ _ _ _ (ms_dot _ _ _ HC)) as (EC & R1 & R2). rewrite <- EC. eapply rel_bind.
  - apply (rel_for_up (fun _ s s' => mloop mb (cm_vec c) (fst (fst s)) (fst (fst s')) (snd (fst s)) (snd (fst s')) /\ snd s = snd s' /\ mrows (snd s) = 6 /\ mcols (snd s) = mb_nrDof mb)).
    + simpl. split; [|auto]. split; [apply HC|]. split; [eapply vsame_refl; apply HC|]. split; apply HC.
    + intros i [[v w] M] [[v' w'] M'] _. cbn [fst snd]. intros ((H1 & H2 & H3 & H4) & <- & D1 & D2). unfold cmm_dot_step.
      rewrite <- (ms_weight _ _ _ HC), <- (ms_blocks _ _ _ HC).
      eapply rel_bind; [apply rel_get2; exact H1|]. intros J J' (HJ & EJ & EJ').
      rewrite (bind_assoc (bodyJacobian mb m J) (bodyJacobianDot mb m)), (bind_assoc (bodyJacobian mb m J') (bodyJacobianDot mb m)).
      eapply rel_bind; [apply two_rel; exact HJ|]. intros a b (Hab & Ha & Ec & Ed).
      eapply rel_bind; [apply (rel_set2 (jsame mb)); [exact H1|exact Hab]|]. intros x y [Hxy Ex].
      apply rel_bs; intros X _. apply rel_bs; intros bo _. apply rel_bs; intros wi _. apply rel_bs; intros V _. cbv zeta. rewrite <- Ec, <- Ed.
      apply rel_bs; intros jw _. eapply rel_bind; [apply (set_len (nrBodies mb)); auto|]. intros u u' [L L'].
      apply rel_bs; intros bs _. apply rel_bs; intros M2 EM. apply addFull_compact_dims in EM. simpl.
      split; [|intuition congruence]. split; [auto|]. split; [rewrite Ex; eapply vsame_put; eauto|auto].
  - intros [[v w] M] [[v' w'] M']. cbn [fst snd]. intros ((H1 & H2 & H3 & H4) & <- & D1 & D2). simpl.
    destruct HC. split; [|split; [|auto]]; constructor; simpl; auto; try (repeat split; auto; fail); try (eapply dims_self; eauto); try (split; [apply ms_dot0|]; split; [apply ms_dot0|]; auto).
Qed.
Lemma computeBoth_rel mb m com comDot c c' : msame mb c c' ->
  rel (fun a b => msame mb a b /\ msame mb c a /\ cm_mat a = cm_mat b /\ cm_dot a = cm_dot b)
      (computeMatrixAndMatrixDot mb m com comDot c) (computeMatrixAndMatrixDot mb m com comDot c').
Proof.
  intros HC. unfold computeMatrixAndMatrixDot. destruct (clear_dims _ _ _ _ (ms_mat _ _ _ HC)) as (EC & R1 & R2). destruct (clear_dims _ _ _ _ (ms_dot _ _ _ HC)) as (EC' & R1' & R2').
  rewrite <- EC, <- EC'. eapply rel_bind.
  - apply (rel_for_up (fun _ s s' => mloop mb (cm_vec c) (fst (fst (fst s))) (fst (fst (fst s'))) (snd (fst (fst s))) (snd (fst (fst s'))) /\
        snd (fst s) = snd (fst s') /\ mrows (snd (fst s)) = 6 /\ mcols (snd (fst s)) = mb_nrDof mb /\ snd s = snd s' /\ mrows (snd s) = 6 /\ mcols (snd s) = mb_nrDof mb)).
    + simpl. split; [|auto 10]. split; [apply HC|]. split; [eapply vsame_refl; apply HC|]. split; apply HC.
    + intros i [[[v w] M] N] [[[v' w'] M'] N'] _. cbn [fst snd]. intros ((H1 & H2 & H3 & H4) & <- & D1 & D2 & <- & D3 & D4). unfold cmm_both_step.
      rewrite <- (ms_weight _ _ _ HC), <- (ms_blocks _ _ _ HC).
      eapply rel_bind; [apply rel_get2; exact H1|]. intros J J' (HJ & EJ & EJ').
      rewrite (bind_assoc (bodyJacobian mb m J) (bodyJacobianDot mb m)), (bind_assoc (bodyJacobian mb m J') (bodyJacobianDot mb m)).
      eapply rel_bind; [apply two_rel; exact HJ|]. intros a b (Hab & Ha & Ec & Ed).
      eapply rel_bind; [apply (rel_set2 (jsame mb)); [exact H1|exact Hab]|]. intros x y [Hxy Ex].
      apply rel_bs; intros X _. apply rel_bs; intros bo _. apply rel_bs; intros wi _. apply rel_bs; intros V _. cbv zeta. rewrite <- Ec, <- Ed.
      apply rel_bs; intros bs _. eapply rel_bind; [apply (set_len (nrBodies mb)); auto|]. intros u u' [L L'].
      apply rel_bs; intros M2 EM. apply addFull_compact_dims in EM. apply rel_bs; intros jw _.
      eapply rel_bind; [apply (set_len (nrBodies mb)); auto|]. intros t t' [T T'].
      apply rel_bs; intros N2 EN. apply addFull_compact_dims in EN. simpl.
      split; [|intuition congruence]. split; [auto|]. split; [rewrite Ex; eapply vsame_put; eauto|auto].
  - intros [[[v w] M] N] [[[v' w'] M'] N']. cbn [fst snd]. intros ((H1 & H2 & H3 & H4) & <- & D1 & D2 & <- & D3 & D4). simpl.
    destruct HC. split; [|split; [|auto]]; constructor; simpl; auto; try (repeat split; auto; fail); try (eapply dims_self; eauto);
      try (split; [apply ms_dot0|]; split; [apply ms_dot0|]; auto); try (split; [apply ms_mat0|]; split; [apply ms_mat0|]; auto).
Qed.
Lemma normalMomentumDot_rel mb m com comDot c c' : wf_mb mb -> msame mb c c' ->
  rel (fun a b => msame mb (snd a) (snd b) /\ msame mb c (snd a) /\ fst a = fst b) (normalMomentumDot mb m com comDot c) (normalMomentumDot mb m com comDot c').
Proof.
  intros W HC. unfold normalMomentumDot. assert (EN : nrJoints mb = nrBodies mb) by exact (wf_joints mb W).
  eapply rel_bind; [apply nacc_rel; auto; rewrite EN; apply HC|]. intros x y [<- Lx]. cbv zeta. unfold normalMomentumDot_pre. simpl.
  rewrite <- (ms_weight _ _ _ HC). apply rel_bs; intros v _. simpl. destruct HC.
  split; [|split; [|auto]]; constructor; simpl; auto; try congruence; try (eapply dims_self; eauto); eapply vsame_refl; eauto.
Qed.
Lemma compactPath_same mb J J' : jc_path J = jc_path J' -> compactPath mb J = compactPath mb J'.
Proof. intros E. unfold compactPath. now rewrite E. Qed.
Lemma cmm_init_rel g g' mb : rel (fun a b => vsame mb (fst a) (fst b) /\ snd a = snd b /\ length (fst a) = nrBodies mb) (cmm_init g mb) (cmm_init g' mb).
Proof.
  unfold cmm_init. apply (rel_for_up (fun i s s' => vsame mb (fst s) (fst s') /\ snd s = snd s' /\ length (fst s) = i)); [split; [constructor|auto]|].
  intros i s s' _ (H & E & L). apply rel_bs; intros b _. eapply rel_bind; [apply ctor_jac_rel|]. intros J J' HJ.
  rewrite <- (compactPath_same mb J J') by apply HJ. apply rel_bs; intros bs _. simpl. rewrite E, app_length. simpl.
  split; [apply Forall2_app; auto|]. split; [auto|lia].
Qed.
Lemma cmm_new_same mb w c c' : cmm_new mb w c -> cmm_new mb w c' -> msame mb c c'.
Proof.
  intros (g & gm & H) (g' & gm' & H'). pose proof (cmm_init_rel g g' mb) as HI. destruct w as [w|].
  - unfold CMM_ctor_w in *. apply bind_Ok in H. destruct H as (s & E & H). apply bind_Ok in H'. destruct H' as (s' & E' & H').
    rewrite E, E' in HI. destruct HI as (H1 & H2 & H3). destruct (length w =? nrBodies mb); try discriminate. injection H as <-. injection H' as <-.
    pose proof (Forall2_len _ _ _ H1). constructor; simpl; rewrite ?map_length, ?seq_length; auto; try congruence; repeat split.
  - unfold CMM_ctor in *. apply bind_Ok in H. destruct H as (s & E & H). apply bind_Ok in H'. destruct H' as (s' & E' & H').
    rewrite E, E' in HI. destruct HI as (H1 & H2 & H3). injection H as <-. injection H' as <-.
    pose proof (Forall2_len _ _ _ H1). constructor; simpl; rewrite ?map_length, ?seq_length; auto; try congruence; repeat split.
Qed.
Lemma cmm_hist mb w c0 c : wf_mb mb -> cmm_new mb w c0 -> cmm_history mb w c -> msame mb c0 c.
Proof.
  intros W H0 H. induction H as [c H|c c' H IH C]; [eapply cmm_new_same; eauto|].
  assert (S : msame mb c c) by (eapply ms_trans; [apply ms_sym; exact IH|exact IH]).
  eapply ms_trans; [exact IH|]. destruct C as [m com c' E|m com cd c' E|m com cd c' E|m com cd v c' E].
  - apply (rel_Ok _ _ _ _ _ (computeMatrix_rel mb m com c c S) E E).
  - apply (rel_Ok _ _ _ _ _ (computeMatrixDot_rel mb m com cd c c S) E E).
  - apply (rel_Ok _ _ _ _ _ (computeBoth_rel mb m com cd c c S) E E).
  - apply (rel_Ok _ _ _ _ _ (normalMomentumDot_rel mb m com cd c c W S) E E).
Qed.
Lemma cmm_all mb w c c' m com comDot : wf_mb mb -> cmm_history mb w c -> cmm_history mb w c' ->
  seen cm_mat (computeMatrix mb m com c) = seen cm_mat (computeMatrix mb m com c') /\
  seen cm_dot (computeMatrixDot mb m com comDot c) = seen cm_dot (computeMatrixDot mb m com comDot c') /\
  seen (fun a => (cm_mat a, cm_dot a)) (computeMatrixAndMatrixDot mb m com comDot c) = seen (fun a => (cm_mat a, cm_dot a)) (computeMatrixAndMatrixDot mb m com comDot c') /\
  cmm_momentum mb m com c = cmm_momentum mb m com c' /\
  seen fst (normalMomentumDot mb m com comDot c) = seen fst (normalMomentumDot mb m com comDot c').
Proof.
  intros W H H'. destruct (history_new _ _ _ H) as [d0 H0].
  assert (S : msame mb c c') by (eapply ms_trans; [apply ms_sym; eapply cmm_hist; eauto|eapply cmm_hist; eauto]).
  split; [|split; [|split; [|split]]].
  - apply rel_seen. eapply rel_mono; [now apply computeMatrix_rel|]. intros a b K; apply K.
  - apply rel_seen. eapply rel_mono; [now apply computeMatrixDot_rel|]. intros a b K; apply K.
  - apply rel_seen. eapply rel_mono; [now apply computeBoth_rel|]. intros a b (_ & _ & -> & ->). auto.
  - unfold cmm_momentum. now rewrite (ms_weight _ _ _ S).
  - apply rel_seen. eapply rel_mono; [now apply normalMomentumDot_rel|]. intros a b K; apply K.
Qed.

(** ** Coriolis *)
Record osame (mb : MultiBody) (r : nat * nat) (c c' : Cor) : Prop := {
  os_jacs : vsame mb (co_jacs c) (co_jacs c');
  os_blocks : co_blocks c = co_blocks c';
  os_mat : dims (mb_nrDof mb) (mb_nrDof mb) (co_mat c) (co_mat c');
  os_res : dims (fst r) (snd r) (co_res c) (co_res c')
}.
Lemma os_sym mb r a b : osame mb r a b -> osame mb r b a.
Proof. intros H. destruct H. constructor; auto; [now apply vsame_sym|now apply dims_sym|now apply dims_sym]. Qed.
Lemma os_trans mb r a b c : osame mb r a b -> osame mb r b c -> osame mb r a c.
Proof. intros H K. destruct H, K. constructor; try congruence; [eapply vsame_trans; eauto|eapply dims_mix; eauto|eapply dims_mix; eauto]. Qed.
Lemma fill_block r c M N nr nc B : dims r c M N ->
  rel (fun X Y => dims r c X Y /\ beq nr nc (ment X) (ment Y)) (set_block M 0 0 nr nc B) (set_block N 0 0 nr nc B).
Proof.
  intros (H1 & H2 & H3 & H4). unfold set_block. rewrite H1, H2, H3, H4. destruct (_ && _); simpl; auto.
  split; [repeat split; auto|]. intros i j Hi Hj. simpl. rewrite !in_block_whole by lia. auto.
Qed.
Lemma read_block r c M N nr nc : dims r c M N -> beq nr nc (ment M) (ment N) -> rel (beq nr nc) (get_block M 0 0 nr nc) (get_block N 0 0 nr nc).
Proof. intros (H1 & H2 & H3 & H4) H. unfold get_block. rewrite H1, H2, H3, H4. destruct (_ && _); simpl; auto. Qed.
Lemma two_rel' mb m J J' : jsame mb J J' ->
  rel (fun a b => jsame mb a b /\ jsame mb J a /\ jc_jac a = jc_jac b /\ jc_dot a = jc_dot b)
      (J <- jacobian mb m J ;; jacobianDot mb m J) (J <- jacobian mb m J' ;; jacobianDot mb m J).
Proof.
  intros H. eapply rel_bind; [now apply jacobian_rel|]. intros a b (H1 & H2 & H3 & _).
  eapply rel_mono; [now apply jacobianDot_rel|]. intros x y (K1 & K2 & K3 & K4 & K5).
  split; [auto|]. split; [eapply js_trans; eauto|]. split; [congruence|auto].
Qed.
Lemma coriolis_rel mb m r c c' : osame mb r c c' ->
  rel (fun a b => osame mb r a b /\ osame mb r c a /\ same_mat (co_mat a) (co_mat b)) (coriolis mb m c) (coriolis mb m c').
Proof.
  intros HC. unfold coriolis. eapply rel_bind.
  - apply (rel_for_up (fun _ s s' => vsame mb (fst (fst s)) (fst (fst s')) /\ vsame mb (co_jacs c) (fst (fst s)) /\
        dims (fst r) (snd r) (snd (fst s)) (snd (fst s')) /\ sm (mb_nrDof mb) (mb_nrDof mb) (snd s) (snd s'))).
    + split; [apply HC|]. split; [eapply vsame_refl; apply HC|]. split; [apply HC|apply sm_clear; apply HC].
    + intros i [[v w] M] [[v' w'] M'] _. cbn [fst snd]. intros (H1 & H2 & H3 & H4). unfold cor_step. rewrite <- (os_blocks _ _ _ _ HC).
      eapply rel_bind; [apply rel_get2; exact H1|]. intros J J' (HJ & EJ & EJ').
      rewrite (bind_assoc (jacobian mb m J) (jacobianDot mb m)), (bind_assoc (jacobian mb m J') (jacobianDot mb m)).
      eapply rel_bind; [apply two_rel'; exact HJ|]. intros a b (Hab & Ha & Ec & Ed).
      eapply rel_bind; [apply (rel_set2 (jsame mb)); [exact H1|exact Hab]|]. intros x y [Hxy Ex].
      apply rel_bs; intros X _. apply rel_bs; intros VW _. apply rel_bs; intros bo _. cbv zeta.
      unfold jac_dof, jac_point. rewrite <- Ec, <- Ed, <- (js_point _ _ _ Hab). destruct (length (jc_dot a) =? length (jc_jac a)); [|simpl; auto].
      eapply rel_bind; [apply (fill_block (fst r) (snd r)); exact H3|]. intros P Q [HP HB].
      apply rel_bs; intros bs _. eapply rel_bind; [eapply read_block; eauto|]. intros B B' HBB.
      eapply rel_bind; [eapply expand_rel; [|exact H4]|].
      { split; [reflexivity|]. split; [reflexivity|]. split; [reflexivity|]. split; [reflexivity|]. exact HBB. }
      intros N N' HN. simpl. split; [auto|]. split; [rewrite Ex; eapply vsame_put; eauto|]. split; auto.
  - intros [[v w] M] [[v' w'] M']. cbn [fst snd]. intros (H1 & H2 & H3 & H4). simpl. pose proof (sm_dims _ _ _ _ H4) as HD.
    destruct HC. split; [|split; [|eapply sm_same; eauto]]; constructor; simpl; auto; [exact (dims_mix os_mat0 (dims_self HD))|exact (dims_mix os_res0 (dims_self H3))].
Qed.
Lemma cor_new_same mb c c' g gm gr g' gm' gr' : Coriolis_ctor g gm gr mb = Ok c -> Coriolis_ctor g' gm' gr' mb = Ok c' ->
  osame mb (mrows (co_res c), mcols (co_res c)) c c'.
Proof.
  unfold Coriolis_ctor. intros H H'. apply bind_Ok in H. destruct H as ([[v b] r] & E & H). apply bind_Ok in H'. destruct H' as ([[v' b'] r'] & E' & H').
  injection H as <-. injection H' as <-. simpl.
  assert (G : rel (fun s s' => vsame mb (fst (fst s)) (fst (fst s')) /\ snd (fst s) = snd (fst s') /\ mrows (snd s) = mrows (snd s') /\ mcols (snd s) = mcols (snd s'))
     (for_up (nrBodies mb) (cor_init_step g gr mb) ([], [], mat_zero 0 0)) (for_up (nrBodies mb) (cor_init_step g' gr' mb) ([], [], mat_zero 0 0))).
  { apply (rel_for_up (fun _ s s' => vsame mb (fst (fst s)) (fst (fst s')) /\ snd (fst s) = snd (fst s') /\ mrows (snd s) = mrows (snd s') /\ mcols (snd s) = mcols (snd s'))).
    - split; [constructor|auto].
    - intros i [[x y] M] [[x' y'] M'] _. cbn [fst snd]. intros (H1 & -> & H3 & H4). unfold cor_init_step. apply rel_bs; intros bo _. cbv zeta.
      eapply rel_bind; [apply ctor_jac_rel|]. intros J J' HJ. rewrite <- (compactPath_same mb J J') by apply HJ. apply rel_bs; intros bs _. cbn [rel fst snd].
      assert (ED : jac_dof J = jac_dof J') by (unfold jac_dof; destruct HJ; congruence). rewrite <- ED, H3.
      split; [apply Forall2_app; auto|]. split; [auto|]. destruct (mrows M' <? jac_dof J); simpl; auto. }
  rewrite E, E' in G. destruct G as (G1 & G2 & G3 & G4). simpl in *. constructor; simpl; auto; repeat split; auto.
Qed.
Lemma cor_hist mb c0 g gm gr c : Coriolis_ctor g gm gr mb = Ok c0 -> cor_history mb c -> osame mb (mrows (co_res c0), mcols (co_res c0)) c0 c.
Proof.
  intros H0 H. induction H as [c (g' & gm' & gr' & H)|c c' H IH (m & E)]; [eapply cor_new_same; eauto|].
  assert (S : osame mb (mrows (co_res c0), mcols (co_res c0)) c c) by (eapply os_trans; [apply os_sym; exact IH|exact IH]).
  eapply os_trans; [exact IH|]. apply (rel_Ok _ _ _ _ _ (coriolis_rel mb m _ c c S) E E).
Qed.
Lemma cor_all mb c c' m : cor_history mb c -> cor_history mb c' ->
  same_outcome (fun a b => same_mat (co_mat a) (co_mat b)) (coriolis mb m c) (coriolis mb m c').
Proof.
  intros H H'. destruct (history_new _ _ _ H) as [c0 (g & gm & gr & H0)].
  assert (S : osame mb (mrows (co_res c0), mcols (co_res c0)) c c') by (eapply os_trans; [apply os_sym; eapply cor_hist; eauto|eapply cor_hist; eauto]).
  eapply (rel_mono _ (fun a b => same_mat (co_mat a) (co_mat b))); [apply (coriolis_rel mb m _ c c' S)|]. intros a b K; apply K.
Qed.

(** ** InverseKinematics *)
Record isame (mb : MultiBody) (I I' : IK) : Prop := {
  im_max : ik_max I = ik_max I'; im_lambda : ik_lambda I = ik_lambda I'; im_th : ik_threshold I = ik_threshold I';
  im_zero : ik_zero I = ik_zero I'; im_ef : ik_ef I = ik_ef I'; im_jac : jsame mb (ik_jac I) (ik_jac I')
}.
Lemma im_sym mb a b : isame mb a b -> isame mb b a.
Proof. intros H. destruct H. constructor; auto. now apply js_sym. Qed.
Lemma im_trans mb a b c : isame mb a b -> isame mb b c -> isame mb a c.
Proof. intros H K. destruct H, K. constructor; try congruence. eapply js_trans; eauto. Qed.
Lemma im_self mb a b : isame mb a b -> isame mb a a.
Proof. intros H. eapply im_trans; [exact H|now apply im_sym]. Qed.
Definition ikout mb I0 (a b : IK * MBC * bool) : Prop := isame mb (fst (fst a)) (fst (fst b)) /\ isame mb I0 (fst (fst a)) /\ snd (fst a) = snd (fst b) /\ snd a = snd b.
Lemma ik_iter_rel svd rotErr mb target I I' m : isame mb I I' ->
  rel (ikout mb I) (ik_iter svd rotErr mb target I m) (ik_iter svd rotErr mb target I' m).
Proof.
  intros HI. unfold ik_iter. eapply rel_bind; [apply jacobian_rel; apply HI|]. intros a b (Hab & Ha & Ec & _). cbv zeta. simpl.
  rewrite <- Ec, <- (im_zero _ _ _ HI), <- (im_ef _ _ _ HI), <- (im_th _ _ _ HI), <- (im_lambda _ _ _ HI), <- (js_path _ _ _ Hab).
  apply rel_bs; intros X _. apply rel_bs; intros s _. apply rel_bs; intros m1 _. apply rel_bs; intros m2 _. simpl.
  split; [|split; [|auto]]; simpl; destruct HI; constructor; simpl; auto.
Qed.
Lemma ik_loop_rel svd rotErr mb target fuel : forall iter conv I I' m, isame mb I I' ->
  rel (ikout mb I) (ik_loop svd rotErr fuel mb target iter conv I m) (ik_loop svd rotErr fuel mb target iter conv I' m).
Proof.
  induction fuel as [|fuel IH]; intros iter conv I I' m HI; cbn [ik_loop]; rewrite <- (im_max _ _ _ HI); destruct (negb conv && (iter <? ik_max I)%Z).
  - simpl. auto.
  - simpl. split; [auto|]. split; [eapply im_self; eauto|auto].
  - eapply rel_bind; [apply ik_iter_rel; exact HI|]. intros a b (H1 & H2 & H3 & H4). rewrite <- H3, <- H4.
    eapply rel_mono; [apply IH; exact H1|]. intros x y (K1 & K2 & K3 & K4). split; [auto|]. split; [eapply im_trans; eauto|auto].
  - simpl. split; [auto|]. split; [eapply im_self; eauto|auto].
Qed.
Lemma ik_rel svd rotErr mb target fuel I I' m : isame mb I I' ->
  rel (ikout mb I) (inverseKinematics svd rotErr fuel mb target I m) (inverseKinematics svd rotErr fuel mb target I' m).
Proof. intros H. unfold inverseKinematics. apply rel_bs; intros m1 _. now apply ik_loop_rel. Qed.
Lemma ik_new_same mb ef I I' g g' : IK_ctor g mb ef = Ok I -> IK_ctor g' mb ef = Ok I' -> isame mb I I'.
Proof.
  unfold IK_ctor. intros H H'. apply bind_Ok in H. destruct H as (b & E & H). rewrite E in H'. cbn [bind] in H'.
  apply bind_Ok in H. destruct H as (J & EJ & H). apply bind_Ok in H'. destruct H' as (J' & EJ' & H'). injection H as <-. injection H' as <-.
  constructor; simpl; auto. exact (rel_Ok _ _ _ _ _ (ctor_jac_rel g g' mb (bname b) v0) EJ EJ').
Qed.
Lemma ik_hist svd rotErr mb ef g I0 I : IK_ctor g mb ef = Ok I0 -> ik_history svd rotErr mb ef I -> isame mb I0 I.
Proof.
  intros H0 H. induction H as [I (g' & H)|I I' H IH (fuel & t & m & m' & b & E)]; [eapply ik_new_same; eauto|].
  eapply im_trans; [exact IH|]. apply (rel_Ok _ _ _ _ _ (ik_rel svd rotErr mb t fuel I I m (im_self _ _ _ (im_sym _ _ _ IH))) E E).
Qed.
Lemma ik_all svd rotErr mb ef I I' fuel target m : ik_history svd rotErr mb ef I -> ik_history svd rotErr mb ef I' ->
  seen (fun a => (snd (fst a), snd a)) (inverseKinematics svd rotErr fuel mb target I m) =
  seen (fun a => (snd (fst a), snd a)) (inverseKinematics svd rotErr fuel mb target I' m).
Proof.
  intros H H'. destruct (history_new _ _ _ H) as [I0 (g & H0)].
  assert (S : isame mb I I') by (eapply im_trans; [apply im_sym; eapply ik_hist; eauto|eapply ik_hist; eauto]).
  apply rel_seen. eapply rel_mono; [apply ik_rel; exact S|]. intros a b (_ & _ & -> & ->). auto.
Qed.
