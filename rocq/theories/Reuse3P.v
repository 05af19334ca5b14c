(** Reuse of the identification model. *)
From Coq Require Import Reals String ZArith Bool Arith List Lia Lra.
From Verif Require Import Res ResP SMap Vec Sva Mat JointM MultiBodyM KinM DynM IDIMM Spec SpecDyn SpecIDIM SpecReuse MbP KinP TreeP DynP DynCP CoMP IDIMP Reuse1P Reuse2P.
Import ListNotations.
Open Scope nat_scope.

Definition yat (mb : MultiBody) (i k a c : nat) (Y : Mat) : R := ment Y (pos mb k + a) (i * 10 + c).
Definition ydone (mb : MultiBody) (lo : nat) (Y Y' : Mat) : Prop :=
  idim_of mb Y /\ idim_of mb Y' /\
  forall i k a c, lo <= i < nrBodies mb -> k < nrBodies mb -> a < dofi mb k -> c < 10 -> yat mb i k a c Y = yat mb i k a c Y'.
Definition yloop (mb : MultiBody) (i j : nat) (Y Y' : Mat) : Prop :=
  ydone mb (S i) Y Y' /\
  forall k a c, anc mb j k -> anc mb k i -> a < dofi mb k -> c < 10 -> yat mb i k a c Y = yat mb i k a c Y'.

Lemma anc_bound mb k i : wf_mb mb -> i < nrBodies mb -> anc mb k i -> k < nrBodies mb /\ k <= i.
Proof.
  intros W L A. induction A as [i|k p i P A IH]; [lia|].
  pose proof (wf_pred mb W i L) as H. erewrite nth_error_nth in H by exact P.
  assert (p < i) by lia. destruct IH; lia.
Qed.
Lemma anc_anti mb j k : wf_mb mb -> j < nrBodies mb -> k < nrBodies mb -> anc mb j k -> anc mb k j -> j = k.
Proof. intros W L L' A B. pose proof (anc_bound mb j k W L' A). pose proof (anc_bound mb k j W L B). lia. Qed.
Lemma y_write mb i p B Y Y' : wf_mb mb -> i < nrBodies mb -> anc mb p i -> ydone mb (S i) Y Y' ->
  exists Z Z', set_block Y (pos mb p) (i * 10) (dofi mb p) 10 B = Ok Z /\ set_block Y' (pos mb p) (i * 10) (dofi mb p) 10 B = Ok Z' /\
    ydone mb (S i) Z Z' /\ (forall a c, a < dofi mb p -> c < 10 -> yat mb i p a c Z = yat mb i p a c Z') /\
    forall k a c, k < nrBodies mb -> k <> p -> a < dofi mb k -> c < 10 -> yat mb i k a c Z = yat mb i k a c Y /\ yat mb i k a c Z' = yat mb i k a c Y'.
Proof.
  intros W Li A (H1 & H2 & H3). destruct (anc_bound mb p i W Li A) as [Lp _].
  destruct (set_rows mb Y p i B W Li Lp (io_rows _ _ H1) (io_cols _ _ H1)) as (Z & E & R1 & C1 & W1 & K1).
  destruct (set_rows mb Y' p i B W Li Lp (io_rows _ _ H2) (io_cols _ _ H2)) as (Z' & E' & R2 & C2 & W2 & K2).
  exists Z, Z'. split; [auto|]. split; [auto|]. split; [split; [|split]|split].
  - constructor; auto. intros i' j' a c Hi' Hj' N Ha Hc.
    rewrite K1; auto; [apply (io_zero _ _ H1); auto|]. intros [-> ->]. auto.
  - constructor; auto. intros i' j' a c Hi' Hj' N Ha Hc.
    rewrite K2; auto; [apply (io_zero _ _ H2); auto|]. intros [-> ->]. auto.
  - intros i' k a c Hi' Hk Ha Hc. unfold yat in *. rewrite K1, K2 by (auto; lia). apply H3; auto.
  - intros a c Ha Hc. unfold yat. rewrite W1, W2; auto.
  - intros k a c Hk N Ha Hc. unfold yat. split; [apply K1|apply K2]; auto; try lia; intros []; auto.
Qed.
Lemma yloop_next mb i j p Y Y' Z Z' : wf_mb mb -> i < nrBodies mb -> anc mb j i -> nth_error (mb_pred mb) j = Some (Z.of_nat p) ->
  yloop mb i j Y Y' -> ydone mb (S i) Z Z' -> (forall a c, a < dofi mb p -> c < 10 -> yat mb i p a c Z = yat mb i p a c Z') ->
  (forall k a c, k < nrBodies mb -> k <> p -> a < dofi mb k -> c < 10 -> yat mb i k a c Z = yat mb i k a c Y /\ yat mb i k a c Z' = yat mb i k a c Y') ->
  yloop mb i p Z Z'.
Proof.
  intros W Li A P (H1 & H2) D Hp Hk. split; [exact D|]. intros k a c A1 A2 Ha Hc.
  destruct (anc_bound mb k i W Li A2) as [Lk _]. destruct (anc_bound mb j i W Li A) as [Lj _].
  destruct (Nat.eq_dec k p) as [->|N]; [auto|].
  destruct (Hk k a c Lk N Ha Hc) as [-> ->]. apply H2; auto.
  destruct (anc_chain mb j k i W A A2) as [B|B]; [auto|].
  inversion B as [x|x p0 y P0 B0]; subst; [constructor|]. rewrite P in P0. injection P0 as E. apply Nat2Z.inj in E. subst p0.
  destruct (anc_bound mb p j W Lj) as [Lp _]; [econstructor; [exact P|constructor]|].
  exfalso. apply N. symmetry. apply (anc_anti mb p k W); auto.
Qed.
Lemma yloop_end mb i j Y Y' : wf_mb mb -> i < nrBodies mb -> anc mb j i -> nth_error (mb_pred mb) j = Some (-1)%Z ->
  yloop mb i j Y Y' -> ydone mb i Y Y'.
Proof.
  intros W Li A P ((H1 & H2 & H3) & H4). split; [auto|]. split; [auto|]. intros i' k a c Hi' Hk Ha Hc.
  destruct (Nat.eq_dec i' i) as [->|N]; [|apply H3; auto; lia].
  assert (PL : forall c q, (c < nrBodies mb)%nat -> par mb c = Some q -> (q < c)%nat) by (intros; eapply par_lt; eauto).
  destruct (tanc_dec (nrBodies mb) (par mb) PL k i Li) as [T|T].
  - apply (anc_tanc mb k i W) in T. apply H4; auto. destruct (anc_chain mb j k i W A T) as [B|B]; auto.
    inversion B as [x|x p0 y P0 B0]; subst; [constructor|]. rewrite P in P0. injection P0 as E. lia.
  - unfold yat. rewrite (io_zero _ _ H1), (io_zero _ _ H2); auto; rewrite anc_tanc; auto.
Qed.
Lemma idim_loop_rel mb m i : wf_mb mb -> i < nrBodies mb -> forall fuel j F Y Y', anc mb j i -> yloop mb i j Y Y' ->
  rel (ydone mb i) (idim_loop mb m i fuel j F Y) (idim_loop mb m i fuel j F Y').
Proof.
  intros W Li. induction fuel; cbn [idim_loop]; intros j F Y Y' A H; [simpl; auto|].
  destruct (anc_bound mb j i W Li A) as [Lj _].
  apply rel_bs; intros pr Epr. pose proof (pred_lt mb j pr W Lj Epr) as Hpr. apply get_Ok in Epr.
  destruct (Z.eqb_spec pr (-1)) as [->|N]; cbn [negb].
  - simpl. eapply yloop_end; eauto.
  - destruct Hpr as [|Hpr]; [contradiction|]. assert (E : pr = Z.of_nat (Z.to_nat pr)) by lia. set (p := Z.to_nat pr) in *.
    assert (Lp : p < nrBodies mb) by lia. rewrite E in *. clearbody p.
    assert (Ap : anc mb p i). { eapply anc_of_child; eauto. }
    apply rel_bs; intros X _. apply rel_bs; intros F1 _. rewrite !getz_nat. rewrite (getposDof mb p W Lp). cbn [bind].
    apply rel_bs; intros jj Ejj. apply get_joint in Ejj. assert (Ed : jdof jj = dofi mb p) by (rewrite Ejj; reflexivity).
    destruct (Nat.eqb_spec (jdof jj) 0) as [Z0|NZ]; cbn [negb].
    + apply IHfuel; auto. apply (yloop_next mb i j p Y Y' Y Y' W Li A Epr H (proj1 H)); intros; try lia; auto.
    + apply rel_bs; intros ms _. apply rel_bs; intros B _. rewrite Ed. destruct H as [D H2].
      destruct (y_write mb i p B Y Y' W Li Ap D) as (Z1 & Z2 & E1 & E2 & D' & K1 & K2). rewrite E1, E2. cbn [bind].
      apply IHfuel; auto. apply (yloop_next mb i j p Y Y' Z1 Z2 W Li A Epr (conj D H2) D' K1 K2).
Qed.
Lemma idim_step_rel mb m i Y Y' : wf_mb mb -> i < nrBodies mb -> ydone mb (S i) Y Y' ->
  rel (ydone mb i) (idim_step mb m i Y) (idim_step mb m i Y').
Proof.
  intros W Li D. unfold idim_step. apply rel_bs; intros V _. apply rel_bs; intros A _. apply rel_bs; intros F _.
  rewrite (getposDof mb i W Li). cbn [bind]. apply rel_bs; intros j Ej. apply get_joint in Ej. apply rel_bs; intros ms _. apply rel_bs; intros B _.
  assert (Ed : jdof j = dofi mb i) by (rewrite Ej; reflexivity). rewrite Ed.
  destruct (y_write mb i i B Y Y' W Li (anc_refl mb i) D) as (Z1 & Z2 & E1 & E2 & D' & K1 & K2). rewrite E1, E2. cbn [bind].
  apply idim_loop_rel; auto; [constructor|]. split; [exact D'|]. intros k a c A1 A2 Ha Hc.
  destruct (anc_bound mb k i W Li A2) as [Lk _]. assert (i = k) by (apply (anc_anti mb i k W); auto). subst k. auto.
Qed.
Lemma computeY_rel mb m Y Y' : wf_mb mb -> idim_of mb Y -> idim_of mb Y' -> rel (ydone mb 0) (computeY mb m Y) (computeY mb m Y').
Proof.
  intros W H H'. unfold computeY. apply (rel_for_down (ydone mb)).
  - split; [auto|]. split; [auto|]. intros; lia.
  - intros i s s' Li D. now apply idim_step_rel.
Qed.
Lemma idim_shape mb Y : wf_mb mb -> idim_history mb Y -> idim_of mb Y.
Proof.
  intros W H. induction H as [Y ->|Y Y' H IH [m E]]; [now apply IDIM_ctor_ok|].
  apply (rel_Ok _ _ _ _ _ (computeY_rel mb m Y Y W IH IH) E E).
Qed.
Lemma ydone_same mb Y Y' : wf_mb mb -> ydone mb 0 Y Y' -> same_mat Y Y'.
Proof.
  intros W (H1 & H2 & H3). split; [rewrite (io_rows _ _ H1), (io_rows _ _ H2); auto|].
  split; [rewrite (io_cols _ _ H1), (io_cols _ _ H2); auto|]. intros r c Hr Hc. rewrite (io_rows _ _ H1) in Hr. rewrite (io_cols _ _ H1) in Hc.
  rewrite (wf_nrDof mb W), <- pos_all in Hr. apply pos_find in Hr; [|lia]. destruct Hr as (k & a & Lk & La & ->).
  unfold nrJoints in Lk. rewrite (wf_joints mb W) in Lk.
  assert (Ec : c = c / 10 * 10 + c mod 10) by (rewrite (Nat.mul_comm _ 10); apply Nat.div_mod; lia).
  pose proof (Nat.mod_upper_bound c 10). rewrite Ec. apply H3; lia.
Qed.
Lemma idim_all mb m Y Y' : wf_mb mb -> idim_history mb Y -> idim_history mb Y' -> same_outcome same_mat (computeY mb m Y) (computeY mb m Y').
Proof.
  intros W H H'. apply (rel_mono (ydone mb 0) same_mat); [apply computeY_rel; auto; now apply idim_shape|]. intros a b D. exact (ydone_same mb a b W D).
Qed.
