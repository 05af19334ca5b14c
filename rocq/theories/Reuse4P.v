(** Reuse of the objects made of Jacobians: centres of mass, momenta, Coriolis, inverse kinematics. *)
From Coq Require Import Reals String ZArith Bool Arith List Lia Lra.
From Verif Require Import Res ResP SMap Vec Sva Mat JointM MultiBodyM KinM DynM JacM CoMM MomM CoriolisM IkM Spec SpecDyn SpecJac SpecReuse MbP Reuse1P Reuse2P.
Import ListNotations.
Open Scope nat_scope.

(** ** Lists of related elements *)
Lemma rel_get2 {A B} (Q : A -> B -> Prop) l l' i : Forall2 Q l l' ->
  rel (fun a b => Q a b /\ nth_error l i = Some a /\ nth_error l' i = Some b) (get l i) (get l' i).
Proof.
  intros H. unfold get. revert i. induction H as [|a b l l' Hab H IH]; intros [|i]; simpl; auto.
Qed.
Lemma Forall2_upd {A B} (Q : A -> B -> Prop) l l' a b : Forall2 Q l l' -> Q a b -> forall i, Forall2 Q (upd l i a) (upd l' i b).
Proof. intros H K. induction H; intros [|i]; simpl; auto. Qed.
Lemma Forall2_len {A B} (Q : A -> B -> Prop) l l' : Forall2 Q l l' -> length l = length l'.
Proof. induction 1; simpl; auto. Qed.
Lemma rel_set2 {A B} (Q : A -> B -> Prop) l l' i a b : Forall2 Q l l' -> Q a b ->
  rel (fun x y => Forall2 Q x y /\ x = upd l i a) (set l i a) (set l' i b).
Proof.
  intros H K. unfold set. rewrite <- (Forall2_len _ _ _ H). destruct (i <? length l); simpl; auto. split; auto. now apply Forall2_upd.
Qed.
Lemma Forall2_upd_r {A} (Q : A -> A -> Prop) l0 l : (forall x y z, Q x y -> Q y z -> Q x z) -> Forall2 Q l0 l ->
  forall i a b, nth_error l i = Some a -> Q a b -> Forall2 Q l0 (upd l i b).
Proof.
  intros T H. induction H as [|x y l0 l Hxy H IH]; intros [|i] a b E K; simpl in *; try discriminate; constructor; eauto.
  injection E as ->. eauto.
Qed.
Definition vsame (mb : MultiBody) (l l' : list Jac) : Prop := Forall2 (jsame mb) l l'.
Lemma vsame_trans mb a b c : vsame mb a b -> vsame mb b c -> vsame mb a c.
Proof.
  intros H. revert c. induction H as [|x y a b Hxy H IH]; intros c K; inversion K; subst; constructor; auto.
  - eapply js_trans; eauto.
  - apply IH. auto.
Qed.
Lemma vsame_sym mb a b : vsame mb a b -> vsame mb b a.
Proof. induction 1; constructor; auto. now apply js_sym. Qed.
Lemma vsame_refl mb a b : vsame mb a b -> vsame mb a a.
Proof. intros H. eapply vsame_trans; [eauto|]. now apply vsame_sym. Qed.
Lemma vsame_put mb l0 l i J J' : vsame mb l0 l -> nth_error l i = Some J -> jsame mb J J' -> vsame mb l0 (upd l i J').
Proof. intros H E K. eapply Forall2_upd_r; eauto. apply js_trans. Qed.

(** ** Matrices *)
Definition sm (r c : nat) (M N : Mat) : Prop :=
  mrows M = r /\ mcols M = c /\ mrows N = r /\ mcols N = c /\ forall i j, i < r -> j < c -> ment M i j = ment N i j.
Lemma sm_same r c M N : sm r c M N -> same_mat M N.
Proof. intros (H1 & H2 & H3 & H4 & H5). split; [congruence|]. split; [congruence|]. rewrite H1, H2. auto. Qed.
Lemma sm_refl r c M : mrows M = r -> mcols M = c -> sm r c M M.
Proof. repeat split; auto. Qed.
Definition beq (nr nc : nat) (B B' : nat -> nat -> R) : Prop := forall i j, i < nr -> j < nc -> B i j = B' i j.
Lemma in_block_range r nr c nc i j : in_block r nr c nc i j = true -> r <= i < r + nr /\ c <= j < c + nc.
Proof.
  unfold in_block. intros H. apply andb_prop in H. destruct H as [H H4]. apply andb_prop in H. destruct H as [H H3]. apply andb_prop in H. destruct H as [H1 H2].
  apply Nat.leb_le in H1, H3. apply Nat.ltb_lt in H2, H4. lia.
Qed.
Lemma sm_add_block r c M N x y nr nc B B' : sm r c M N -> beq nr nc B B' -> rel (sm r c) (add_block M x y nr nc B) (add_block N x y nr nc B').
Proof.
  intros (H1 & H2 & H3 & H4 & H5) HB. unfold add_block. rewrite H1, H2, H3, H4. destruct (_ && _); simpl; auto.
  repeat split; simpl; auto. intros i j Hi Hj. destruct (in_block x nr y nc i j) eqn:E; auto.
  apply in_block_range in E. rewrite H5, HB; auto; lia.
Qed.
Lemma sm_set_block r c M N x y nr nc B B' : sm r c M N -> beq nr nc B B' -> rel (sm r c) (set_block M x y nr nc B) (set_block N x y nr nc B').
Proof.
  intros (H1 & H2 & H3 & H4 & H5) HB. unfold set_block. rewrite H1, H2, H3, H4. destruct (_ && _); simpl; auto.
  repeat split; simpl; auto. intros i j Hi Hj. destruct (in_block x nr y nc i j) eqn:E; auto.
  apply in_block_range in E. apply HB; lia.
Qed.
Definition dims (r c : nat) (M N : Mat) : Prop := mrows M = r /\ mcols M = c /\ mrows N = r /\ mcols N = c.
Lemma in_block_whole r nr c nc i j : r <= i < r + nr -> c <= j < c + nc -> in_block r nr c nc i j = true.
Proof.
  intros H K. unfold in_block. rewrite !(proj2 (Nat.leb_le _ _)), !(proj2 (Nat.ltb_lt _ _)) by lia. auto.
Qed.
Lemma sm_fill r c M N nr nc B B' : dims r c M N -> r <= nr -> c <= nc -> beq nr nc B B' -> rel (sm r c) (set_block M 0 0 nr nc B) (set_block N 0 0 nr nc B').
Proof.
  intros (H1 & H2 & H3 & H4) Hr Hc HB. unfold set_block. rewrite H1, H2, H3, H4. destruct (_ && _); simpl; auto.
  repeat split; simpl; auto. intros i j Hi Hj. rewrite !in_block_whole by lia. apply HB; lia.
Qed.
Lemma sm_get_block r c M N x y nr nc : sm r c M N -> rel (beq nr nc) (get_block M x y nr nc) (get_block N x y nr nc).
Proof.
  intros (H1 & H2 & H3 & H4 & H5). unfold get_block. rewrite H1, H2, H3, H4.
  destruct (Nat.leb_spec (x + nr) r), (Nat.leb_spec (y + nc) c); simpl; auto.
  intros i j Hi Hj. apply H5; lia.
Qed.
Lemma addFull_rel mb J J' jr jc r c jac jac' M N : jc_path J = jc_path J' -> sm jr jc jac jac' -> sm r c M N ->
  rel (sm r c) (addFullJacobian mb J jac M) (addFullJacobian mb J' jac' N).
Proof.
  intros EP HJ HM. unfold addFullJacobian. rewrite <- EP. eapply rel_bind.
  - apply (rel_for_each (fun _ s s' => fst s = fst s' /\ sm r c (snd s) (snd s')) _ _ (jc_path J) []); [auto|].
    intros d i s s' _ [E H]. rewrite <- E. pose proof HJ as (R1 & _ & R2 & _). rewrite R1, R2.
    apply rel_bs; intros j _. apply rel_bs; intros p _. eapply rel_bind; [apply (sm_get_block jr jc); exact HJ|]. intros B B' HB.
    eapply rel_bind; [apply (sm_add_block r c); eauto|]. intros X Y HXY. simpl. auto.
  - intros s s' [_ H]. exact H.
Qed.
Lemma full_rel mb J J' jr jc r jac jac' M N : jc_path J = jc_path J' -> sm jr jc jac jac' -> dims r (mb_nrDof mb) M N -> r <= jr ->
  rel (sm r (mb_nrDof mb)) (fullJacobian mb J jac M) (fullJacobian mb J' jac' N).
Proof.
  intros EP HJ HM Hr. unfold fullJacobian. pose proof HJ as (R1 & _ & R2 & _). rewrite R1, R2. eapply rel_bind.
  - apply (sm_fill r (mb_nrDof mb)); auto. intros i j _ _. reflexivity.
  - intros X Y HXY. eapply addFull_rel; eauto.
Qed.
Lemma expand_rel blocks jr jc r c jac jac' M N : sm jr jc jac jac' -> sm r c M N ->
  rel (sm r c) (expandAdd_compact blocks jac M) (expandAdd_compact blocks jac' N).
Proof.
  intros HJ HM. unfold expandAdd_compact.
  apply (rel_for_each (fun _ => sm r c) _ _ blocks []); auto. intros d1 b1 M1 N1 _ H1.
  apply (rel_for_each (fun _ => sm r c) _ _ blocks []); auto. intros d2 b2 M2 N2 _ H2.
  eapply rel_bind; [apply (sm_get_block jr jc); exact HJ|]. intros B B' HB. now apply sm_add_block.
Qed.
Lemma addFull_compact_dims blocks jac M M' : addFullJacobian_compact blocks jac M = Ok M' -> mrows M' = mrows M /\ mcols M' = mcols M.
Proof.
  unfold addFullJacobian_compact. revert M. induction blocks as [|b l IH]; cbn [for_each]; intros M E; [injection E as <-; auto|].
  apply bind_Ok in E. destruct E as (M1 & E1 & E). apply bind_Ok in E1. destruct E1 as (B & _ & E1). apply IH in E.
  unfold add_block in E1. destruct (_ && _); [injection E1 as <-; exact E|discriminate].
Qed.
Lemma ctor_jac_rel g g' mb name p : rel (jsame mb) (Jacobian_ctor g mb name p) (Jacobian_ctor g' mb name p).
Proof.
  unfold Jacobian_ctor. apply rel_bs; intros b _. apply rel_bs; intros [[path sign] dof] E. apply jac_walk_dof in E; [|reflexivity].
  simpl. constructor; simpl; rewrite ?map_length, ?seq_length; auto.
Qed.

(** ** CoMJacobianDummy *)
Record dsame (mb : MultiBody) (d d' : CoMD) : Prop := {
  ds_vec : vsame mb (cd_vec d) (cd_vec d');
  ds_mass : cd_mass d = cd_mass d';
  ds_weight : cd_weight d = cd_weight d';
  ds_jac : dims 3 (mb_nrDof mb) (cd_jac d) (cd_jac d');
  ds_dot : dims 3 (mb_nrDof mb) (cd_dot d) (cd_dot d');
  ds_full : dims 3 (mb_nrDof mb) (cd_full d) (cd_full d')
}.
Lemma dims_self {r c M N} : dims r c M N -> dims r c M M.
Proof. intros (H1 & H2 & _). repeat split; auto. Qed.
Lemma dims_mix {r c M N P Q} : dims r c M N -> dims r c P Q -> dims r c M Q.
Proof. intros (H1 & H2 & _) (_ & _ & H3 & H4). repeat split; auto. Qed.
Lemma sm_dims r c M N : sm r c M N -> dims r c M N.
Proof. intros (H1 & H2 & H3 & H4 & _). repeat split; auto. Qed.
Definition dloop mb vec0 (s s' : list Jac * Mat * Mat) : Prop :=
  vsame mb (fst (fst s)) (fst (fst s')) /\ vsame mb vec0 (fst (fst s)) /\
  dims 3 (mb_nrDof mb) (snd (fst s)) (snd (fst s')) /\ sm 3 (mb_nrDof mb) (snd s) (snd s').
Lemma comd_step_rel mb w run cols vec0 i s s' :
  (forall J J', jsame mb J J' -> rel (fun a b => jsame mb a b /\ jsame mb J a /\ cols a = cols b) (run J) (run J')) ->
  dloop mb vec0 s s' -> rel (dloop mb vec0) (comd_step mb w run cols i s) (comd_step mb w run cols i s').
Proof.
  intros Hrun. destruct s as [[vec full] jac], s' as [[vec' full'] jac']. intros (H1 & H2 & H3 & H4). simpl in *. unfold comd_step.
  eapply rel_bind; [apply rel_get2; exact H1|]. intros J J' (HJ & EJ & EJ'). eapply rel_bind; [apply Hrun; exact HJ|].
  intros a b (Hab & Ha & Ec). eapply rel_bind; [apply (rel_set2 (jsame mb)); [exact H1|exact Hab]|]. intros x y [Hxy Ex].
  rewrite <- Ec. eapply rel_bind; [apply (full_rel mb a b 3 (length (cols a)) 3); auto; [apply Hab|]|].
  { apply sm_refl; reflexivity. }
  intros F F' HF. apply rel_bs; intros bo _. apply rel_bs; intros wi _.
  unfold mat_addscaled. pose proof H4 as (A1 & A2 & A3 & A4 & A5). pose proof HF as (B1 & B2 & B3 & B4 & B5).
  rewrite A1, A2, A3, A4, B1, B2, B3, B4, !Nat.eqb_refl. simpl. split; [exact Hxy|]. split; [|split].
  - rewrite Ex. eapply vsame_put; eauto.
  - now apply sm_dims.
  - repeat split; simpl; auto. intros r c Hr Hc. rewrite A5, B5; auto.
Qed.
Lemma both_cols mb (run : Jac -> res Jac) J J' : rel (both mb J J') (run J) (run J') -> rel (fun a b => jsame mb a b /\ jsame mb J a /\ jc_jac a = jc_jac b) (run J) (run J').
Proof. intros H. eapply rel_mono; [exact H|]. intros a b (H1 & H2 & H3 & _). auto. Qed.
Lemma both_dots mb (run : Jac -> res Jac) J J' : rel (both_dot mb J J') (run J) (run J') -> rel (fun a b => jsame mb a b /\ jsame mb J a /\ jc_dot a = jc_dot b) (run J) (run J').
Proof. intros H. eapply rel_mono; [exact H|]. intros a b (H1 & H2 & H3 & _). auto. Qed.
Lemma sm_clear r c M N : dims r c M N -> sm r c (mat_clear M) (mat_clear N).
Proof. intros (H1 & H2 & H3 & H4). repeat split; auto. Qed.
Lemma sm_div r c M N k : sm r c M N -> sm r c (mat_div M k) (mat_div N k).
Proof. intros (H1 & H2 & H3 & H4 & H5). repeat split; simpl; auto. intros i j Hi Hj. rewrite H5; auto. Qed.
Lemma comd_jac_rel mb m d d' : dsame mb d d' ->
  rel (fun a b => dsame mb a b /\ dsame mb d a /\ same_mat (cd_jac a) (cd_jac b)) (comd_jacobian mb m d) (comd_jacobian mb m d').
Proof.
  intros HD. unfold comd_jacobian. rewrite <- (ds_weight _ _ _ HD), <- (ds_mass _ _ _ HD). eapply rel_bind.
  - apply (rel_for_up (fun _ => dloop mb (cd_vec d))).
    + split; [apply HD|split; [eapply vsame_refl; apply HD|split; [apply HD|apply sm_clear; apply HD]]].
    + intros i s s' _ H. apply comd_step_rel; auto. intros. apply both_cols. now apply jacobian_rel.
  - intros [[v f] j] [[v' f'] j'] (H1 & H2 & H3 & H4). simpl in *. destruct (Rlt_dec 0 (cd_mass d)); simpl; auto.
    pose proof (sm_div _ _ _ _ (cd_mass d) H4) as H5. split; [|split; [|apply (sm_same _ _ _ _ H5)]].
    + constructor; simpl; auto; try apply HD. now apply sm_dims.
    + pose proof (sm_dims _ _ _ _ H5) as H6. constructor; simpl; auto; [exact (dims_mix (ds_jac _ _ _ HD) (conj (proj1 H6) (conj (proj1 (proj2 H6)) (conj (proj1 H6) (proj1 (proj2 H6))))))|exact (dims_self (ds_dot _ _ _ HD))|].
      exact (dims_mix (ds_full _ _ _ HD) (dims_self H3)).
Qed.
Lemma comd_dot_rel mb m d d' : dsame mb d d' ->
  rel (fun a b => dsame mb a b /\ dsame mb d a /\ same_mat (cd_dot a) (cd_dot b)) (comd_jacobianDot mb m d) (comd_jacobianDot mb m d').
Proof.
  intros HD. unfold comd_jacobianDot. rewrite <- (ds_weight _ _ _ HD), <- (ds_mass _ _ _ HD). eapply rel_bind.
  - apply (rel_for_up (fun _ => dloop mb (cd_vec d))).
    + split; [apply HD|split; [eapply vsame_refl; apply HD|split; [apply HD|apply sm_clear; apply HD]]].
    + intros i s s' _ H. apply comd_step_rel; auto. intros. apply both_dots. now apply jacobianDot_rel.
  - intros [[v f] j] [[v' f'] j'] (H1 & H2 & H3 & H4). simpl in *. destruct (Rlt_dec 0 (cd_mass d)); simpl; auto.
    pose proof (sm_div _ _ _ _ (cd_mass d) H4) as H5. split; [|split; [|apply (sm_same _ _ _ _ H5)]].
    + constructor; simpl; auto; try apply HD. now apply sm_dims.
    + pose proof (sm_dims _ _ _ _ H5) as H6. constructor; simpl; auto; [exact (dims_self (ds_jac _ _ _ HD))|exact (dims_mix (ds_dot _ _ _ HD) (dims_self H6))|].
      exact (dims_mix (ds_full _ _ _ HD) (dims_self H3)).
Qed.
Lemma comd_init_rel g g' mb : rel (fun a b => vsame mb (fst a) (fst b) /\ snd a = snd b) (comd_init g mb) (comd_init g' mb).
Proof.
  unfold comd_init. eapply rel_bind.
  - apply (rel_for_up (fun _ s s' => vsame mb (fst s) (fst s') /\ snd s = snd s')); [split; [constructor|auto]|].
    intros i s s' _ [H E]. apply rel_bs; intros b _. eapply rel_bind; [apply ctor_jac_rel|]. intros J J' HJ. simpl. rewrite E.
    split; auto. apply Forall2_app; auto.
  - intros s s' H. exact H.
Qed.
Lemma comd_new_same mb w d d' : comd_new mb w d -> comd_new mb w d' -> dsame mb d d'.
Proof.
  intros (g & gm & H) (g' & gm' & H'). pose proof (comd_init_rel g g' mb) as HI. destruct w as [w|].
  - unfold CoMD_ctor_w in *. apply bind_Ok in H. destruct H as (s & E & H). apply bind_Ok in H'. destruct H' as (s' & E' & H').
    rewrite E, E' in HI. destruct HI as [H1 H2]. destruct (length w =? nrBodies mb); try discriminate. injection H as <-. injection H' as <-.
    constructor; simpl; auto; repeat split.
  - unfold CoMD_ctor in *. apply bind_Ok in H. destruct H as (s & E & H). apply bind_Ok in H'. destruct H' as (s' & E' & H').
    rewrite E, E' in HI. destruct HI as [H1 H2]. injection H as <-. injection H' as <-.
    constructor; simpl; auto; repeat split.
Qed.
Lemma ds_trans mb a b c : dsame mb a b -> dsame mb b c -> dsame mb a c.
Proof.
  intros H K. destruct H, K. constructor; try congruence; [eapply vsame_trans; eauto|eapply dims_mix; eauto|eapply dims_mix; eauto|eapply dims_mix; eauto].
Qed.
Lemma comd_hist mb w d0 d : comd_new mb w d0 -> comd_history mb w d -> dsame mb d0 d.
Proof.
  intros H0 H. induction H as [d H|d d' H IH C]; [eapply comd_new_same; eauto|].
  assert (S : dsame mb d d).
  { destruct IH. constructor; auto; [eapply vsame_refl; eapply vsame_sym; eauto| | |]; match goal with K : dims ?r ?c ?M ?N |- dims _ _ ?N ?N => destruct K as (? & ? & ? & ?); repeat split; auto end. }
  eapply ds_trans; [exact IH|]. destruct C as [m d' E|m d' E].
  - apply (rel_Ok _ _ _ _ _ (comd_jac_rel mb m d d S) E E).
  - apply (rel_Ok _ _ _ _ _ (comd_dot_rel mb m d d S) E E).
Qed.
Lemma ds_sym mb a b : dsame mb a b -> dsame mb b a.
Proof. intros H. destruct H. constructor; auto; [now apply vsame_sym| | |]; match goal with K : dims ?r ?c ?M ?N |- dims _ _ ?N ?M => destruct K as (? & ? & ? & ?); repeat split; auto end. Qed.
Lemma comd_all mb w d d' m : comd_history mb w d -> comd_history mb w d' ->
  same_outcome (fun a b => same_mat (cd_jac a) (cd_jac b)) (comd_jacobian mb m d) (comd_jacobian mb m d') /\
  same_outcome (fun a b => same_mat (cd_dot a) (cd_dot b)) (comd_jacobianDot mb m d) (comd_jacobianDot mb m d').
Proof.
  intros H H'. destruct (history_new _ _ _ H) as [d0 H0].
  assert (S : dsame mb d d') by (eapply ds_trans; [apply ds_sym; eapply comd_hist; eauto|eapply comd_hist; eauto]).
  split; [eapply (rel_mono _ (fun a b => same_mat (cd_jac a) (cd_jac b))); [now apply comd_jac_rel|]|eapply (rel_mono _ (fun a b => same_mat (cd_dot a) (cd_dot b))); [now apply comd_dot_rel|]]; intros a b K; apply K.
Qed.

(** ** CoMJacobian *)
Record jshape (mb : MultiBody) (c : CoMJ) : Prop := {
  jp_jac : mrows (cj_jac c) = 3 /\ mcols (cj_jac c) = mb_nrDof mb;
  jp_dot : mrows (cj_dot c) = 3 /\ mcols (cj_dot c) = mb_nrDof mb;
  jp_coeff : length (cj_coeff c) = nrBodies mb;
  jp_com : length (cj_com c) = nrBodies mb;
  jp_comW : length (cj_comW c) = nrBodies mb;
  jp_comV : length (cj_comV c) = nrBodies mb;
  jp_nacc : length (cj_nacc c) = nrJoints mb
}.
Record csame (mb : MultiBody) (c c' : CoMJ) : Prop := {
  cs_shape : jshape mb c;
  cs_shape' : jshape mb c';
  cs_sub : cj_sub c = cj_sub c';
  cs_weight : cj_weight c = cj_weight c';
  cs_coeff : cj_coeff c = cj_coeff c';
  cs_com : cj_com c = cj_com c'
}.
Lemma update_rel mb c c' : jshape mb c -> jshape mb c' -> cj_weight c = cj_weight c' ->
  rel (fun a b => jshape mb a /\ jshape mb b /\ cj_coeff a = cj_coeff b /\ cj_com a = cj_com b /\
                  cj_sub a = cj_sub c /\ cj_sub b = cj_sub c' /\ cj_weight a = cj_weight c /\ cj_weight b = cj_weight c')
      (updateInertialParameters mb c) (updateInertialParameters mb c').
Proof.
  intros S S' EW. unfold updateInertialParameters. rewrite <- EW. apply rel_bs; intros mass _. eapply rel_bind.
  - apply (rel_for_up (fun i s s' => agr (nrBodies mb) (fun k => k < i) (fst s) (fst s') /\ agr (nrBodies mb) (fun k => k < i) (snd s) (snd s'))).
    + split; (split; [apply S|split; [apply S'|intros; lia]]).
    + intros i s s' Hi [H1 H2]. unfold upd_step. apply rel_bs; intros b _. apply rel_bs; intros wi _. apply rel_bs; intros k _.
      eapply rel_bind; [apply rel_set; exact H1|]. intros x y Hxy. eapply rel_bind; [apply rel_set; exact H2|]. intros u v Huv. simpl.
      split; [apply (agr_weak _ _ _ _ _ Hxy)|apply (agr_weak _ _ _ _ _ Huv)]; intros; lia.
  - intros s s' [H1 H2]. simpl. destruct S, S'. split; [constructor; simpl; auto; [apply H1|apply H2]|].
    split; [constructor; simpl; auto; [apply H1|apply H2]|]. split; [apply (agr_eq _ _ _ _ H1); auto|]. split; [apply (agr_eq _ _ _ _ H2); auto|auto].
Qed.
(** The coefficients are those of the current weights. *)
Definition fresh_coeff (mb : MultiBody) (c : CoMJ) : Prop :=
  exists c', updateInertialParameters mb c = Ok c' /\ cj_coeff c' = cj_coeff c /\ cj_com c' = cj_com c.
Lemma updated_fresh mb c c' : jshape mb c -> updateInertialParameters mb c = Ok c' -> jshape mb c' /\ fresh_coeff mb c' /\ cj_sub c' = cj_sub c /\ cj_weight c' = cj_weight c.
Proof.
  intros S E. pose proof (rel_Ok _ _ _ _ _ (update_rel mb c c S S eq_refl) E E) as (S' & _ & _ & _ & K1 & _ & K2 & _).
  split; [auto|]. split; [|auto]. pose proof (update_rel mb c c' S S' (eq_sym K2)) as H. rewrite E in H.
  destruct (updateInertialParameters mb c') as [c2| | |] eqn:E2; simpl in H; try contradiction.
  exists c2. split; auto. destruct H as (_ & _ & H1 & H2 & _). auto.
Qed.
Lemma nacc_rel mb m a a' : wf_mb mb -> length a = nrJoints mb -> length a' = nrJoints mb ->
  rel (fun x y => x = y /\ length x = nrJoints mb) (for_up (nrJoints mb) (nacc_step mb m) a) (for_up (nrJoints mb) (nacc_step mb m) a').
Proof.
  intros W L L'. eapply rel_mono; [apply (rel_for_up (fun i => agr (nrJoints mb) (fun k => k < i)))|].
  - split; [auto|split; [auto|intros; lia]].
  - intros i x y Hi H. unfold nacc_step. assert (Li : i < nrBodies mb) by (rewrite <- (wf_joints mb W); exact Hi).
    apply rel_bs; intros X _. apply rel_bs; intros vj _. apply rel_bs; intros vb _. apply rel_bs; intros pr Epr. apply rel_bs; intros su Esu.
    apply pred_lt in Epr; auto. apply get_Ok in Esu. pose proof (wf_succ mb W i Li) as Hs. erewrite nth_error_nth in Hs by exact Esu. subst su.
    assert (G : forall v, rel (fun x y => agr (nrJoints mb) (fun k => k < S i) x y) (setz x (Z.of_nat i) v) (setz y (Z.of_nat i) v)).
    { intros v. eapply rel_mono; [apply rel_setz; exact H|]. intros u w Huw. rewrite Nat2Z.id in Huw. apply (agr_weak _ _ _ _ _ Huw). intros. lia. }
    destruct (Z.eqb_spec pr (-1)); cbn [negb]; [apply G|].
    rewrite <- (agr_getz _ _ _ _ pr H) by lia. apply rel_bs; intros ap _. apply G.
  - intros x y H. split; [apply (agr_eq _ _ _ _ H); auto|apply H].
Qed.
Lemma comj_step_rel mb m c c' pre i s : cj_sub c = cj_sub c' -> cj_coeff c = cj_coeff c' ->
  comj_step mb m c pre i s = comj_step mb m c' pre i s.
Proof. intros E1 E2. unfold comj_step. now rewrite E1, E2. Qed.
Lemma add_block_dims M x y nr nc B M' : add_block M x y nr nc B = Ok M' -> mrows M' = mrows M /\ mcols M' = mcols M.
Proof. unfold add_block. destruct (_ && _); intros E; [injection E as <-; auto|discriminate]. Qed.
Lemma comj_loop_dims mb m c pre s : forall n s', for_up n (comj_step mb m c pre) s = Ok s' -> mrows (snd s') = mrows (snd s) /\ mcols (snd s') = mcols (snd s).
Proof.
  intros n s' E. apply (for_up_inv_partial (fun _ t => mrows (snd t) = mrows (snd s) /\ mcols (snd t) = mcols (snd s))) in E; auto.
  intros i t t' _ H K. unfold comj_step in K. apply bind_Ok in K. destruct K as (sub & _ & K). apply bind_Ok in K. destruct K as (Xi & _ & K).
  apply bind_Ok in K. destruct K as (j & _ & K). apply bind_Ok in K. destruct K as (M & EM & K). injection K as <-. simpl.
  revert EM. assert (G : forall l M0 M1, for_each l (fun b M => f <- pre i (ptinv Xi) b ;; for_up (jdof j) (fun dof M => ms <- get (motionSubspace m) i ;; S <- get ms dof ;; k <- getz (cj_coeff c) b ;; add_col M (fst t + dof) (f S) k) M) M0 = Ok M1 -> mrows M1 = mrows M0 /\ mcols M1 = mcols M0).
  { induction l as [|b l IH]; cbn [for_each]; intros M0 M1 EM; [injection EM as <-; auto|].
    apply bind_Ok in EM. destruct EM as (M2 & E2 & EM). apply IH in EM. apply bind_Ok in E2. destruct E2 as (f & _ & E2).
    apply (for_up_inv_partial (fun _ N => mrows N = mrows M0 /\ mcols N = mcols M0)) in E2; [intuition congruence|auto|].
    intros d N N' _ HN KN. apply bind_Ok in KN. destruct KN as (ms & _ & KN). apply bind_Ok in KN. destruct KN as (S0 & _ & KN). apply bind_Ok in KN. destruct KN as (k & _ & KN).
    unfold add_col in KN. apply add_block_dims in KN. intuition congruence. }
  intros EM. apply G in EM. intuition congruence.
Qed.
Lemma clear_eq mb M N : mrows M = 3 /\ mcols M = mb_nrDof mb -> mrows N = 3 /\ mcols N = mb_nrDof mb -> mat_clear M = mat_clear N.
Proof. intros [H1 H2] [H3 H4]. unfold mat_clear. now rewrite H1, H2, H3, H4. Qed.
Lemma for_up_eq {St} n (f g : nat -> St -> res St) s : (forall i s, f i s = g i s) -> for_up n f s = for_up n g s.
Proof. intros H. apply for_up_ext. auto. Qed.
Lemma comj_jac_rel mb m c c' : csame mb c c' ->
  rel (fun a b => csame mb a b /\ csame mb c a /\ cj_jac a = cj_jac b) (comj_jacobian mb m c) (comj_jacobian mb m c').
Proof.
  intros HC. unfold comj_jacobian. rewrite <- (cs_com _ _ _ HC).
  destruct (cs_shape _ _ _ HC) as [a1 a2 a3 a4 a5 a6 a7] eqn:EA. destruct (cs_shape' _ _ _ HC) as [b1 b2 b3 b4 b5 b6 b7] eqn:EB. clear EA EB.
  eapply rel_bind.
  - apply (rel_for_up (fun i => agr (nrBodies mb) (fun k => k < i))); [split; [auto|split; [auto|intros; lia]]|].
    intros i W W' Hi H. apply rel_bs; intros X _. apply rel_bs; intros C _. eapply rel_mono; [apply rel_set; exact H|].
    intros x y Hxy. apply (agr_weak _ _ _ _ _ Hxy). intros. lia.
  - intros W W' HW. assert (EW : W = W') by (apply (agr_eq _ _ _ _ HW); auto). subst W'. destruct HW as (LW & _ & _). cbv zeta.
    rewrite (for_up_eq _ (comj_step mb m (with_comW W c') _) (comj_step mb m (with_comW W c) (fun _ X_i_0 b => W0 <- getz W b ;; Ok (ptm_lin (ptmul W0 X_i_0)))))
      by (intros; apply comj_step_rel; simpl; symmetry; apply HC).
    simpl. rewrite (clear_eq mb (cj_jac c') (cj_jac c)) by auto. apply rel_bs; intros [p M] E. apply comj_loop_dims in E. simpl in E. simpl.
    rewrite (proj1 a1), (proj2 a1) in E. destruct HC. split; [|split; [|auto]]; constructor; simpl; auto; constructor; simpl; auto.
Qed.
Lemma comj_dot_rel mb m c c' : csame mb c c' ->
  rel (fun a b => csame mb a b /\ csame mb c a /\ cj_dot a = cj_dot b) (comj_jacobianDot mb m c) (comj_jacobianDot mb m c').
Proof.
  intros HC. unfold comj_jacobianDot. rewrite <- (cs_com _ _ _ HC).
  destruct (cs_shape _ _ _ HC) as [a1 a2 a3 a4 a5 a6 a7] eqn:EA. destruct (cs_shape' _ _ _ HC) as [b1 b2 b3 b4 b5 b6 b7] eqn:EB. clear EA EB.
  eapply rel_bind.
  - apply (rel_for_up (fun i s s' => agr (nrBodies mb) (fun k => k < i) (fst s) (fst s') /\ agr (nrBodies mb) (fun k => k < i) (snd s) (snd s')));
      [split; (split; [auto|split; [auto|intros; lia]])|].
    intros i W W' Hi [H1 H2]. apply rel_bs; intros X _. apply rel_bs; intros C _. apply rel_bs; intros V _.
    eapply rel_bind; [apply rel_set; exact H1|]. intros x y Hxy. eapply rel_bind; [apply rel_set; exact H2|]. intros u v Huv. simpl.
    split; [apply (agr_weak _ _ _ _ _ Hxy)|apply (agr_weak _ _ _ _ _ Huv)]; intros; lia.
  - intros [W U] [W' U'] [HW HU]. simpl in HW, HU. assert (EW : W = W') by (apply (agr_eq _ _ _ _ HW); auto). assert (EU : U = U') by (apply (agr_eq _ _ _ _ HU); auto).
    subst W' U'. destruct HW as (LW & _ & _). destruct HU as (LU & _ & _). cbv zeta. cbn [fst snd].
    match goal with |- rel _ (bind (for_up _ (comj_step _ _ _ ?pre) _) _) _ =>
      rewrite (for_up_eq _ (comj_step mb m (with_comV U (with_comW W c')) pre) (comj_step mb m (with_comV U (with_comW W c)) pre))
        by (intros; apply comj_step_rel; simpl; symmetry; apply HC) end.
    simpl. rewrite (clear_eq mb (cj_dot c') (cj_dot c)) by auto. apply rel_bs; intros [p M] E. apply comj_loop_dims in E. simpl in E. simpl.
    rewrite (proj1 a2), (proj2 a2) in E. destruct HC. split; [|split; [|auto]]; constructor; simpl; auto; constructor; simpl; auto.
Qed.
Lemma comj_pre_same mb m acc c c' : cj_com c = cj_com c' -> cj_coeff c = cj_coeff c' ->
  comj_normalAcceleration_pre mb m acc c = comj_normalAcceleration_pre mb m acc c'.
Proof. intros E1 E2. unfold comj_normalAcceleration_pre. now rewrite E1, E2. Qed.
Lemma comj_nacc_rel mb m c c' : wf_mb mb -> csame mb c c' ->
  rel (fun a b => csame mb (snd a) (snd b) /\ csame mb c (snd a) /\ fst a = fst b) (comj_normalAcceleration mb m c) (comj_normalAcceleration mb m c').
Proof.
  intros W HC. unfold comj_normalAcceleration.
  destruct (cs_shape _ _ _ HC) as [a1 a2 a3 a4 a5 a6 a7] eqn:EA. destruct (cs_shape' _ _ _ HC) as [b1 b2 b3 b4 b5 b6 b7] eqn:EB. clear EA EB.
  eapply rel_bind; [apply nacc_rel; auto|]. intros x y [<- Lx]. cbv zeta.
  rewrite (comj_pre_same mb m x (with_nacc x c') (with_nacc x c)) by (simpl; symmetry; apply HC).
  apply rel_bs; intros v _. simpl. destruct HC. split; [|split; [|auto]]; constructor; simpl; auto; constructor; simpl; auto.
Qed.
Definition cinv (mb : MultiBody) (sub : list (list Z)) (c : CoMJ) : Prop := jshape mb c /\ fresh_coeff mb c /\ cj_sub c = sub.
Lemma csame_self mb c : jshape mb c -> csame mb c c.
Proof. intros. constructor; auto. Qed.
Lemma cinv_same mb sub c c' : cinv mb sub c -> csame mb c c' -> cinv mb sub c'.
Proof.
  intros (H1 & (c2 & E & K1 & K2) & H3) S. destruct S. split; [auto|]. split; [|congruence].
  pose proof (update_rel mb c c' H1 cs_shape'0 cs_weight0) as R0. rewrite E in R0.
  destruct (updateInertialParameters mb c') as [c3| | |] eqn:E3; simpl in R0; try contradiction. exists c3. split; auto.
  destruct R0 as (_ & _ & R1 & R2 & _). split; congruence.
Qed.
Lemma comj_call_inv mb sub c c' : wf_mb mb -> cinv mb sub c -> comj_call mb c c' -> cinv mb sub c'.
Proof.
  intros W I C. pose proof I as (S & _ & E). pose proof (csame_self _ _ S) as HC. destruct C as [m c' E1|m c' E1|m v c' E1|w c' E1|c' E1].
  - eapply cinv_same; [exact I|]. apply (rel_Ok _ _ _ _ _ (comj_jac_rel mb m c c HC) E1 E1).
  - eapply cinv_same; [exact I|]. apply (rel_Ok _ _ _ _ _ (comj_dot_rel mb m c c HC) E1 E1).
  - eapply cinv_same; [exact I|]. apply (rel_Ok _ _ _ _ _ (comj_nacc_rel mb m c c W HC) E1 E1).
  - unfold set_weight in E1. apply updated_fresh in E1; [|destruct S; constructor; auto]. destruct E1 as (H1 & H2 & H3 & _). split; [auto|]. split; [auto|]. simpl in H3. congruence.
  - apply updated_fresh in E1; auto. destruct E1 as (H1 & H2 & H3 & _). split; [auto|]. split; [auto|]. congruence.
Qed.
Lemma fresh_shape g gm mb w : jshape mb (comj_fresh g gm mb w).
Proof. constructor; simpl; rewrite ?repeat_length, ?map_length, ?seq_length; auto. Qed.
Lemma subs_same mb c c' : cj_sub c = cj_sub c' -> forall s s', updateInertialParameters mb c = Ok s -> updateInertialParameters mb c' = Ok s' ->
  cj_sub s = cj_sub c /\ cj_sub s' = cj_sub c'.
Proof.
  intros E s s' H H'. unfold updateInertialParameters in *.
  apply bind_Ok in H. destruct H as (? & _ & H). apply bind_Ok in H. destruct H as (? & _ & H). injection H as <-.
  apply bind_Ok in H'. destruct H' as (? & _ & H'). apply bind_Ok in H'. destruct H' as (? & _ & H'). injection H' as <-. auto.
Qed.
Lemma init_inv g gm mb w c : comj_init mb (comj_fresh g gm mb w) = Ok c ->
  exists sub, for_up (nrJoints mb) (fun i sub => s <- get sub i ;; s <- jointBodiesSuccessors mb (S (nrJoints mb)) i s ;; set sub i s) (repeat [] (nrJoints mb)) = Ok sub /\
    cinv mb sub c.
Proof.
  unfold comj_init. intros H. apply bind_Ok in H. destruct H as (c1 & E1 & H). apply bind_Ok in H. destruct H as (sub & E2 & H). injection H as <-.
  apply updated_fresh in E1; [|apply fresh_shape]. destruct E1 as (H1 & (c2 & E & K1 & K2) & H3 & _). rewrite H3 in E2. exists sub. split; [exact E2|].
  assert (S' : jshape mb (with_sub sub c1)) by (destruct H1; constructor; auto).
  split; [exact S'|]. split; [|reflexivity].
  pose proof (update_rel mb c1 (with_sub sub c1) H1 S' eq_refl) as R0. rewrite E in R0.
  destruct (updateInertialParameters mb (with_sub sub c1)) as [c3| | |] eqn:E3; simpl in R0; try contradiction. exists c3. split; auto.
  destruct R0 as (_ & _ & R1 & R2 & _). simpl. split; congruence.
Qed.
Lemma comj_hist mb c : wf_mb mb -> comj_history mb c -> exists sub,
  for_up (nrJoints mb) (fun i sub => s <- get sub i ;; s <- jointBodiesSuccessors mb (S (nrJoints mb)) i s ;; set sub i s) (repeat [] (nrJoints mb)) = Ok sub /\ cinv mb sub c.
Proof.
  intros W H. induction H as [c (g & gm & H)|c c' H IH C].
  - destruct H as [H|(w & H)].
    + eapply init_inv; eauto.
    + unfold CoMJ_ctor_w in H. destruct (length w =? nrBodies mb); [|discriminate]. eapply init_inv; eauto.
  - destruct IH as (sub & E & I). exists sub. split; auto. eapply comj_call_inv; eauto.
Qed.
Lemma comj_same mb c c' : wf_mb mb -> comj_history mb c -> comj_history mb c' -> cj_weight c = cj_weight c' -> csame mb c c'.
Proof.
  intros W H H' EW. apply comj_hist in H; auto. apply comj_hist in H'; auto.
  destruct H as (sub & E & S & (c2 & E2 & K1 & K2) & K3). destruct H' as (sub' & E' & S' & (c2' & E2' & K1' & K2') & K3').
  rewrite E in E'. injection E' as <-. pose proof (rel_Ok _ _ _ _ _ (update_rel mb c c' S S' EW) E2 E2') as (_ & _ & R1 & R2 & _).
  constructor; auto; congruence.
Qed.
Lemma comj_all mb c c' m : wf_mb mb -> comj_history mb c -> comj_history mb c' -> cj_weight c = cj_weight c' ->
  seen cj_jac (comj_jacobian mb m c) = seen cj_jac (comj_jacobian mb m c') /\
  seen cj_dot (comj_jacobianDot mb m c) = seen cj_dot (comj_jacobianDot mb m c') /\
  comj_velocity mb m c = comj_velocity mb m c' /\
  seen fst (comj_normalAcceleration mb m c) = seen fst (comj_normalAcceleration mb m c').
Proof.
  intros W H H' EW. pose proof (comj_same _ _ _ W H H' EW) as S.
  split; [|split; [|split]].
  - apply rel_seen. eapply rel_mono; [now apply comj_jac_rel|]. intros a b K; apply K.
  - apply rel_seen. eapply rel_mono; [now apply comj_dot_rel|]. intros a b K; apply K.
  - unfold comj_velocity. now rewrite (cs_com _ _ _ S), (cs_coeff _ _ _ S).
  - apply rel_seen. eapply rel_mono; [now apply comj_nacc_rel|]. intros a b K; apply K.
Qed.
