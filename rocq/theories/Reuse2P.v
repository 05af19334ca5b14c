(** Reuse of the dynamics objects. *)
From Coq Require Import Reals String ZArith Bool Arith List Lia Lra.
From Verif Require Import Res ResP SMap Vec Sva Mat JointM MultiBodyM KinM DynM JacM IDIMM Spec SpecDyn SpecJac SpecIDIM SpecReuse MbP DynCP CoMP IDIMP Reuse1P.
Import ListNotations.
Open Scope nat_scope.

Lemma pred_lt mb i pr : wf_mb mb -> i < nrBodies mb -> get (mb_pred mb) i = Ok pr -> pr = (-1)%Z \/ (0 <= pr < Z.of_nat i)%Z.
Proof. intros W L E. apply get_Ok in E. pose proof (wf_pred mb W i L) as H. erewrite nth_error_nth in H by exact E. auto. Qed.
Lemma rel_set_same {A} n (l : list A) i a : length l = n -> rel (fun x y => x = y /\ length x = n) (set l i a) (set l i a).
Proof. intros E. unfold set. destruct (i <? length l); simpl; auto. rewrite upd_length. auto. Qed.
Lemma rel_setz_same {A} n (l : list A) i a : length l = n -> rel (fun x y => x = y /\ length x = n) (setz l i a) (setz l i a).
Proof. intros E. unfold setz. destruct (i <? 0)%Z; simpl; auto. now apply rel_set_same. Qed.

(** ** InverseDynamics *)
Lemma torque_step_rel mb m n i s s' : s = s' -> length (snd s) = n ->
  rel (fun a b => a = b /\ length (snd a) = n) (torque_step mb m i s) (torque_step mb m i s').
Proof.
  intros <- L. destruct s as [jt f]. simpl in L. unfold torque_step.
  apply rel_bs; intros j _. apply rel_bs; intros jt' _. apply rel_bs; intros pr _. destruct (negb (pr =? -1)%Z); [|simpl; auto].
  apply rel_bs; intros X _. apply rel_bs; intros fp _. apply rel_bs; intros fi _.
  eapply rel_bind; [apply rel_setz_same; exact L|]. intros a b [-> E]. simpl. auto.
Qed.
Lemma torques_rel mb m n f : length f = n ->
  rel (fun a b => a = b /\ length (fst a) = n) (computeJointTorques mb f m) (computeJointTorques mb f m).
Proof.
  intros L. unfold computeJointTorques. eapply rel_bind.
  - apply (rel_for_down (fun _ s s' => s = s' /\ length (snd s) = n)); [auto|]. intros i s s' _ [E H]. now apply torque_step_rel.
  - intros a b [-> H]. simpl. auto.
Qed.
Lemma id_rel mb f f' m : length f = nrBodies mb -> length f' = nrBodies mb ->
  rel (fun a b => a = b /\ length (fst a) = nrBodies mb) (inverseDynamics mb f m) (inverseDynamics mb f' m).
Proof.
  intros L L'. unfold inverseDynamics. eapply rel_bind.
  - apply (rel_for_up (fun i s s' => fst s = fst s' /\ agr (nrBodies mb) (fun k => k < i) (snd s) (snd s'))).
    + simpl. split; auto. split; [auto|split; [auto|]]. intros; lia.
    + intros i [acc g] [acc' g'] Hi [E H]. simpl in E, H. subst acc'. unfold id_step.
      apply rel_bs; intros X _. apply rel_bs; intros vj _. apply rel_bs; intros j _. apply rel_bs; intros ad _. apply rel_bs; intros at_ _.
      apply rel_bs; intros vb _. apply rel_bs; intros pr _. apply rel_bs; intros ap _. apply rel_bs; intros acc1 _. apply rel_bs; intros b _.
      apply rel_bs; intros Xw _. apply rel_bs; intros fe _. eapply rel_bind; [apply rel_set; exact H|].
      intros a c Hac. simpl. split; auto. apply (agr_weak _ _ _ _ _ Hac). intros. lia.
  - intros [a g] [b g'] [E H]. simpl in E, H. subst b. assert (g = g') by (apply (agr_eq _ _ _ _ H); auto). subst. simpl.
    apply torques_rel. apply H.
Qed.
Lemma idni_rel mb f f' m : length f = nrBodies mb -> length f' = nrBodies mb ->
  rel (fun a b => a = b /\ length (fst a) = nrBodies mb) (inverseDynamicsNoInertia mb f m) (inverseDynamicsNoInertia mb f' m).
Proof.
  intros L L'. unfold inverseDynamicsNoInertia. eapply rel_bind.
  - apply (rel_for_up (fun i => agr (nrBodies mb) (fun k => k < i))).
    + split; [auto|split; [auto|]]. intros; lia.
    + intros i g g' Hi H. apply rel_bs; intros X _. apply rel_bs; intros fe _. eapply rel_mono; [apply rel_set; exact H|].
      intros a c Hac. apply (agr_weak _ _ _ _ _ Hac). intros. lia.
  - intros g g' H. assert (g = g') by (apply (agr_eq _ _ _ _ H); auto). subst. apply torques_rel. apply H.
Qed.
Lemma id_len mb f : id_history mb f -> length f = nrBodies mb.
Proof.
  intros H. induction H as [f [g ->]|f f' H IH C].
  - unfold ID_ctor. now rewrite map_length, seq_length.
  - destruct C as [m f' m' E|m f' m' E].
    + apply (rel_Ok _ _ _ _ _ (id_rel mb f f m IH IH) E E).
    + apply (rel_Ok _ _ _ _ _ (idni_rel mb f f m IH IH) E E).
Qed.
Lemma id_all mb f f' m : id_history mb f -> id_history mb f' ->
  seen snd (inverseDynamics mb f m) = seen snd (inverseDynamics mb f' m) /\
  seen snd (inverseDynamicsNoInertia mb f m) = seen snd (inverseDynamicsNoInertia mb f' m).
Proof.
  intros H H'. apply id_len in H. apply id_len in H'.
  split; apply rel_seen; eapply rel_mono; [apply id_rel; auto| |apply idni_rel; auto|]; intros a b [-> _]; auto.
Qed.

(** ** ForwardDynamics *)
Lemma agr_set_from n : forall s (P : nat -> Prop) (v v' : list R) p, agr n P v v' -> p + length s <= n ->
  agr n (fun k => P k \/ p <= k < p + length s) (set_from v p s) (set_from v' p s).
Proof.
  induction s as [|x s IH]; simpl; intros P v v' p H L.
  - apply (agr_weak _ _ _ _ _ H). intros k _ [K|K]; auto. lia.
  - assert (G : agr n (fun k => P k \/ k = p) (upd v p x) (upd v' p x)).
    { pose proof (rel_set n P v v' p x H) as G. unfold set in G. destruct H as (H1 & H2 & _). rewrite H1, H2 in G.
      destruct (Nat.ltb_spec p n); [exact G|lia]. }
    pose proof (IH _ _ _ (S p) G ltac:(lia)) as IH'. apply (agr_weak _ _ _ _ _ IH'). intros k _ [K|K]; [auto|].
    destruct (Nat.eq_dec k p); [auto|]. right. lia.
Qed.
Lemma rel_set_seg n P (v v' : list R) p s : agr n P v v' ->
  rel (agr n (fun k => P k \/ p <= k < p + length s)) (set_seg v p s) (set_seg v' p s).
Proof.
  intros H. pose proof H as (H1 & H2 & _). unfold set_seg. rewrite H1, H2. destruct (Nat.leb_spec (p + length s) n); simpl; auto.
  now apply agr_set_from.
Qed.
Lemma set_block_dims M r c nr nc B M' : set_block M r c nr nc B = Ok M' -> mrows M' = mrows M /\ mcols M' = mcols M.
Proof. unfold set_block. destruct (_ && _); intros E; [injection E as <-; auto|discriminate]. Qed.
Lemma pttrans_len X di : forall F F', for_up di (fun d F => c <- get F d ;; set F d (pttrans X c)) F = Ok F' -> length F' = length F.
Proof.
  intros F F' E. apply (for_up_inv_partial (fun _ G => length G = length F)) in E; auto.
  intros i s s' _ H K. apply bind_Ok in K. destruct K as (c & _ & K). unfold set in K. destruct (i <? length s); [|discriminate].
  injection K as <-. now rewrite upd_length.
Qed.
Lemma anc_loop_dims mb m dp i di : forall fuel j H F H' F', anc_loop mb m dp i di fuel j H F = Ok (H', F') ->
  mrows H' = mrows H /\ mcols H' = mcols H /\ length F' = length F.
Proof.
  induction fuel; simpl; intros j H F H' F' E; [discriminate|].
  apply bind_Ok in E. destruct E as (pr & _ & E). destruct (negb (pr =? -1)%Z); [|injection E as <- <-; auto].
  apply bind_Ok in E. destruct E as (X & _ & E). apply bind_Ok in E. destruct E as (F1 & EF & E). apply pttrans_len in EF.
  apply bind_Ok in E. destruct E as (jj & _ & E). destruct (negb (jdof jj =? 0)); [|apply IHfuel in E; intuition congruence].
  apply bind_Ok in E. destruct E as (pi & _ & E). apply bind_Ok in E. destruct E as (pj & _ & E). apply bind_Ok in E. destruct E as (ms & _ & E).
  apply bind_Ok in E. destruct E as (B & _ & E). apply bind_Ok in E. destruct E as (H1 & E1 & E). apply set_block_dims in E1.
  apply bind_Ok in E. destruct E as (B' & _ & E). apply bind_Ok in E. destruct E as (H2 & E2 & E). apply set_block_dims in E2.
  apply IHfuel in E. intuition congruence.
Qed.
Lemma sized_nth {A} mb f (v : list (list A)) i x : sized mb f v -> nth_error v i = Some x -> length x = f (nth i (mb_joints mb) jd).
Proof.
  unfold sized. intros H E. apply (map_nth_error (@length A)) in E. rewrite H in E.
  destruct (nth_error (mb_joints mb) i) eqn:Ej.
  - rewrite (map_nth_error _ _ _ Ej) in E. injection E as <-. f_equal. symmetry. now apply nth_error_nth.
  - apply nth_error_None in Ej. assert (nth_error (map f (mb_joints mb)) i = None) by (apply nth_error_None; now rewrite map_length). congruence.
Qed.
Lemma sized_upd {A} mb f (v : list (list A)) i x : sized mb f v -> length x = f (nth i (mb_joints mb) jd) -> sized mb f (upd v i x).
Proof.
  unfold sized. intros H E. rewrite upd_map, H, E. apply list_ext; [now rewrite upd_length|]. intros k Hk.
  destruct (Nat.eq_dec k i) as [->|N].
  - rewrite upd_length, map_length in Hk. rewrite nth_error_upd_eq by (now rewrite map_length).
    rewrite (nth_error_nth' (map f (mb_joints mb)) (f jd)) by now rewrite map_length. now rewrite map_nth.
  - rewrite nth_error_upd_neq; auto.
Qed.
Lemma dofPos_eq mb s s' : fd_ok mb s -> fd_ok mb s' -> fd_dofPos s = fd_dofPos s'.
Proof.
  intros H H'. apply (list_ext_nth _ _ 0).
  - rewrite (fo_pos_len _ _ H), (fo_pos_len _ _ H'). auto.
  - intros i Hi. rewrite (fo_pos_len _ _ H) in Hi. rewrite (fo_pos _ _ H), (fo_pos _ _ H'); auto.
Qed.
Lemma h_step_rel mb m i s s' : wf_mb mb -> i < nrBodies mb ->
  fd_ok mb s -> fd_ok mb s' -> fd_H s = fd_H s' -> fd_I s = fd_I s' ->
  rel (fun a b => fd_ok mb a /\ fd_ok mb b /\ fd_H a = fd_H b /\ fd_I a = fd_I b) (h_step mb m i s) (h_step mb m i s').
Proof.
  intros W Li HS HS' EH EI. unfold h_step. apply rel_bs; intros pr _.
  eapply (rel_bind (fun a b => fd_ok mb a /\ fd_ok mb b /\ fd_H a = fd_H b /\ fd_I a = fd_I b)).
  - destruct (negb (pr =? -1)%Z); [|simpl; auto].
    rewrite <- EI. apply rel_bs; intros X _. apply rel_bs; intros Ip _. apply rel_bs; intros Ii _.
    eapply rel_bind; [apply rel_setz_same; apply (fo_I _ _ HS)|]. intros a b [<- L]. simpl. repeat split; auto; try apply HS; try apply HS'; try exact L.
  - clear s s' HS HS' EH EI. intros s s' (HS & HS' & EH & EI). apply rel_bs; intros j Ej. apply get_joint in Ej.
    eapply rel_bind.
    + apply rel_get_any. pose proof (f_equal (@length nat) (fo_F _ _ HS)) as A. pose proof (f_equal (@length nat) (fo_F _ _ HS')) as B.
      rewrite !map_length in A, B. congruence.
    + intros F F' [HF HF']. apply (sized_nth _ _ _ _ _ (fo_F _ _ HS)) in HF. apply (sized_nth _ _ _ _ _ (fo_F _ _ HS')) in HF'.
      rewrite <- Ej in HF, HF'. eapply rel_bind.
      * apply (rel_for_up (fun d => agr (jdof j) (fun k => k < d))); [split; [auto|split; [auto|intros; lia]]|].
        intros d G G' Hd HG. rewrite <- EI. apply rel_bs; intros Ii _. apply rel_bs; intros ms _. apply rel_bs; intros c _.
        eapply rel_mono; [apply rel_set; exact HG|]. intros a b Hab. apply (agr_weak _ _ _ _ _ Hab). intros. lia.
      * intros G G' HG. assert (E : G = G') by (apply (agr_eq _ _ _ _ HG); auto). subst G'. destruct HG as (LG & _ & _).
        rewrite <- (dofPos_eq _ _ _ HS HS'), <- EH.
        apply rel_bs; intros pi _. apply rel_bs; intros ms _. apply rel_bs; intros B _. apply rel_bs; intros H1 E1. apply set_block_dims in E1.
        apply rel_bs; intros [H2 G2] E2. apply anc_loop_dims in E2. destruct E2 as (R2 & C2 & L2). simpl.
        pose proof (f_equal (@length nat) (fo_F _ _ HS)) as A. pose proof (f_equal (@length nat) (fo_F _ _ HS')) as A'. rewrite !map_length in A, A'.
        unfold set. rewrite A, A'. destruct (i <? length (mb_joints mb)); simpl; auto.
        destruct HS, HS'. split; [|split; [|auto]]; constructor; simpl; auto; try (intuition congruence); apply sized_upd; auto; rewrite L2, LG, Ej; reflexivity.
Qed.
Lemma computeH_rel mb m s s' : wf_mb mb -> fd_ok mb s -> fd_ok mb s' ->
  rel (fun a b => fd_ok mb a /\ fd_ok mb b /\ fd_H a = fd_H b) (computeH mb m s) (computeH mb m s').
Proof.
  intros W HS HS'. unfold computeH. eapply rel_bind.
  - apply (rel_for_up (fun i a b => fd_ok mb a /\ fd_ok mb b /\ fd_H a = fd_H b /\ agr (nrBodies mb) (fun k => k < i) (fd_I a) (fd_I b))).
    + assert (E : mat_zero (mrows (fd_H s)) (mcols (fd_H s)) = mat_zero (mrows (fd_H s')) (mcols (fd_H s'))).
      { now rewrite (fo_rows _ _ HS), (fo_rows _ _ HS'), (fo_cols _ _ HS), (fo_cols _ _ HS'). }
      split; [destruct HS; constructor; simpl; auto|split; [destruct HS'; constructor; simpl; auto|split; [exact E|]]]. split; [apply HS|split; [apply HS'|intros; lia]].
    + intros i a b Li (Ha & Hb & EH & HI). apply rel_bs; intros bo _. eapply rel_bind; [apply rel_set; exact HI|].
      intros I I' HI'. simpl. split; [|split; [|split; [auto|]]].
      * destruct Ha; constructor; simpl; auto. apply HI'.
      * destruct Hb; constructor; simpl; auto. apply HI'.
      * apply (agr_weak _ _ _ _ _ HI'). intros. lia.
  - intros a b (Ha & Hb & EH & HI). eapply rel_mono; [apply (rel_for_down (fun _ a b => fd_ok mb a /\ fd_ok mb b /\ fd_H a = fd_H b /\ fd_I a = fd_I b))|].
    + repeat split; try apply Ha; try apply Hb; auto. apply (agr_eq _ _ _ _ HI). auto.
    + intros i x y Li (Hx & Hy & E1 & E2). now apply h_step_rel.
    + intros x y (Hx & Hy & E1 & E2). auto.
Qed.

Definition cpre mb (s s' a b : FD) : Prop := fd_ok mb a /\ fd_ok mb b /\ fd_H a = fd_H s /\ fd_H b = fd_H s' /\ fd_tmp a = fd_tmp s /\ fd_tmp b = fd_tmp s'.
Lemma computeC_rel mb m s s' : wf_mb mb -> fd_ok mb s -> fd_ok mb s' ->
  rel (fun a b => cpre mb s s' a b /\ fd_C a = fd_C b) (computeC mb m s) (computeC mb m s').
Proof.
  intros W HS HS'. unfold computeC. eapply rel_bind.
  - apply (rel_for_up (fun i a b => cpre mb s s' a b /\ agr (nrBodies mb) (fun k => k < i) (fd_acc a) (fd_acc b) /\ agr (nrBodies mb) (fun k => k < i) (fd_f a) (fd_f b))).
    + split; [repeat split; try apply HS; try apply HS'|]. split; (split; [apply HS|split; [apply HS'|intros; lia]]).
    + intros i a b Li ((Ha & Hb & E1 & E2 & E3 & E4) & HA & HF). unfold c_step1.
      apply rel_bs; intros X _. apply rel_bs; intros vj _. apply rel_bs; intros vb _. apply rel_bs; intros pr Epr.
      apply pred_lt in Epr; auto.
      replace (if negb (pr =? -1)%Z then getz (fd_acc b) pr else Ok (mkSV v0 (gravity m)))
        with (if negb (pr =? -1)%Z then getz (fd_acc a) pr else Ok (mkSV v0 (gravity m))).
      2:{ destruct (Z.eqb_spec pr (-1)); simpl; auto. apply (agr_getz _ _ _ _ _ HA). intros. lia. }
      apply rel_bs; intros ap _. eapply rel_bind; [apply rel_set; exact HA|]. intros A A' HA'.
      apply rel_bs; intros bo _. apply rel_bs; intros Xw _. apply rel_bs; intros fe _.
      eapply rel_bind; [apply rel_set; exact HF|]. intros F F' HF'. simpl.
      split; [split; [|split; [|auto]]|split].
      * destruct Ha; constructor; simpl; auto; [apply HA'|apply HF'].
      * destruct Hb; constructor; simpl; auto; [apply HA'|apply HF'].
      * apply (agr_weak _ _ _ _ _ HA'). intros. lia.
      * apply (agr_weak _ _ _ _ _ HF'). intros. lia.
  - intros a b (Hab & _ & HF). apply agr_eq in HF; [|auto].
    eapply rel_mono; [apply (rel_for_down (fun i x y => cpre mb s s' x y /\ fd_f x = fd_f y /\ agr (mb_nrDof mb) (fun k => pos mb i <= k) (fd_C x) (fd_C y)))|].
    + split; [exact Hab|]. split; [exact HF|]. destruct Hab as (Ha & Hb & _). split; [apply Ha|split; [apply Hb|]].
      intros k Hk. rewrite <- (wf_joints mb W) in Hk. change (length (mb_joints mb)) with (nrJoints mb) in Hk. rewrite pos_all, <- (wf_nrDof mb W) in Hk.
      rewrite (proj2 (nth_error_None _ _)), (proj2 (nth_error_None _ _)); auto; rewrite ?(fo_C _ _ Ha), ?(fo_C _ _ Hb); auto.
    + intros i x y Li ((Hx & Hy & E1 & E2 & E3 & E4) & EF & HC). unfold c_step2. rewrite <- EF, <- (dofPos_eq _ _ _ Hx Hy).
      apply rel_bs; intros j Ej. apply get_joint in Ej. apply rel_bs; intros pi Epi. apply rel_bs; intros ms _. apply rel_bs; intros fi _.
      assert (Ep : pi = pos mb i). { apply get_Ok in Epi. rewrite <- (fo_pos _ _ Hx i Li). symmetry. now apply nth_error_nth. }
      eapply (rel_bind (agr (mb_nrDof mb) (fun k => pos mb i <= k))).
      { destruct (Nat.eqb_spec (length ms) (jdof j)) as [El|]; [|simpl; auto].
        eapply rel_mono; [apply rel_set_seg; exact HC|]. intros u v Huv. apply (agr_weak _ _ _ _ _ Huv). intros k Hk Hp.
        rewrite map_length, El, Ep, Ej. rewrite pos_S by (unfold nrJoints; rewrite (wf_joints mb W); auto). unfold dofi. lia. }
      intros C C' HC'. simpl. apply rel_bs; intros pr _.
      destruct (negb (pr =? -1)%Z).
      * rewrite EF. apply rel_bs; intros X _. apply rel_bs; intros fp _. eapply rel_bind; [apply rel_setz_same; apply (fo_f _ _ Hy)|].
        intros u v [<- Lu]. simpl. split; [split; [|split; [|auto]]|split; [auto|exact HC']].
        -- destruct Hx; constructor; simpl; auto; apply HC'.
        -- destruct Hy; constructor; simpl; auto; apply HC'.
      * simpl. split; [split; [|split; [|auto]]|split; [exact EF|exact HC']].
        -- destruct Hx; constructor; simpl; auto; apply HC'.
        -- destruct Hy; constructor; simpl; auto; apply HC'.
    + intros x y (H1 & H2 & H3). split; [exact H1|]. apply (agr_eq _ _ _ _ H3). intros. unfold pos. simpl. lia.
Qed.
Lemma concat_snoc {A} (d : list (list A)) a : length (concat (d ++ [a])) = length (concat d) + length a.
Proof. rewrite concat_app, app_length. simpl. now rewrite app_nil_r. Qed.
Lemma paramToVector_rel n (v : list (list R)) e e' : length e = n -> length e' = n ->
  rel (fun a b => length a = n /\ length b = n /\ (total_size v = n -> a = b)) (paramToVector v e) (paramToVector v e').
Proof.
  intros L L'. unfold paramToVector. eapply rel_bind.
  - apply (rel_for_each (fun d s s' => fst s = length (concat d) /\ fst s' = fst s /\ agr n (fun k => k < fst s) (snd s) (snd s')) _ _ v []).
    + simpl. repeat split; auto. intros; lia.
    + intros d a s s' _ (H1 & H2 & H3).
      eapply rel_mono; [apply (rel_for_each (fun d2 t t' => fst t = fst s + length d2 /\ fst t' = fst t /\ agr n (fun k => k < fst t) (snd t) (snd t')) _ _ a [])|].
      * simpl. repeat split; try lia; try apply H3.
      * intros d2 x t t' _ (K1 & K2 & K3). rewrite K2. eapply rel_bind; [apply rel_set; exact K3|]. intros u w Huw. simpl.
        rewrite app_length. simpl. repeat split; try lia; try apply Huw. intros k Hk. apply Huw. lia.
      * intros t t' (K1 & K2 & K3). simpl in K1. rewrite concat_snoc. repeat split; try lia; apply K3.
  - simpl. intros s s' (H1 & H2 & H3). split; [apply H3|]. split; [apply H3|]. intros E. apply (agr_eq _ _ _ _ H3). unfold total_size in E. intros. lia.
Qed.
Lemma forward_rel solve mb m s s' : wf_mb mb -> (forall M b, length (solve M b) = length b) -> fd_ok mb s -> fd_ok mb s' ->
  rel (fun a b => fd_ok mb (fst a) /\ fd_ok mb (fst b) /\ (total_size (jointTorque m) = mb_nrDof mb -> fd_H (fst a) = fd_H (fst b) /\ fd_C (fst a) = fd_C (fst b) /\ snd a = snd b))
      (forwardDynamics solve mb m s) (forwardDynamics solve mb m s').
Proof.
  intros W Hsol HS HS'. unfold forwardDynamics. eapply rel_bind; [now apply computeH_rel|].
  intros a b (Ha & Hb & EH). eapply rel_bind; [now apply computeC_rel|].
  intros c d ((Hc & Hd & E1 & E2 & E3 & E4) & EC). rewrite EH in E1. rewrite <- E2 in E1.
  eapply rel_bind; [apply (paramToVector_rel (mb_nrDof mb)); [apply Hc|apply Hd]|].
  intros t t' (L & L' & Et). rewrite L, L', <- EC, (fo_C _ _ Hc), Nat.eqb_refl, E1.
  set (x := solve (fd_H d) (map (fun p : R * R => (fst p - snd p)%R) (combine t (fd_C c)))).
  set (x' := solve (fd_H d) (map (fun p : R * R => (fst p - snd p)%R) (combine t' (fd_C c)))).
  assert (Lx : length x = mb_nrDof mb).
  { unfold x. rewrite Hsol, map_length, combine_length, L, (fo_C _ _ Hc). lia. }
  assert (Lx' : length x' = mb_nrDof mb).
  { unfold x'. rewrite Hsol, map_length, combine_length, L', (fo_C _ _ Hc). lia. }
  unfold vectorToParam.
  assert (F1 : forall y y' p l, length y = length y' -> rel (fun a b => fst a = fst b) (fill_one y p l) (fill_one y' p l)).
  { intros y y' p l Hy. revert p. induction l as [|z l IH]; intros p; cbn [fill_one]; [simpl; auto|].
    eapply rel_bind; [apply rel_get_any; exact Hy|]. intros ? ? _. eapply rel_bind; [apply IH|]. intros u w E. exact E. }
  assert (F2 : forall y y' l p, length y = length y' -> rel (fun _ _ => True) (fill_all y p l) (fill_all y' p l)).
  { intros y y' l. induction l as [|z l IH]; intros p Hy; cbn [fill_all]; [simpl; auto|].
    eapply rel_bind; [apply F1; exact Hy|]. intros u w E. rewrite E. eapply rel_bind; [apply IH; exact Hy|]. simpl. auto. }
  assert (G : rel (fun aD aD' => total_size (jointTorque m) = mb_nrDof mb -> aD = aD') (fill_all x 0 (alphaD m)) (fill_all x' 0 (alphaD m))).
  { destruct (Nat.eq_dec (total_size (jointTorque m)) (mb_nrDof mb)) as [Eq|Nq].
    - assert (E : x = x') by (unfold x, x'; rewrite (Et Eq); auto). rewrite E. apply rel_same. auto.
    - eapply rel_mono; [apply F2; congruence|]. intros ? ? _ K. contradiction. }
  eapply rel_bind; [exact G|]. intros aD aD' EaD. simpl.
  split; [|split].
  - destruct Hc; constructor; simpl; auto.
  - destruct Hd; constructor; simpl; auto.
  - intros K. rewrite (EaD K). auto.
Qed.
Lemma fd_shape solve mb s : wf_mb mb -> (forall M b, length (solve M b) = length b) -> fd_history solve mb s -> fd_ok mb s.
Proof.
  intros W Hsol H. induction H as [s (gR & gS & gI & ->)|s s' H IH C].
  - now apply FD_ctor_ok.
  - destruct C as [m s' m' E|m s' E|m s' E].
    + apply (rel_Ok _ _ _ _ _ (forward_rel solve mb m s s W Hsol IH IH) E E).
    + apply (rel_Ok _ _ _ _ _ (computeH_rel mb m s s W IH IH) E E).
    + apply (rel_Ok _ _ _ _ _ (computeC_rel mb m s s W IH IH) E E).
Qed.
Lemma fd_all solve mb s s' m : wf_mb mb -> (forall M b, length (solve M b) = length b) ->
  fd_history solve mb s -> fd_history solve mb s' ->
  seen fd_H (computeH mb m s) = seen fd_H (computeH mb m s') /\
  seen fd_C (computeC mb m s) = seen fd_C (computeC mb m s') /\
  (total_size (jointTorque m) = mb_nrDof mb -> seen snd (forwardDynamics solve mb m s) = seen snd (forwardDynamics solve mb m s')).
Proof.
  intros W Hsol H H'. apply (fd_shape solve) in H; auto. apply (fd_shape solve) in H'; auto.
  split; [|split]; intros; apply rel_seen; eapply rel_mono.
  1: now apply computeH_rel. 2: now apply computeC_rel. 3: now apply forward_rel. all: intros a b K; apply K. auto.
Qed.
