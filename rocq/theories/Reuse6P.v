(** Reuse of InverseStatics. *)
From Coq Require Import Reals String ZArith Bool Arith List Lia Lra.
From Verif Require Import Res ResP SMap Vec Sva Mat JointM MultiBodyM KinM DynM JacM CoMM MomM ISM Spec SpecDyn SpecJac SpecReuse MbP Reuse1P Reuse2P Reuse4P Reuse5P.
Import ListNotations.
Open Scope nat_scope.

(** Two lists of n elements related place by place. *)
Definition lagr {A} (n : nat) (Q : nat -> A -> A -> Prop) (l l' : list A) : Prop :=
  length l = n /\ length l' = n /\ forall k a b, nth_error l k = Some a -> nth_error l' k = Some b -> Q k a b.
Lemma lagr_get {A} n Q (l l' : list A) i : lagr n Q l l' -> rel (Q i) (get l i) (get l' i).
Proof. intros (H1 & H2 & H3). eapply rel_mono; [apply rel_get_any; congruence|]. intros a b [E E']. eauto. Qed.
Lemma lagr_getz {A} n Q (l l' : list A) z : lagr n Q l l' -> rel (Q (Z.to_nat z)) (getz l z) (getz l' z).
Proof. intros H. unfold getz. destruct (z <? 0)%Z; simpl; auto. now apply (lagr_get n). Qed.
Lemma lagr_set {A} n Q (Q' : nat -> A -> A -> Prop) (l l' : list A) i a b : lagr n Q l l' -> Q' i a b -> (forall k x y, k <> i -> Q k x y -> Q' k x y) ->
  rel (lagr n Q') (set l i a) (set l' i b).
Proof.
  intros (H1 & H2 & H3) HQ HN. unfold set. rewrite H1, H2. destruct (Nat.ltb_spec i n); simpl; auto.
  split; [now rewrite upd_length|]. split; [now rewrite upd_length|]. intros k x y E E'. destruct (Nat.eq_dec k i) as [->|Hk].
  - rewrite nth_error_upd_eq in E, E' by congruence. injection E as <-. injection E' as <-. auto.
  - rewrite nth_error_upd_neq in E, E' by auto. eauto.
Qed.
Lemma lagr_setz {A} n Q (Q' : nat -> A -> A -> Prop) (l l' : list A) z a b : lagr n Q l l' -> Q' (Z.to_nat z) a b -> (forall k x y, k <> Z.to_nat z -> Q k x y -> Q' k x y) ->
  rel (lagr n Q') (setz l z a) (setz l' z b).
Proof. intros. unfold setz. destruct (z <? 0)%Z; simpl; auto. eapply lagr_set; eauto. Qed.
Lemma lagr_weak {A} n (Q Q' : nat -> A -> A -> Prop) (l l' : list A) : lagr n Q l l' -> (forall k x y, k < n -> Q k x y -> Q' k x y) -> lagr n Q' l l'.
Proof. intros (H1 & H2 & H3) H. split; [auto|]. split; [auto|]. intros k a b E E'. apply H; eauto. rewrite <- H1. apply nth_error_Some. congruence. Qed.
Lemma lagr_forall {A} n Q (P : A -> A -> Prop) (l l' : list A) : lagr n Q l l' -> (forall k x y, k < n -> Q k x y -> P x y) -> Forall2 P l l'.
Proof.
  intros H K. apply (lagr_weak _ _ (fun _ => P)) in H; [|auto]. clear K. destruct H as (H1 & H2 & H3). subst n.
  revert l' H2 H3. induction l as [|a l IH]; intros [|b l'] H2 H3; try discriminate; constructor.
  - apply (H3 0); auto.
  - apply IH; [simpl in H2; lia|]. intros k x y. apply (H3 (S k)).
Qed.

Lemma svcol_sm n c M N k : sm n c M N -> 6 <= n -> k < c -> svcol M k = svcol N k.
Proof. intros (_ & _ & _ & _ & H) Hn Hk. unfold svcol. rewrite !H by lia. auto. Qed.
Lemma map_cols_sm n c M N F : sm n c M N -> 6 <= n -> beq 6 c (map_cols F M) (map_cols F N).
Proof. intros H Hn i j _ Hj. unfold map_cols. now rewrite (svcol_sm _ _ _ _ _ H). Qed.
Lemma mat_add_sm r c M N r' c' P Q : sm r c M N -> sm r' c' P Q -> rel (sm r c) (mat_add M P) (mat_add N Q).
Proof.
  intros (H1 & H2 & H3 & H4 & H5) (K1 & K2 & K3 & K4 & K5). unfold mat_add. rewrite H1, H2, H3, H4, K1, K2, K3, K4.
  destruct (Nat.eqb_spec r r') as [<-|]; [|exact Logic.I]. destruct (Nat.eqb_spec c c') as [<-|]; [|exact Logic.I].
  cbn [andb rel]. unfold sm. simpl. split; [auto|]. split; [auto|]. split; [auto|]. split; [auto|]. intros i j Hi Hj. rewrite H5, K5; auto.
Qed.

(** An object sized for Jacobians of D columns. *)
Record ready (mb : MultiBody) (D : nat) (s s' : ISd) : Prop := {
  rd_jac : vsame mb (id_jac s) (id_jac s');
  rd_df : lagr (nrBodies mb) (fun _ => dims 6 D) (id_df s) (id_df s');
  rd_diff : length (id_diff s) = nrBodies mb;
  rd_diff' : length (id_diff s') = nrBodies mb;
  rd_f : length (id_f s) = nrBodies mb;
  rd_f' : length (id_f s') = nrBodies mb;
  rd_full : dims 6 (mb_nrDof mb) (id_full s) (id_full s')
}.
Lemma lagr_dims_mix {n r c} {l l' k k' : list Mat} : lagr n (fun _ => dims r c) l l' -> lagr n (fun _ => dims r c) k k' -> lagr n (fun _ => dims r c) l k'.
Proof.
  intros (H1 & H2 & H3) (K1 & K2 & K3). split; [auto|]. split; [auto|]. intros i a b E E'.
  assert (i < n) by (rewrite <- H1; apply nth_error_Some; congruence).
  destruct (nth_error l' i) as [a'|] eqn:Ea; [|apply nth_error_None in Ea; lia]. destruct (nth_error k i) as [b'|] eqn:Eb; [|apply nth_error_None in Eb; lia].
  exact (dims_mix (H3 _ _ _ E Ea) (K3 _ _ _ Eb E')).
Qed.
Lemma lagr_dims_sym {n r c} {l l' : list Mat} : lagr n (fun _ => dims r c) l l' -> lagr n (fun _ => dims r c) l' l.
Proof. intros (H1 & H2 & H3). split; [auto|]. split; [auto|]. intros i a b E E'. apply dims_sym. eauto. Qed.
Lemma rd_sym mb D a b : ready mb D a b -> ready mb D b a.
Proof. intros H. destruct H. constructor; auto; [now apply vsame_sym|now apply lagr_dims_sym|now apply dims_sym]. Qed.
Lemma rd_trans mb D a b c : ready mb D a b -> ready mb D b c -> ready mb D a c.
Proof. intros H K. destruct H, K. constructor; auto; [eapply vsame_trans; eauto|eapply lagr_dims_mix; eauto|eapply dims_mix; eauto]. Qed.
Lemma rd_self mb D a b : ready mb D a b -> ready mb D a a.
Proof. intros H. eapply rd_trans; [exact H|now apply rd_sym]. Qed.

(** The first loop. *)
Definition bloop mb D s0 (i : nat) (a b : ISd * list SV) : Prop :=
  ready mb D (fst a) (fst b) /\ ready mb D s0 (fst a) /\ agr (nrBodies mb) (fun k => k < i) (id_f (fst a)) (id_f (fst b)) /\
  lagr (nrBodies mb) (fun k x y => k < i -> sm 6 D x y) (id_df (fst a)) (id_df (fst b)) /\ snd a = snd b /\ id_set (fst a) = id_set s0.
Lemma isd_body_rel mb m jacs a0 D s0 i a b : bloop mb D s0 i a b ->
  rel (bloop mb D s0 (S i)) (isd_body mb m jacs a0 i a) (isd_body mb m jacs a0 i b).
Proof.
  destruct a as [s acc], b as [s' acc']. intros (H1 & H2 & H3 & H4 & E & ES). cbn [fst snd] in *. subst acc'. unfold isd_body.
  eapply rel_bind; [apply (lagr_get (nrBodies mb)); apply (rd_df _ _ _ _ H1)|]. intros d d' (D1 & D2 & D3 & D4). cbv zeta. rewrite D1, D2, D3, D4.
  eapply rel_bind; [apply rel_get2; apply (rd_jac _ _ _ _ H1)|]. intros J J' (HJ & EJ & EJ').
  eapply rel_bind; [apply jacobian_rel; exact HJ|]. intros x y (Hxy & Hx & Ec & _).
  eapply rel_bind; [apply (rel_set2 (jsame mb)); [apply (rd_jac _ _ _ _ H1)|exact Hxy]|]. intros js js' [Hjs Ejs].
  rewrite <- Ec. eapply rel_bind.
  { apply (full_rel mb x y 6 (length (jc_jac x)) 6); [apply Hxy|apply sm_refl; reflexivity|apply (rd_full _ _ _ _ H1)|lia]. }
  intros F F' HF. pose proof HF as (F1 & F2 & F3 & F4 & F5). apply rel_bs; intros Xw _. apply rel_bs; intros acc2 _. apply rel_bs; intros bo _. apply rel_bs; intros ai _. apply rel_bs; intros fe _.
  eapply rel_bind; [apply rel_set; exact H3|]. intros f f' Hf. rewrite F1, F2, F3, F4.
  eapply rel_bind.
  { apply (sm_set_block 6 D); [apply sm_refl; reflexivity|]. apply (map_cols_sm 6); [exact HF|lia]. }
  intros e e' He. apply rel_bs; intros JF _.
  eapply (rel_bind (sm 6 D)).
  { destruct (0 <? mcols JF); [|exact He]. destruct (mrows JF =? 6); [|simpl; auto].
    eapply mat_add_sm; [exact He|]. apply sm_refl; reflexivity. }
  intros u u' Hu. eapply rel_bind.
  { eapply (lagr_set _ _ (fun k p r => dims 6 D p r /\ (k < S i -> sm 6 D p r))).
    - assert (G : lagr (nrBodies mb) (fun k p r => dims 6 D p r /\ (k < i -> sm 6 D p r)) (id_df s) (id_df s')).
      { destruct (rd_df _ _ _ _ H1) as (G1 & G2 & G3). destruct H4 as (_ & _ & G4). split; [auto|]. split; [auto|]. intros k p r Ep Er. split; eauto. }
      exact G.
    - split; [now apply sm_dims|auto].
    - intros k p r Hk [K1 K2]. split; [auto|]. intros. apply K2. lia. }
  intros df df' Hdf. cbn [rel].
  assert (R1 : ready mb D (mkISd f df (id_diff s) js F (id_set s)) (mkISd f' df' (id_diff s') js' F' (id_set s'))).
  { destruct H1. constructor; simpl; auto; try apply Hf; [|now apply sm_dims]. eapply lagr_weak; [exact Hdf|]. intros k p r _ [K _]. exact K. }
  split; [exact R1|]. split; [|split; [|split; [|split; [reflexivity|exact ES]]]].
  - cbn [fst]. pose proof (rd_self _ _ _ _ R1) as R2. destruct H2, R2. constructor; simpl in *; auto.
    + rewrite Ejs. eapply vsame_put; [exact rd_jac0|exact EJ|exact Hx].
    + eapply lagr_dims_mix; eauto.
    + eapply dims_mix; eauto.
  - apply (agr_weak _ _ _ _ _ Hf). intros. lia.
  - cbn [fst id_df]. eapply lagr_weak; [exact Hdf|]. intros k p r _ [_ K]. exact K.
Qed.
(** The second loop. *)
Definition tloop mb D s0 (i : nat) (a b : ISd) : Prop :=
  ready mb D a b /\ ready mb D s0 a /\ id_f a = id_f b /\
  lagr (nrBodies mb) (fun k => sm 6 D) (id_df a) (id_df b) /\ lagr (nrBodies mb) (fun k x y => i <= k -> same_mat x y) (id_diff a) (id_diff b) /\ id_set a = id_set s0.
Lemma isd_torque_rel mb m D s0 i s s' : tloop mb D s0 (S i) s s' -> rel (tloop mb D s0 i) (isd_torque mb m i s) (isd_torque mb m i s').
Proof.
  intros (H1 & H2 & H3 & H4 & H5 & ES). unfold isd_torque. apply rel_bs; intros ms _.
  eapply rel_bind; [apply (lagr_get (nrBodies mb)); exact H4|]. intros d d' Hd. pose proof Hd as (D1 & D2 & D3 & D4 & D5). rewrite D2, D4.
  eapply rel_bind.
  { eapply (lagr_set _ _ (fun k x y => i <= k -> same_mat x y)); [exact H5| |].
    - intros _. split; [reflexivity|]. split; [reflexivity|]. simpl. intros r c _ Hc. now rewrite (svcol_sm _ _ _ _ _ Hd).
    - intros k x y Hk K L. apply K. lia. }
  intros diff diff' Hdiff. apply rel_bs; intros pr _.
  assert (L1 : length diff = nrBodies mb) by apply Hdiff. assert (L2 : length diff' = nrBodies mb) by apply Hdiff.
  destruct (negb (pr =? -1)%Z).
  - apply rel_bs; intros X _. rewrite <- H3. apply rel_bs; intros fp _. apply rel_bs; intros fi _.
    eapply rel_bind; [apply rel_setz_same; apply (rd_f _ _ _ _ H1)|]. intros f f' [<- Lf].
    eapply rel_bind; [apply (lagr_getz (nrBodies mb)); exact H4|]. intros dp dp' Hdp.
    eapply rel_bind; [eapply mat_add_sm; [exact Hdp|]|].
    { split; [reflexivity|]. split; [reflexivity|]. split; [reflexivity|]. split; [reflexivity|]. simpl. apply (map_cols_sm 6); [exact Hd|lia]. }
    intros u u' Hu. apply rel_bs; intros Xj _. apply rel_bs; intros fi2 _. apply rel_bs; intros j _. apply rel_bs; intros pos _. apply rel_bs; intros Xt _.
    eapply (rel_bind (sm 6 D)).
    { destruct (length ms =? jdof j); [|simpl; auto]. apply sm_add_block; auto. intros r c _ _. reflexivity. }
    intros w w' Hw. eapply rel_bind.
    { eapply (lagr_setz _ _ (fun k => sm 6 D)); [exact H4|exact Hw|auto]. }
    intros df df' Hdf. cbn [rel].
    assert (R1 : ready mb D (mkISd f df diff (id_jac s) (id_full s) (id_set s)) (mkISd f df' diff' (id_jac s') (id_full s') (id_set s'))).
    { destruct H1. constructor; simpl; auto. eapply lagr_weak; [exact Hdf|]. intros k p r _. apply sm_dims. }
    split; [exact R1|]. split; [|split; [reflexivity|split; [exact Hdf|split; [exact Hdiff|exact ES]]]].
    pose proof (rd_self _ _ _ _ R1) as R2. destruct H2, R2. constructor; simpl in *; auto. eapply lagr_dims_mix; eauto.
  - cbn [rel].
    assert (R1 : ready mb D (mkISd (id_f s) (id_df s) diff (id_jac s) (id_full s) (id_set s)) (mkISd (id_f s') (id_df s') diff' (id_jac s') (id_full s') (id_set s'))).
    { destruct H1. constructor; simpl; auto. }
    split; [exact R1|]. split; [|split; [exact H3|split; [exact H4|split; [exact Hdiff|exact ES]]]].
    destruct H2. constructor; simpl in *; auto.
Qed.
(** Both loops, on sized objects. *)
Definition loops mb m jacs s : res (ISd * MBC) :=
  st <- for_up (nrBodies mb) (isd_body mb m jacs (mkSV v0 (gravity m))) (s, bodyAccB m) ;;
  let m := with_bodyAccB (snd st) m in
  s <- for_down (nrJoints mb) (isd_torque mb m) (fst st) ;;
  Ok (s, m).
Lemma loops_rel mb m jacs D s s' : wf_mb mb -> ready mb D s s' ->
  rel (fun a b => ready mb D (fst a) (fst b) /\ ready mb D s (fst a) /\ Forall2 same_mat (id_diff (fst a)) (id_diff (fst b)) /\ snd a = snd b /\ id_set (fst a) = id_set s)
      (loops mb m jacs s) (loops mb m jacs s').
Proof.
  intros W H. assert (EN : nrJoints mb = nrBodies mb) by exact (wf_joints mb W). unfold loops. eapply rel_bind.
  - apply (rel_for_up (bloop mb D s)).
    + split; [exact H|]. split; [eapply rd_self; eauto|]. split; [split; [apply H|split; [apply H|intros; lia]]|].
      split; [|auto]. eapply lagr_weak; [apply H|]. intros. lia.
    + intros i a b _ K. now apply isd_body_rel.
  - intros [t acc] [t' acc'] (H1 & H2 & H3 & H4 & E & ES). cbn [fst snd] in *. subst acc'. cbv zeta.
    eapply rel_bind.
    + apply (rel_for_down (tloop mb D s)).
      * split; [exact H1|]. split; [exact H2|]. split; [apply (agr_eq _ _ _ _ H3); auto|]. split; [eapply lagr_weak; [exact H4|]; auto|].
        split; [|auto]. split; [apply H1|]. split; [apply H1|]. intros k a b Ea _ Hk. exfalso. assert (k < length (id_diff t)) by (apply nth_error_Some; congruence).
        rewrite (rd_diff _ _ _ _ H1) in *. lia.
      * intros i a b _ K. now apply isd_torque_rel.
    + intros a b (K1 & K2 & K3 & K4 & K5 & K6). cbn [rel fst snd]. split; [auto|]. split; [auto|]. split; [|auto].
      eapply lagr_forall; [exact K5|]. intros k x y _ K. apply K. lia.
Qed.
(** Before and after the first sizing. *)
Definition sized (mb : MultiBody) (N : nat) (s0 s : ISd) : Prop :=
  if id_set s then ready mb (Nat.max N (mb_nrDof mb)) s s /\ vsame mb (id_jac s0) (id_jac s)
  else ready mb (mb_nrDof mb) s s /\ vsame mb (id_jac s0) (id_jac s).
Lemma wanted mb jacs : length jacs = nrBodies mb -> is_wanted mb jacs = Ok (list_max (map mcols jacs)).
Proof.
  intros L. unfold is_wanted.
  destruct (for_up_inv (fun i w => w = list_max (map mcols (firstn i jacs))) (fun i w => J <- get jacs i ;; Ok (if (w <? mcols J) then mcols J else w)) (nrBodies mb) 0) as (w & E & H).
  - reflexivity.
  - intros i w Hi ->. destruct (nth_error jacs i) as [J|] eqn:EJ; [|apply nth_error_None in EJ; lia].
    unfold get. rewrite EJ. cbn [bind]. eexists. split; [reflexivity|].
    assert (F : firstn (S i) jacs = firstn i jacs ++ [J]).
    { clear -EJ. revert i EJ. induction jacs as [|x l IH]; intros [|i] EJ; simpl in *; try discriminate; [congruence|]. f_equal. auto. }
    rewrite F, map_app, list_max_app. simpl. destruct (Nat.ltb_spec (list_max (map mcols (firstn i jacs))) (mcols J)); lia.
  - rewrite E. f_equal. rewrite H, <- L, firstn_all. reflexivity.
Qed.
Lemma resize_ok mb m want s : ready mb (mb_nrDof mb) s s -> nrBodies mb <= length (motionSubspace m) ->
  exists s', for_up (nrBodies mb) (is_resize m want) s = Ok s' /\ ready mb (Nat.max want (mb_nrDof mb)) s' s' /\ id_jac s' = id_jac s.
Proof.
  intros H LM. set (D := Nat.max want (mb_nrDof mb)).
  destruct (for_up_inv (fun i t => id_jac t = id_jac s /\ id_f t = id_f s /\ id_full t = id_full s /\ length (id_diff t) = nrBodies mb /\ length (id_df t) = nrBodies mb /\
     forall k d, nth_error (id_df t) k = Some d -> mrows d = 6 /\ mcols d = if k <? i then D else mb_nrDof mb) (is_resize m want) (nrBodies mb) s) as (t & E & K).
  - split; [auto|]. split; [auto|]. split; [auto|]. split; [apply H|]. split; [apply H|]. intros k d Ed. destruct (rd_df _ _ _ _ H) as (_ & _ & G).
    destruct (G _ _ _ Ed Ed) as (G1 & G2 & _). auto.
  - intros i t Hi (K1 & K2 & K3 & K4 & K5 & K6). unfold is_resize.
    destruct (nth_error (id_df t) i) as [d|] eqn:Ed; [|apply nth_error_None in Ed; lia]. destruct (K6 _ _ Ed) as [R1 R2]. rewrite Nat.ltb_irrefl in R2.
    unfold get at 1. rewrite Ed. cbn [bind]. destruct (nth_error (motionSubspace m) i) as [ms|] eqn:Em; [|apply nth_error_None in Em; lia].
    unfold set at 1. rewrite K5, (proj2 (Nat.ltb_lt _ _) Hi). cbn [bind]. unfold get at 1. rewrite Em. cbn [bind].
    unfold set at 1. rewrite K4, (proj2 (Nat.ltb_lt _ _) Hi). cbn [bind]. eexists. split; [reflexivity|]. simpl. rewrite !upd_length.
    split; [auto|]. split; [auto|]. split; [auto|]. split; [auto|]. split; [auto|]. intros k e Ee.
    destruct (Nat.eq_dec k i) as [->|Hk].
    + rewrite nth_error_upd_eq in Ee by congruence. injection Ee as <-. rewrite (proj2 (Nat.ltb_lt i (S i))) by lia. unfold D.
      rewrite R2. destruct (Nat.ltb_spec (mb_nrDof mb) want); simpl; rewrite ?R1, ?R2; split; auto; lia.
    + rewrite nth_error_upd_neq in Ee by auto. destruct (K6 _ _ Ee) as [G1 G2]. split; [auto|]. rewrite G2.
      destruct (Nat.ltb_spec k i), (Nat.ltb_spec k (S i)); auto; lia.
  - exists t. split; [exact E|]. destruct K as (K1 & K2 & K3 & K4 & K5 & K6). split; [|auto]. destruct H. constructor; try congruence.
    split; [auto|]. split; [auto|]. intros k a b Ea Eb. rewrite Ea in Eb. injection Eb as <-. destruct (K6 _ _ Ea) as [G1 G2].
    assert (k < nrBodies mb) by (rewrite <- K5; apply nth_error_Some; congruence). rewrite (proj2 (Nat.ltb_lt _ _)) in G2 by auto. repeat split; auto.
Qed.
Lemma size_ok mb m jacs s0 s : sized mb (list_max (map mcols jacs)) s0 s -> length jacs = nrBodies mb -> nrBodies mb <= length (motionSubspace m) ->
  exists s1, (if id_set s then Ok s else setJacobianSize mb m jacs s) = Ok s1 /\ id_set s1 = true /\
    ready mb (Nat.max (list_max (map mcols jacs)) (mb_nrDof mb)) s1 s1 /\ vsame mb (id_jac s0) (id_jac s1).
Proof.
  intros H L LM. unfold sized in H. destruct (id_set s) eqn:ES; [exists s; destruct H; auto|]. destruct H as [H HV].
  unfold setJacobianSize. rewrite wanted by auto. cbn [bind]. destruct (resize_ok mb m (list_max (map mcols jacs)) s H LM) as (t & E & K & EJ).
  rewrite E. cbn [bind]. eexists. split; [reflexivity|]. split; [reflexivity|]. split; [destruct K; constructor; auto|]. simpl. now rewrite EJ.
Qed.
Lemma mix_ready mb D s0 s s' : ready mb D s s -> ready mb D s' s' -> vsame mb (id_jac s0) (id_jac s) -> vsame mb (id_jac s0) (id_jac s') -> ready mb D s s'.
Proof.
  intros H K V V'. destruct H, K. constructor; auto; [|eapply lagr_dims_mix; eauto|eapply dims_mix; eauto].
  eapply vsame_trans; [apply vsame_sym; exact V|exact V'].
Qed.
Lemma is_len mb f m f' m' : inverseStatics mb f m = Ok (f', m') -> length f' = length f.
Proof.
  unfold inverseStatics. intros H. apply bind_Ok in H. destruct H as ([acc g] & E & H). apply bind_Ok in H. destruct H as ([jt h] & E2 & H). injection H as <- _. cbn [fst snd] in *.
  assert (L : length g = length f).
  { apply (for_up_inv_partial (fun _ t => length (snd t) = length f)) in E; [exact E|reflexivity|]. intros i [x y] [x' y'] _ L K. simpl in L. unfold is_body in K.
    repeat (apply bind_Ok in K; destruct K as (? & ? & K)). injection K as <- <-. simpl.
    match goal with S : set y i _ = Ok _ |- _ => unfold set in S; destruct (i <? length y); [injection S as <-; now rewrite upd_length|discriminate] end. }
  apply (for_down_inv_partial (fun _ t => length (snd t) = length f)) in E2; [exact E2|exact L|]. intros i [x y] [x' y'] _ L' K. simpl in L'. unfold is_torque in K.
  apply bind_Ok in K. destruct K as (ti & _ & K). apply bind_Ok in K. destruct K as (j & _ & K). apply bind_Ok in K. destruct K as (fi & _ & K). apply bind_Ok in K. destruct K as (ms & _ & K).
  destruct (length ms =? jdof j); [|discriminate]. apply bind_Ok in K. destruct K as (t2 & _ & K). apply bind_Ok in K. destruct K as (jt2 & _ & K). apply bind_Ok in K. destruct K as (pr & _ & K).
  destruct (negb (pr =? -1)%Z); [|injection K as <- <-; exact L'].
  apply bind_Ok in K. destruct K as (fp & _ & K). apply bind_Ok in K. destruct K as (X & _ & K). apply bind_Ok in K. destruct K as (f2 & S & K). injection K as <- <-. simpl.
  unfold setz, set in S. destruct (pr <? 0)%Z; [discriminate|]. destruct (_ <? _); [injection S as <-; now rewrite upd_length|discriminate].
Qed.
Lemma ctor_map_rel g g' mb l : rel (vsame mb) (map_res (fun i => b <- get (mb_bodies mb) i ;; Jacobian_ctor (g i) mb (bname b) v0) l)
  (map_res (fun i => b <- get (mb_bodies mb) i ;; Jacobian_ctor (g' i) mb (bname b) v0) l).
Proof.
  induction l as [|i l IH]; cbn [map_res]; [simpl; constructor|]. eapply rel_bind.
  - apply rel_bs; intros b _. apply (ctor_jac_rel (g i) (g' i)).
  - intros J J' HJ. eapply rel_bind; [exact IH|]. intros x y Hxy. simpl. constructor; auto.
Qed.
Lemma ctor_sized mb N g gf s0 g' gf' s : wf_mb mb -> ISd_ctor g gf mb = Ok s0 -> ISd_ctor g' gf' mb = Ok s -> sized mb N s0 s.
Proof.
  intros W H H'. unfold ISd_ctor in *. apply bind_Ok in H. destruct H as (js & E & H). apply bind_Ok in H'. destruct H' as (js' & E' & H'). injection H as <-. injection H' as <-.
  pose proof (rel_Ok _ _ _ _ _ (ctor_map_rel g g' mb _) E E') as HV. unfold sized. simpl. split; [|exact HV].
  constructor; simpl; rewrite ?map_length, ?seq_length; auto; try apply (wf_joints mb W).
  - eapply vsame_refl. apply vsame_sym. exact HV.
  - split; [now rewrite map_length, seq_length|]. split; [now rewrite map_length, seq_length|]. intros k a b Ea Eb. rewrite Ea in Eb. injection Eb as <-.
    rewrite nth_error_map in Ea. destruct (nth_error (seq 0 (nrBodies mb)) k); [|discriminate]. injection Ea as <-. repeat split.
  - repeat split.
Qed.
Lemma torque_loops mb m jacs s : computeTorqueJacobianJoint mb m jacs s =
  if (length jacs =? nrBodies mb) then s <- (if id_set s then Ok s else setJacobianSize mb m jacs s) ;; loops mb m jacs s else UB.
Proof. reflexivity. Qed.
Lemma ms_len m want s : forall n t, for_up n (is_resize m want) s = Ok t -> n <= length (motionSubspace m).
Proof.
  intros n t E. destruct (Nat.lt_ge_cases (length (motionSubspace m)) n) as [L|L]; [|auto]. exfalso.
  apply (for_up_inv_partial (fun i _ => i <= length (motionSubspace m))) in E; [lia|lia|].
  intros i x y _ Hi K. unfold is_resize in K. apply bind_Ok in K. destruct K as (d & _ & K). apply bind_Ok in K. destruct K as (df & _ & K). apply bind_Ok in K. destruct K as (ms & Em & _).
  apply get_Ok in Em. assert (i < length (motionSubspace m)) by (apply nth_error_Some; congruence). lia.
Qed.
Lemma is_step mb N s0 s s' : wf_mb mb -> sized mb N s0 s -> is_call_of N mb s s' -> sized mb N s0 s'.
Proof.
  intros W H C. destruct C as [m f' m' E|m jacs s' m' EN E].
  - apply is_len in E. unfold sized in *. simpl. destruct (id_set s); destruct H as [H HV]; (split; [|exact HV]); destruct H; constructor; simpl; auto; congruence.
  - subst N. rewrite torque_loops in E. destruct (Nat.eqb_spec (length jacs) (nrBodies mb)) as [L|]; [|discriminate].
    assert (LM : id_set s = false -> nrBodies mb <= length (motionSubspace m)).
    { intros ES. rewrite ES in E. apply bind_Ok in E. destruct E as (t & E & _). unfold setJacobianSize in E. apply bind_Ok in E. destruct E as (w & _ & E).
      apply bind_Ok in E. destruct E as (u & E & _). eapply ms_len; eauto. }
    assert (G : exists s1, (if id_set s then Ok s else setJacobianSize mb m jacs s) = Ok s1 /\ id_set s1 = true /\
      ready mb (Nat.max (list_max (map mcols jacs)) (mb_nrDof mb)) s1 s1 /\ vsame mb (id_jac s0) (id_jac s1)).
    { destruct (id_set s) eqn:ES; [|pose proof (size_ok mb m jacs s0 s H L (LM eq_refl)) as G; rewrite ES in G; exact G].
      exists s. unfold sized in H. rewrite ES in H. destruct H. auto. }
    destruct G as (s1 & E1 & S1 & R1 & V1). rewrite E1 in E. cbn [bind] in E.
    pose proof (rel_Ok _ _ _ _ _ (loops_rel mb m jacs _ s1 s1 W R1) E E) as (K1 & K2 & _ & _ & K5). cbn [fst] in *.
    unfold sized. rewrite K5, S1. split; [exact K1|]. eapply vsame_trans; [exact V1|apply K2].
Qed.
Lemma is_hist mb N g gf s0 s : wf_mb mb -> ISd_ctor g gf mb = Ok s0 -> is_history_of N mb s -> sized mb N s0 s.
Proof.
  intros W H0 H. induction H as [s (g' & gf' & H)|s s' H IH C]; [eapply ctor_sized; eauto|]. eapply is_step; eauto.
Qed.
Lemma is_all mb N s s' m jacs : wf_mb mb -> is_history_of N mb s -> is_history_of N mb s' ->
  list_max (map mcols jacs) = N -> length (motionSubspace m) = nrBodies mb ->
  same_outcome (fun a b => Forall2 same_mat (id_diff (fst a)) (id_diff (fst b)) /\ snd a = snd b)
    (computeTorqueJacobianJoint mb m jacs s) (computeTorqueJacobianJoint mb m jacs s').
Proof.
  intros W H H' <- LM. destruct (history_new _ _ _ H) as [s0 (g & gf & H0)].
  pose proof (is_hist _ _ _ _ _ _ W H0 H) as S. pose proof (is_hist _ _ _ _ _ _ W H0 H') as S'.
  rewrite !torque_loops. destruct (Nat.eqb_spec (length jacs) (nrBodies mb)) as [L|]; [|simpl; auto].
  destruct (size_ok mb m jacs s0 s S L ltac:(lia)) as (s1 & E1 & _ & R1 & V1). destruct (size_ok mb m jacs s0 s' S' L ltac:(lia)) as (s2 & E2 & _ & R2 & V2).
  rewrite E1, E2. cbn [bind].
  eapply (rel_mono _ (fun a b => Forall2 same_mat (id_diff (fst a)) (id_diff (fst b)) /\ snd a = snd b)); [eapply loops_rel; [exact W|eapply mix_ready; eauto]|].
  intros a b (_ & _ & K1 & K2 & _). auto.
Qed.
(** The torques themselves, whatever the widths. *)
Lemma set_length {A} (l : list A) i a l' : set l i a = Ok l' -> length l' = length l.
Proof. unfold set. destruct (i <? length l); intros H; [injection H as <-; apply upd_length|discriminate]. Qed.
Lemma setz_length {A} (l : list A) i a l' : setz l i a = Ok l' -> length l' = length l.
Proof. unfold setz. destruct (i <? 0)%Z; [discriminate|]. apply set_length. Qed.
Lemma resize_f m want s : forall n t, for_up n (is_resize m want) s = Ok t -> id_f t = id_f s.
Proof.
  intros n t E. apply (for_up_inv_partial (fun _ t => id_f t = id_f s)) in E; auto. intros i x y _ Hi K. unfold is_resize in K.
  apply bind_Ok in K. destruct K as (d & _ & K). apply bind_Ok in K. destruct K as (df & _ & K). apply bind_Ok in K. destruct K as (ms & _ & K). apply bind_Ok in K. destruct K as (df2 & _ & K).
  injection K as <-. exact Hi.
Qed.
Lemma call_len mb s s' : is_call mb s s' -> length (id_f s') = length (id_f s).
Proof.
  intros C. destruct C as [m f' m' E|m jacs s' m' E]; [apply is_len in E; exact E|].
  rewrite torque_loops in E. destruct (_ =? _); [|discriminate]. apply bind_Ok in E. destruct E as (s1 & E1 & E).
  assert (L1 : id_f s1 = id_f s).
  { destruct (id_set s); [injection E1 as <-; auto|]. unfold setJacobianSize in E1. apply bind_Ok in E1. destruct E1 as (w & _ & E1). apply bind_Ok in E1. destruct E1 as (u & E1 & E2).
    injection E2 as <-. simpl. eapply resize_f; eauto. }
  rewrite <- L1. unfold loops in E. apply bind_Ok in E. destruct E as ([t acc] & E2 & E). apply bind_Ok in E. destruct E as (u & E3 & E). injection E as <- _. cbn [fst snd] in E3.
  assert (L2 : length (id_f t) = length (id_f s1)).
  { apply (for_up_inv_partial (fun _ t => length (id_f (fst t)) = length (id_f s1))) in E2; [exact E2|reflexivity|].
    intros i [x a] [y b] _ L K. simpl in L |- *. rewrite <- L. unfold isd_body in K.
    apply bind_Ok in K. destruct K as (d & _ & K). cbv zeta in K. apply bind_Ok in K. destruct K as (J & _ & K). apply bind_Ok in K. destruct K as (J2 & _ & K). apply bind_Ok in K. destruct K as (js & _ & K).
    apply bind_Ok in K. destruct K as (full & _ & K). apply bind_Ok in K. destruct K as (Xw & _ & K). apply bind_Ok in K. destruct K as (acc2 & _ & K). apply bind_Ok in K. destruct K as (bo & _ & K).
    apply bind_Ok in K. destruct K as (ai & _ & K). apply bind_Ok in K. destruct K as (fe & _ & K). apply bind_Ok in K. destruct K as (f & Ef & K). apply bind_Ok in K. destruct K as (d2 & _ & K).
    apply bind_Ok in K. destruct K as (JF & _ & K). apply bind_Ok in K. destruct K as (d3 & _ & K). apply bind_Ok in K. destruct K as (df & _ & K). injection K as <- <-. simpl. eapply set_length; eauto. }
  rewrite <- L2. apply (for_down_inv_partial (fun _ x => length (id_f x) = length (id_f t))) in E3; [exact E3|reflexivity|].
  intros i x y _ L K. rewrite <- L. unfold isd_torque in K.
  apply bind_Ok in K. destruct K as (ms & _ & K). apply bind_Ok in K. destruct K as (d & _ & K). apply bind_Ok in K. destruct K as (diff & _ & K). apply bind_Ok in K. destruct K as (pr & _ & K).
  destruct (negb (pr =? -1)%Z); [|injection K as <-; auto].
  apply bind_Ok in K. destruct K as (X & _ & K). apply bind_Ok in K. destruct K as (fp & _ & K). apply bind_Ok in K. destruct K as (fi & _ & K). apply bind_Ok in K. destruct K as (f & Ef & K).
  apply bind_Ok in K. destruct K as (dp & _ & K). apply bind_Ok in K. destruct K as (dp2 & _ & K). apply bind_Ok in K. destruct K as (Xj & _ & K). apply bind_Ok in K. destruct K as (fi2 & _ & K).
  apply bind_Ok in K. destruct K as (j & _ & K). apply bind_Ok in K. destruct K as (pos & _ & K). apply bind_Ok in K. destruct K as (Xt & _ & K). apply bind_Ok in K. destruct K as (dp3 & _ & K).
  apply bind_Ok in K. destruct K as (df & _ & K). injection K as <-. simpl. eapply setz_length; eauto.
Qed.
Lemma is_flen mb s : is_history mb s -> length (id_f s) = nrBodies mb.
Proof.
  intros H. induction H as [s (g & gf & H)|s s' H IH C].
  - unfold ISd_ctor in H. apply bind_Ok in H. destruct H as (js & _ & H). injection H as <-. simpl. now rewrite map_length, seq_length.
  - apply call_len in C. congruence.
Qed.
Lemma statics_rel mb m f f' : length f = nrBodies mb -> length f' = nrBodies mb ->
  rel (fun a b => a = b) (inverseStatics mb f m) (inverseStatics mb f' m).
Proof.
  intros L L'. unfold inverseStatics. eapply rel_bind.
  - apply (rel_for_up (fun i s s' => fst s = fst s' /\ agr (nrBodies mb) (fun k => k < i) (snd s) (snd s'))); [split; [auto|split; [auto|split; [auto|intros; lia]]]|].
    intros i [x y] [x' y'] _ [H1 H2]. simpl in H1, H2. subst x'. unfold is_body. apply rel_bs; intros X _. apply rel_bs; intros acc _. apply rel_bs; intros b _. apply rel_bs; intros ai _. apply rel_bs; intros fe _.
    eapply rel_bind; [apply rel_set; exact H2|]. intros u v Huv. simpl. split; [auto|]. apply (agr_weak _ _ _ _ _ Huv). intros. lia.
  - intros [x y] [x' y'] [H1 H2]. simpl in H1, H2. subst x'. assert (E : y = y') by (apply (agr_eq _ _ _ _ H2); auto). subst y'. apply rel_same. auto.
Qed.
Lemma statics_all mb s s' m : is_history mb s -> is_history mb s' ->
  seen snd (inverseStatics mb (id_f s) m) = seen snd (inverseStatics mb (id_f s') m).
Proof.
  intros H H'. apply rel_seen. eapply rel_mono; [apply statics_rel; now apply is_flen|]. intros a b ->. auto.
Qed.
