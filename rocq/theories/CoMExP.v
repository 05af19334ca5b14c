(** Examples for the CoM and momentum theorems; the safe weight setter. *)
From Coq Require Import Reals String ZArith Bool Arith List Lia Lra.
From Verif Require Import Res ResP SMap Vec VecP Sva SvaP Mat JointM MultiBodyM KinM DynM JacM CoMM MomM Spec SpecDyn SpecJac SpecCoM
  KinFinP KinPathP MbP TreeP DynP DerivTreeP JacP JacFinP CoMFinP ConfFinP SpecDeriv Ex DynExP DerivExP JacExP CoMP CoMLoopP CoMCtorP CoMTopP MomTopP.
Import ListNotations.
Open Scope R_scope.

Lemma ex_tm : 0 < total_mass_of ex_mb.
Proof. unfold total_mass_of, mass_of, inertia_of. cbn. lra. Qed.
Lemma ex_tm0 : total_mass_of ex_mb <> 0.
Proof. pose proof ex_tm. lra. Qed.
Lemma ex_sane : sane_masses ex_mb.
Proof.
  intros i Hi. left. unfold mass_of, inertia_of.
  destruct i as [|[|[|[|i]]]]; cbn; try lra. exfalso. cbn in Hi. lia.
Qed.
Lemma ex_names : names_ok ex_mb.
Proof.
  apply (names_distinct ex_bodies ex_joints ex_pred ex_succ ex_pred ex_Xt); [apply Nat.leb_le; reflexivity|exact ex_ctor|].
  cbn. repeat constructor; cbn; intuition discriminate.
Qed.
Lemma exd_tm : 0 < total_mass_of exd_mb.
Proof. unfold total_mass_of, mass_of, inertia_of. cbn. lra. Qed.
Lemma exd_com : com_of exd_mb (own_com exd_mb).
Proof.
  apply own_com_of. intros i Hi. left. unfold mass_of, inertia_of.
  destruct i as [|[|[|[|i]]]]; cbn; try lra. exfalso. cbn in Hi. lia.
Qed.
Definition ex_w : list R := [1; 2; 0; -3].

(** ** sWeight *)
Lemma for_up_stop {S} (I : nat -> S -> Prop) (body : nat -> S -> res S) n k s0 : (k < n)%nat -> I 0%nat s0 ->
  (forall i s, (i < k)%nat -> I i s -> exists s', body i s = Ok s' /\ I (Datatypes.S i) s') ->
  (forall s, I k s -> body k s = UB) -> for_up n body s0 = UB.
Proof.
  intros Hk I0 ST UBk. unfold for_up.
  assert (G : forall d lo n s, (lo + d = k)%nat -> (d < n)%nat -> I lo s -> for_from lo n body s = UB).
  { induction d as [|d IH]; intros lo [|n'] s E Hn Is; try lia; cbn [for_from].
    - replace lo with k in * by lia. now rewrite UBk.
    - destruct (ST lo s ltac:(lia) Is) as (s' & E' & Is'). rewrite E'. cbn [bind]. apply IH; auto; lia. }
  apply (G k); auto.
Qed.
Lemma nth_firstn_lt {A} (l : list A) n i d : (i < n)%nat -> nth i (firstn n l) d = nth i l d.
Proof. revert n i. induction l as [|a l IH]; intros [|n] [|i] H; cbn; auto; try lia. apply IH. lia. Qed.
Lemma sWeight_short mb w c w' : total_mass_of mb <> 0 -> comj_of mb w c -> (length w' < nrBodies mb)%nat -> sWeight mb w' c = UB.
Proof.
  intros Z H L. unfold sWeight. rewrite (cjo_coeff _ _ _ H), garbage_length, Nat.eqb_refl. cbn [negb].
  rewrite (cjo_weight _ _ _ H), (cjo_w _ _ _ H), Nat.eqb_refl. cbn [negb].
  unfold set_weight, updateInertialParameters. rewrite total_mass_ok. cbn [bind with_weight cj_weight cj_coeff cj_com].
  rewrite (for_up_stop (fun i s => length (fst s) = nrBodies mb /\ length (snd s) = nrBodies mb) _ (nrBodies mb) (length w')); auto.
  - cbn [fst snd]. rewrite (cjo_coeff _ _ _ H), (cjo_com _ _ _ H), !garbage_length. auto.
  - intros i s Hi (La & Lb). unfold upd_step. rewrite get_body by lia. cbn [bind]. rewrite (get_nth w' i 0) by auto. cbn [bind].
    unfold rdiv. destruct (Req_EM_T (total_mass_of mb) 0); [contradiction|]. cbn [bind].
    rewrite set_ok by lia. cbn [bind]. rewrite set_ok by lia. cbn [bind]. eexists. split; [reflexivity|]. cbn [fst snd]. now rewrite !upd_length.
  - intros s _. unfold upd_step. rewrite get_body by lia. cbn [bind]. unfold get. rewrite (proj2 (nth_error_None w' (length w'))) by lia. reflexivity.
Qed.
Lemma sWeight_long mb w c w' : total_mass_of mb <> 0 -> comj_of mb w c -> (nrBodies mb < length w')%nat ->
  exists c', sWeight mb w' c = Ok c' /\ comj_of mb (firstn (nrBodies mb) w') (with_weight (firstn (nrBodies mb) w') c').
Proof.
  intros Z H L. unfold sWeight. rewrite (cjo_coeff _ _ _ H), garbage_length, Nat.eqb_refl. cbn [negb].
  rewrite (cjo_weight _ _ _ H), (cjo_w _ _ _ H), Nat.eqb_refl. cbn [negb].
  unfold set_weight, updateInertialParameters. rewrite total_mass_ok. cbn [bind with_weight cj_weight cj_coeff cj_com].
  rewrite (for_fill2 (fun i => mass_of mb i * nth i w' 0 / total_mass_of mb) (fun i => pttr (own_com mb i)) 0 ptid).
  - cbn [bind fst snd]. eexists. split; [reflexivity|]. destruct H. constructor; auto.
    + cbn [with_com with_coeff with_weight cj_coeff]. apply map_ext_in. intros i Hi. apply in_seq in Hi. now rewrite nth_firstn_lt by lia.
    + rewrite firstn_length. lia.
  - cbn [fst]. rewrite (cjo_coeff _ _ _ H). apply garbage_length.
  - cbn [snd]. rewrite (cjo_com _ _ _ H). apply garbage_length.
  - intros i s Hi La Lb. unfold upd_step. rewrite get_body by auto. cbn [bind]. rewrite (get_nth w' i 0) by lia. cbn [bind].
    unfold rdiv. destruct (Req_EM_T (total_mass_of mb) 0); [contradiction|]. cbn [bind]. reflexivity.
Qed.
Lemma sWeight_ok mb w c w' : wf_mb mb -> total_mass_of mb <> 0 -> comj_of mb w c -> length w' = nrBodies mb ->
  exists c', sWeight mb w' c = Ok c' /\ comj_of mb w' c'.
Proof.
  intros W Z H L. unfold sWeight. rewrite (cjo_coeff _ _ _ H), garbage_length, Nat.eqb_refl. cbn [negb].
  rewrite (cjo_weight _ _ _ H), (cjo_w _ _ _ H), Nat.eqb_refl. cbn [negb]. eapply set_weight_ok; eauto.
Qed.
Lemma sWeight_other mb mb' w c w' : comj_of mb w c -> nrBodies mb' <> nrBodies mb -> sWeight mb' w' c = Throw DomainError.
Proof.
  intros H L. unfold sWeight. rewrite (cjo_coeff _ _ _ H), garbage_length.
  destruct (Nat.eqb_spec (nrBodies mb) (nrBodies mb')); [congruence|reflexivity].
Qed.

(** C28 and C30 in the form of the property file. *)
Lemma anc_path mb k b : wf_mb mb -> (k < nrBodies mb)%nat -> (anc mb k b <-> exists path, root_path mb b path /\ In k path).
Proof.
  intros W Hk. split.
  - intro A. destruct (anc_lt mb k b W Hk A) as (_ & Hb). destruct (root_path_exists mb W b Hb) as (l & RP). exists l. split; [exact RP|].
    now apply (root_path_anc mb b l W RP k).
  - intros (l & RP & I). now apply (root_path_anc mb b l W RP k).
Qed.
Lemma sub_bodies g gm mb w c : wf_mb mb -> total_mass_of mb <> 0 ->
  CoMJ_ctor g gm mb = Ok c \/ CoMJ_ctor_w g gm mb w = Ok c ->
  length (cj_sub c) = nrBodies mb /\
  forall k, (k < nrBodies mb)%nat -> exists l, nth_error (cj_sub c) k = Some (map Z.of_nat l) /\ NoDup l /\
    forall b, In b l <-> exists path, root_path mb b path /\ In k path.
Proof.
  intros W Z H. assert (G : exists w', comj_of mb w' c).
  { destruct H as [H|H].
    - destruct (CoMJ_ctor_ok g gm mb W Z) as (c' & E & H'). rewrite H in E. injection E as <-. eauto.
    - destruct (Nat.eq_dec (length w) (nrBodies mb)) as [L|L].
      + destruct (proj1 (CoMJ_ctor_w_ok g gm mb w W Z) L) as (c' & E & H'). rewrite H in E. injection E as <-. eauto.
      + rewrite (proj2 (CoMJ_ctor_w_ok g gm mb w W Z) L) in H. discriminate. }
  destruct G as (w' & G). split; [apply G|]. intros k Hk. destruct (cjo_sub _ _ _ G k Hk) as (l & E & ND & P).
  exists l. split; [exact E|]. split; [exact ND|]. intro b. rewrite P. now apply anc_path.
Qed.
Lemma momentum_linear mb m0 m : wf_mb mb -> rigid_mb mb -> mbc_ok mb m0 -> config_ok mb m0 -> after_kinematics mb m0 m ->
  0 < total_mass_of mb -> forall c com, com_of mb c ->
  exists h v, computeCentroidalMomentum mb m com = Ok h /\ computeCoMVelocity mb m = Ok v /\ slin h = vscale (total_mass_of mb) v.
Proof.
  intros W RM K0 C0 A TM c com CM. do 2 eexists. split; [exact (top_momentum mb m0 m W RM K0 C0 A com)|].
  split; [exact (top_comv mb m0 m W RM K0 C0 A TM c CM)|].
  apply top_momentum_lin; auto. lra.
Qed.
Lemma ex_subs : exists c l0 l1, CoMJ_ctor ex_garbage (fun _ _ _ => 7) ex_mb = Ok c /\
  nth_error (cj_sub c) 0 = Some (map Z.of_nat l0) /\ In 3%nat l0 /\ nth_error (cj_sub c) 1 = Some (map Z.of_nat l1) /\ ~ In 3%nat l1.
Proof.
  destruct (CoMJ_ctor_ok ex_garbage (fun _ _ _ => 7) ex_mb ex_wf ex_tm0) as (c & E & H). 
  destruct (cjo_sub _ _ _ H 0 ltac:(apply Nat.ltb_lt; reflexivity)) as (l0 & E0 & _ & P0).
  destruct (cjo_sub _ _ _ H 1 ltac:(apply Nat.ltb_lt; reflexivity)) as (l1 & E1 & _ & P1).
  assert (RP : root_path ex_mb 3 [0; 3]%nat).
  { change [0; 3]%nat with ([0] ++ [3])%nat. apply (rp_step ex_mb 3 0); [reflexivity|]. now apply rp_root. }
  exists c, l0, l1. do 2 (split; [assumption|]). split; [|split; [assumption|]].
  - apply P0. apply (root_path_anc ex_mb 3 _ ex_wf RP 0). now left.
  - intro I. apply P1 in I. apply (root_path_anc ex_mb 3 _ ex_wf RP 1) in I. cbn in I. intuition discriminate.
Qed.
Lemma exd_momentum : exists K h, (forall s, computeCentroidalMomentum exd_mb (K s) (mkV3 s 0 0) = Ok (h s)) /\
  forall t, exists m3 hd, forwardAcceleration exd_mb (K t) sv0 = Ok m3 /\
    computeCentroidalMomentumDot exd_mb m3 (mkV3 t 0 0) (mkV3 1 0 0) = Ok hd /\ derivS h t hd.
Proof.
  destruct exd_kin as (K & HK). eexists K, _. split.
  - intro s. exact (top_momentum exd_mb _ (K s) exd_wf exd_rigid (exd_ok s) (exd_config s) (HK s) (mkV3 s 0 0)).
  - intro t. destruct (FA_total exd_mb (K t) sv0 exd_wf) as (m3 & F & _).
    { destruct (kin_run exd_mb _ (K t) exd_wf exd_rigid (exd_ok t) (exd_config t) (HK t)); auto. }
    exists m3. eexists. split; [exact F|].
    split; [exact (top_momentumDot exd_mb _ (K t) exd_wf exd_rigid (exd_ok t) (exd_config t) (HK t) (mkV3 t 0 0) (mkV3 1 0 0) sv0 m3 F)|].
    eapply (traj_momentum exd_mb exd_M K t exd_wf exd_rigid exd_regular exd_ok exd_config HK (exd_follows t) (fun s => mkV3 s 0 0) (mkV3 1 0 0) _ _ m3); eauto.
    + apply exd_alphaD.
    + split; [|split]; cbn; [apply derivable_pt_lim_id|apply derivable_pt_lim_const|apply derivable_pt_lim_const].
    + intro s. exact (top_momentum exd_mb _ (K s) exd_wf exd_rigid (exd_ok s) (exd_config s) (HK s) (mkV3 s 0 0)).
    + exact (top_momentumDot exd_mb _ (K t) exd_wf exd_rigid (exd_ok t) (exd_config t) (HK t) (mkV3 t 0 0) (mkV3 1 0 0) sv0 m3 F).
Qed.
