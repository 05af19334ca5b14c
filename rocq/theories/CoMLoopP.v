(** The loops over joints, sub-bodies and dofs of the CoM Jacobian. *)
From Coq Require Import Reals String ZArith Bool Arith List Lia Lra.
From Verif Require Import Res ResP SMap Vec VecP Sva SvaP Mat JointM MultiBodyM KinM DynM JacM CoMM MomM Spec SpecDyn SpecJac SpecCoM
  JointP KinP KinPathP MbP TreeP DynP DynCP ConvP KinFinP SpecDeriv DerivP DerivTreeP JacP JacFinP JacFin2P JacBlkP CoMP.
Import ListNotations.
Open Scope R_scope.

Definition eff (M M' : Mat) (h : nat -> nat -> R) : Prop :=
  mrows M' = mrows M /\ mcols M' = mcols M /\ forall r x, (r < 3)%nat -> ment M' r x = ment M r x + h r x.
Lemma eff_refl M h : (forall r x, (r < 3)%nat -> h r x = 0) -> eff M M h.
Proof. intro Z. do 2 (split; [auto|]). intros. rewrite Z by auto. ring. Qed.
Lemma eff_trans M M1 M2 h1 h2 h : eff M M1 h1 -> eff M1 M2 h2 -> (forall r x, (r < 3)%nat -> h r x = h1 r x + h2 r x) -> eff M M2 h.
Proof.
  intros (A & B & C) (A' & B' & C') E. split; [congruence|]. split; [congruence|].
  intros r x Hr. rewrite C', C, E by auto. ring.
Qed.
Definition inw (p D x : nat) : bool := (p <=? x)%nat && (x <? p + D)%nat.
Lemma inw_S p D x : inw p (S D) x = inw p D x || (x =? p + D)%nat.
Proof.
  unfold inw. destruct (Nat.leb_spec p x), (Nat.ltb_spec x (p + S D)), (Nat.ltb_spec x (p + D)), (Nat.eqb_spec x (p + D)); auto; lia.
Qed.

Lemma add_col_ok M c v k : mrows M = 3%nat -> (c < mcols M)%nat ->
  exists M', add_col M c v k = Ok M' /\ eff M M' (fun r x => if (x =? c)%nat then vcoef r v * k else 0).
Proof.
  intros H3 Hc. unfold add_col, add_block. rewrite (proj2 (andb_true_iff _ _)) by (split; apply Nat.leb_le; lia).
  eexists. split; [reflexivity|]. do 2 (split; [reflexivity|]). intros r x Hr. cbn [ment]. unfold in_block.
  rewrite (proj2 (Nat.ltb_lt r (0 + 3))) by lia. cbn [Nat.leb andb].
  destruct (Nat.eqb_spec x c) as [->|N].
  - rewrite Nat.leb_refl, (proj2 (Nat.ltb_lt _ _)) by lia. cbn [andb]. now rewrite Nat.sub_0_r.
  - destruct (Nat.leb_spec c x), (Nat.ltb_spec x (c + 1)); cbn [andb]; try ring. lia.
Qed.

Lemma dof_loop (body : nat -> Mat -> res Mat) (u : nat -> nat -> R) p D M :
  mrows M = 3%nat -> (p + D <= mcols M)%nat ->
  (forall d M, (d < D)%nat -> mrows M = 3%nat -> (p + D <= mcols M)%nat ->
     exists M', body d M = Ok M' /\ eff M M' (fun r x => if (x =? p + d)%nat then u d r else 0)) ->
  exists M', for_up D body M = Ok M' /\ eff M M' (fun r x => if inw p D x then u (x - p)%nat r else 0).
Proof.
  intros H3 HC ST.
  destruct (for_up_inv (fun n s => eff M s (fun r x => if inw p n x then u (x - p)%nat r else 0)) body D M) as (M' & E & P).
  - apply eff_refl. intros. unfold inw. destruct (Nat.leb_spec p x), (Nat.ltb_spec x (p + 0)); cbn; auto; lia.
  - intros d s Hd P. destruct (ST d s Hd) as (s' & E & P'); try (destruct P as (P1 & P2 & _); congruence).
    exists s'. split; auto. eapply eff_trans; eauto. intros r x Hr. cbn beta. rewrite inw_S.
    destruct (Nat.eqb_spec x (p + d)) as [->|N].
    + rewrite orb_true_r. unfold inw. rewrite (proj2 (Nat.ltb_ge _ _)) by lia. rewrite andb_false_r.
      replace (p + d - p)%nat with d by lia. ring.
    + rewrite orb_false_r. ring.
  - eauto.
Qed.

Definition lsum {A} (l : list A) (g : A -> R) : R := fold_right (fun b s => g b + s) 0 l.
Lemma lsum_app {A} (l l' : list A) g : lsum (l ++ l') g = lsum l g + lsum l' g.
Proof. induction l as [|a l IH]; cbn [app]; unfold lsum in *; cbn [fold_right]; [ring|]. rewrite IH. ring. Qed.
Lemma lsum_ext {A} (l : list A) g h : (forall a, In a l -> g a = h a) -> lsum l g = lsum l h.
Proof. induction l; cbn; auto. intro H. unfold lsum in *. rewrite IHl, H; auto. Qed.
Lemma lsum_rsum n (l : list nat) g : NoDup l -> (forall b, In b l -> (b < n)%nat) ->
  lsum l g = rsum n (fun b => if in_dec Nat.eq_dec b l then g b else 0).
Proof.
  intros ND. induction ND as [|b l N ND IH]; intro IN.
  - cbn. symmetry. now apply rsum_eq0.
  - cbn [lsum fold_right]. fold (lsum l g). rewrite IH by (intros; apply IN; cbn; auto).
    rewrite <- (rsum_delta n b g) by (apply IN; cbn; auto). rewrite <- rsum_plus. apply rsum_ext. intros x Hx.
    destruct (Nat.eqb_spec x b) as [->|NE], (in_dec Nat.eq_dec b l), (in_dec Nat.eq_dec b (b :: l)); try contradiction; try ring;
    try (exfalso; cbn in *; tauto);
    destruct (in_dec Nat.eq_dec x l), (in_dec Nat.eq_dec x (b :: l)); try ring; exfalso; cbn in *; intuition congruence.
Qed.

Lemma each_loop {A} (l : list A) (body : A -> Mat -> res Mat) (h : A -> nat -> nat -> R) n M :
  mrows M = 3%nat -> mcols M = n ->
  (forall b M, In b l -> mrows M = 3%nat -> mcols M = n -> exists M', body b M = Ok M' /\ eff M M' (h b)) ->
  exists M', for_each l body M = Ok M' /\ eff M M' (fun r x => lsum l (fun b => h b r x)).
Proof.
  revert M. induction l as [|b l IH]; intros M H3 HC ST; cbn [for_each].
  - exists M. split; auto. apply eff_refl. auto.
  - destruct (ST b M) as (M1 & E1 & P1); cbn [In]; auto. rewrite E1. cbn [bind].
    destruct (IH M1) as (M2 & E2 & P2).
    + destruct P1 as (A1 & _). congruence.
    + destruct P1 as (_ & B1 & _). congruence.
    + intros; apply ST; cbn [In]; auto.
    + exists M2. split; auto. eapply eff_trans; eauto.
Qed.
Lemma rsum_S n f : rsum (S n) f = rsum n f + f n. Proof. reflexivity. Qed.

Section Run.
Variables (mb : MultiBody) (m0 m : MBC).
Hypothesis W : wf_mb mb.
Hypothesis RN : run mb m0 m.
Let n := nrBodies mb.
Let K := r_ok _ _ _ RN.

(** The joint loop: what it adds to each entry. *)
Lemma comj_loop (c : CoMJ) (subs : nat -> list nat) (pre : nat -> PT -> Z -> res (SV -> V3)) (f : nat -> nat -> SV -> V3) M :
  (forall k, (k < n)%nat -> nth_error (cj_sub c) k = Some (map Z.of_nat (subs k)) /\ forall b, In b (subs k) -> (b < n)%nat) ->
  length (cj_coeff c) = n ->
  (forall k b, (k < n)%nat -> (b < n)%nat -> pre k (ptinv (posW m k)) (Z.of_nat b) = Ok (f k b)) ->
  mrows M = 3%nat -> mcols M = mb_nrDof mb ->
  exists M', for_up (nrJoints mb) (comj_step mb m c pre) (0%nat, M) = Ok (mb_nrDof mb, M') /\
    eff M M' (fun r x => rsum n (fun k => if inw (pos mb k) (dofi mb k) x
       then lsum (subs k) (fun b => vcoef r (f k b (nth (x - pos mb k) (jS (nth k (mb_joints mb) jd)) sv0)) * nth b (cj_coeff c) 0) else 0)).
Proof.
  intros HS HL HP H3 HC. pose proof (wf_nrJoints _ W) as NJ. fold n in NJ.
  pose proof (r_ms _ _ _ RN) as MS. pose proof (sized_length _ _ _ (ok_motionSubspace _ _ K)) as LM.
  pose proof (ok_bodyPosW _ _ K) as LX. fold n in LX.
  destruct (for_up_inv (fun i s => fst s = pos mb i /\ eff M (snd s) (fun r x => rsum i (fun k => if inw (pos mb k) (dofi mb k) x
       then lsum (subs k) (fun b => vcoef r (f k b (nth (x - pos mb k) (jS (nth k (mb_joints mb) jd)) sv0)) * nth b (cj_coeff c) 0) else 0)))
     (comj_step mb m c pre) (nrJoints mb) (0%nat, M)) as (s' & E & P1 & P2).
  - split; [reflexivity|]. apply eff_refl. auto.
  - intros i [cur Mi] Hi [E1 P]. cbn [fst snd] in *. subst cur. rewrite NJ in Hi. destruct (HS i Hi) as (HS1 & HS2).
    unfold comj_step. unfold get at 1. rewrite HS1. cbn [bind]. rewrite (get_nth _ i ptid) by lia. cbn [bind].
    rewrite get_joint by auto. cbn [bind fst snd]. change (jdof (nth i (mb_joints mb) jd)) with (dofi mb i).
    pose proof (pos_le mb i W Hi) as PL.
    destruct P as (Q1 & Q2 & Q3).
    match goal with |- context [for_each _ ?g Mi] => set (body := g) end.
    destruct (each_loop (map Z.of_nat (subs i)) body
        (fun z r x => if inw (pos mb i) (dofi mb i) x then vcoef r (f i (Z.to_nat z) (nth (x - pos mb i) (jS (nth i (mb_joints mb) jd)) sv0)) * nth (Z.to_nat z) (cj_coeff c) 0 else 0)
        (mb_nrDof mb) Mi) as (M1 & EB & PB); try congruence.
    + intros z N Iz N3 NC. apply in_map_iff in Iz. destruct Iz as (b & <- & Ib). rewrite Nat2Z.id.
      unfold body. rewrite HP by auto. cbn [bind].
      apply (dof_loop _ (fun d r => vcoef r (f i b (nth d (jS (nth i (mb_joints mb) jd)) sv0)) * nth b (cj_coeff c) 0)); try lia.
      intros d Nd Hd Nd3 NdC. rewrite (get_nth _ i []) by lia. cbn [bind]. rewrite MS by auto.
      rewrite (get_nth _ d sv0).
      2:{ pose proof (sized_nth _ _ _ i (ok_motionSubspace _ _ K)) as SN. rewrite NJ in SN. specialize (SN Hi). rewrite MS in SN by auto. rewrite SN. exact Hd. }
      cbn [bind]. rewrite getz_nat, (get_nth _ b 0) by (rewrite HL; auto). cbn [bind].
      apply add_col_ok; auto. lia.
    + rewrite EB. cbn [bind]. eexists. split; [reflexivity|]. cbn [fst snd]. split; [symmetry; apply pos_S; lia|].
      eapply eff_trans; [exact (conj Q1 (conj Q2 Q3))|exact PB|]. intros r x Hr. rewrite rsum_S. f_equal.
      destruct (inw (pos mb i) (dofi mb i) x) eqn:IW.
      * clear. induction (subs i) as [|b l IH]; cbn; auto. unfold lsum in IH. rewrite IH, Nat2Z.id. reflexivity.
      * clear. induction (subs i) as [|b l IH]; cbn; auto. unfold lsum in IH. rewrite <- IH. ring.
  - destruct s' as [cur M']. cbn [fst snd] in *. exists M'. rewrite E. split.
    + do 2 f_equal. rewrite P1, pos_all. symmetry. apply (wf_nrDof _ W).
    + rewrite NJ in P2. exact P2.
Qed.

(** The same by paths: body b contributes the columns of the joints of its path. *)
Lemma comj_entries (coef : nat -> R) (subs path : nat -> list nat) (F : nat -> nat -> list SV) (f : nat -> nat -> SV -> V3) r x :
  (forall k, (k < n)%nat -> NoDup (subs k) /\ forall b, In b (subs k) <-> anc mb k b) ->
  (forall b, (b < n)%nat -> root_path mb b (path b)) ->
  (forall b k, (b < n)%nat -> (k < n)%nat -> length (F b k) = dofi mb k) ->
  (forall b k d, (b < n)%nat -> (k < n)%nat -> (d < dofi mb k)%nat ->
      f k b (nth d (jS (nth k (mb_joints mb) jd)) sv0) = slin (nth d (F b k) sv0)) ->
  (x < mb_nrDof mb)%nat ->
  rsum n (fun k => if inw (pos mb k) (dofi mb k) x
       then lsum (subs k) (fun b => vcoef r (f k b (nth (x - pos mb k) (jS (nth k (mb_joints mb) jd)) sv0)) * coef b) else 0) =
  rsum n (fun b => coef b * ctr (pblocks mb (path b) 0) (fun e => vcoef r (slin (nth e (concat (map (F b) (path b))) sv0))) x).
Proof.
  intros HS HP LF HF Hx. pose proof (wf_nrJoints _ W) as NJ. fold n in NJ.
  rewrite (wf_nrDof _ W), <- pos_all in Hx.
  destruct (pos_find mb x (nrJoints mb)) as (k & d & Hk & Hd & ->); auto. rewrite NJ in Hk.
  rewrite (rsum_ext n _ (fun i => if (i =? k)%nat then lsum (subs k) (fun b => vcoef r (slin (nth d (F b k) sv0)) * coef b) else 0)).
  2:{ intros i Hi. unfold inw. destruct (Nat.eqb_spec i k) as [->|NE].
      - rewrite (proj2 (andb_true_iff _ _)) by (split; [apply Nat.leb_le|apply Nat.ltb_lt]; lia).
        replace (pos mb k + d - pos mb k)%nat with d by lia. apply lsum_ext. intros b Ib.
        rewrite HF; auto. apply (proj2 (HS k Hk)) in Ib. eapply anc_lt in Ib; eauto. unfold n. lia.
      - destruct (Nat.leb_spec (pos mb i) (pos mb k + d)), (Nat.ltb_spec (pos mb k + d) (pos mb i + dofi mb i)); cbn [andb]; auto.
        exfalso. apply NE. destruct (pos_inj mb i k (pos mb k + d - pos mb i) d W) as (E & _); auto; lia. }
  rewrite (rsum_delta n k (fun _ => lsum (subs k) (fun b => vcoef r (slin (nth d (F b k) sv0)) * coef b))) by auto. destruct (HS k Hk) as (ND & IN).
  rewrite (lsum_rsum n) by (auto; intros b Ib; apply IN in Ib; eapply anc_lt in Ib; eauto; unfold n; lia).
  apply rsum_ext. intros b Hb.
  rewrite (ctr_entry mb (path b) (F b) (fun v => vcoef r (slin v)) k d W); auto.
  - pose proof (root_path_anc mb b (path b) W (HP b Hb) k) as RA.
    destruct (in_dec Nat.eq_dec b (subs k)) as [I|N], (in_dec Nat.eq_dec k (path b)) as [I'|N']; try ring.
    + exfalso. apply N'. apply RA. apply IN. auto.
    + exfalso. apply N. apply IN. apply RA. auto.
  - apply (root_path_in _ _ _ W (HP b Hb)).
  - apply (root_path_increasing _ _ _ W (HP b Hb)).
  - intros j Ij. apply LF; auto. apply (root_path_in _ _ _ W (HP b Hb) j Ij).
Qed.
End Run.
