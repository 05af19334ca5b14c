(** The matrices of the CoM Jacobian objects. *)
From Coq Require Import Reals String ZArith Bool Arith List Lia Lra.
From Verif Require Import Res ResP SMap Vec VecP Sva SvaP Mat JointM MultiBodyM KinM DynM JacM CoMM MomM Spec SpecDyn SpecJac SpecCoM
  JointP KinP KinPathP MbP TreeP DynP DynCP ConvP KinFinP SpecDeriv DerivP DerivTreeP JacP JacFinP JacFin2P JacBlkP CoMP CoMLoopP CoMCtorP.
Import ListNotations.
Open Scope R_scope.

Lemma fin_choice {A} (P : nat -> A -> Prop) (d : A) n : (forall b, (b < n)%nat -> exists l, P b l) -> exists f, forall b, (b < n)%nat -> P b (f b).
Proof.
  induction n as [|n IH]; intro H.
  - exists (fun _ => d). intros; lia.
  - destruct IH as (f & F). { intros; apply H; lia. } destruct (H n) as (l & L); [lia|].
    exists (fun b => if Nat.eq_dec b n then l else f b). intros b Hb. destruct (Nat.eq_dec b n) as [->|]; auto. apply F. lia.
Qed.
Lemma paths_exist mb : wf_mb mb -> exists path : nat -> list nat, forall b, (b < nrBodies mb)%nat -> root_path mb b (path b).
Proof. intro W. apply (fin_choice (root_path mb) []). intros. now apply root_path_exists. Qed.
Lemma jac_exists mb i p l : root_path mb i l -> exists J, jacobian_of mb i p J /\ jc_path J = l.
Proof.
  intro RP. exists (mkJac l (map (fun _ => 1) l) (pttr p) (repeat sv0 (path_dof mb l)) (repeat sv0 (path_dof mb l)) (Z.of_nat i) 0).
  split; auto. constructor; cbn; auto; apply repeat_length.
Qed.
Lemma slin_add a b : slin (svadd a b) = vadd (slin a) (slin b). Proof. reflexivity. Qed.

Definition coefw (mb : MultiBody) (w : list R) (b : nat) : R := mass_of mb b * nth b w 0 / total_mass_of mb.
(** The entry of row r and column x when body b contributes the columns [cols b] with factor [coef b]. *)
Definition entry (mb : MultiBody) (path : nat -> list nat) (coef : nat -> R) (cols : nat -> list SV) (r x : nat) : R :=
  rsum (nrBodies mb) (fun b => coef b * ctr (pblocks mb (path b) 0) (fun e => vcoef r (slin (nth e (cols b) sv0))) x).
Definition lcols mb m (path : nat -> list nat) (p : nat -> V3) (b : nat) : list SV :=
  concat (map (fcols mb m (pttr (trR (ptmul (pttr (p b)) (posW m b))))) (path b)).
Definition ldots m (path : nat -> list nat) (p : nat -> V3) (b : nat) : list SV :=
  concat (map (dcols m (dcol_world m b) (ptmul (pttr (p b)) (posW m b)) (ptm (pttr (p b)) (vb m b))) (path b)).

Lemma fullJ_ctr mb i p J jac r : wf_mb mb -> jacobian_of mb i p J ->
  mcols jac = path_dof mb (jc_path J) -> (mrows jac <= mrows r)%nat -> mcols r = mb_nrDof mb ->
  exists M, fullJacobian mb J jac r = Ok M /\ mrows M = mrows r /\ mcols M = mb_nrDof mb /\
   forall x c, (x < mrows jac)%nat -> (c < mb_nrDof mb)%nat -> ment M x c = ctr (pblocks mb (jc_path J) 0) (ment jac x) c.
Proof.
  intros W H Cj Rr Cr. pose proof (jo_path _ _ _ _ H) as RP. unfold fullJacobian, set_block.
  rewrite (proj2 (andb_true_iff _ _)) by (split; apply Nat.leb_le; lia). cbn [bind].
  rewrite addFull_blocks by (auto; apply (root_path_in _ _ _ W RP)).
  match goal with |- exists M, addFullJacobian_compact _ jac ?z = _ /\ _ => set (r0 := z) end.
  destruct (addC_ok (pblocks mb (jc_path J) 0) jac r0) as (M & E & A & B & C).
  - cbn [r0 mcols]. rewrite Cj, Cr. apply (pfits mb i p J W H).
  - exact Rr.
  - exists M. split; [exact E|]. split; [exact A|]. split; [rewrite B; exact Cr|]. intros x c Hx Hc.
    rewrite C, (proj2 (Nat.ltb_lt _ _) Hx). unfold r0, in_block. cbn [ment Nat.leb andb plus].
    rewrite (proj2 (Nat.ltb_lt _ _) Hx), (proj2 (Nat.ltb_lt _ _) Hc). cbn [andb]. ring.
Qed.

Lemma ctr_ext bs g h c : (forall e, g e = h e) -> ctr bs g c = ctr bs h c.
Proof. intro E. induction bs as [|b bs IH]; cbn [ctr]; auto. now rewrite IH, E. Qed.

Section Run.
Variables (mb : MultiBody) (m0 m : MBC).
Hypothesis W : wf_mb mb.
Hypothesis RN : run mb m0 m.
Variable path : nat -> list nat.
Hypothesis HP : forall b, (b < nrBodies mb)%nat -> root_path mb b (path b).
Variable w : list R.

Lemma getX b : (b < nrBodies mb)%nat -> get (bodyPosW m) b = Ok (posW m b).
Proof. intro H. apply get_nth. now rewrite (ok_bodyPosW _ _ (r_ok _ _ _ RN)). Qed.
Lemma getV b : (b < nrBodies mb)%nat -> get (bodyVelB m) b = Ok (vb m b).
Proof. intro H. apply get_nth. now rewrite (ok_bodyVelB _ _ (r_ok _ _ _ RN)). Qed.
Lemma getVW b : (b < nrBodies mb)%nat -> get (bodyVelW m) b = Ok (nth b (bodyVelW m) sv0).
Proof. intro H. apply get_nth. now rewrite (ok_bodyVelW _ _ (r_ok _ _ _ RN)). Qed.

Lemma subs_choose c : comj_of mb w c -> exists subs : nat -> list nat, forall k, (k < nrBodies mb)%nat ->
  nth_error (cj_sub c) k = Some (map Z.of_nat (subs k)) /\ NoDup (subs k) /\ forall b, In b (subs k) <-> anc mb k b.
Proof. intro H. apply (fin_choice (fun k l => nth_error (cj_sub c) k = Some (map Z.of_nat l) /\ NoDup l /\ forall b, In b l <-> anc mb k b) []). apply H. Qed.

(** One call of the loop nest from a cleared matrix. *)
Lemma comj_matrix c F pre f M : comj_of mb w c ->
  (forall k b, (k < nrBodies mb)%nat -> (b < nrBodies mb)%nat -> pre k (ptinv (posW m k)) (Z.of_nat b) = Ok (f k b)) ->
  (forall b k, (b < nrBodies mb)%nat -> (k < nrBodies mb)%nat -> length (F b k) = dofi mb k) ->
  (forall b k d, (b < nrBodies mb)%nat -> (k < nrBodies mb)%nat -> (d < dofi mb k)%nat ->
      f k b (nth d (jS (nth k (mb_joints mb) jd)) sv0) = slin (nth d (F b k) sv0)) ->
  mrows M = 3%nat -> mcols M = mb_nrDof mb ->
  exists M', for_up (nrJoints mb) (comj_step mb m c pre) (0%nat, mat_clear M) = Ok (mb_nrDof mb, M') /\
    mrows M' = 3%nat /\ mcols M' = mb_nrDof mb /\
    forall r x, (r < 3)%nat -> (x < mb_nrDof mb)%nat ->
      ment M' r x = entry mb path (coefw mb w) (fun b => concat (map (F b) (path b))) r x.
Proof.
  intros H HPre LF HF M3 MC. destruct (subs_choose c H) as (subs & HS).
  destruct (comj_loop mb m0 m W RN c subs pre f (mat_clear M)) as (M' & E & A & B & C); auto.
  - intros k Hk. destruct (HS k Hk) as (S1 & S2 & S3). split; auto. intros b Hb. apply S3 in Hb. eapply anc_lt in Hb; eauto. lia.
  - rewrite (cjo_coeff _ _ _ H). apply garbage_length.
  - exists M'. split; [exact E|]. split; [cbn in A; congruence|]. split; [cbn in B; congruence|]. intros r x Hr Hx.
    rewrite C by auto. cbn [mat_clear mat_zero ment]. rewrite Rplus_0_l.
    rewrite (comj_entries mb W (fun b => nth b (cj_coeff c) 0) subs path F f r x); auto.
    + unfold entry. apply rsum_ext. intros b Hb. f_equal. rewrite (cjo_coeff _ _ _ H). now rewrite nth_map_seq.
    + intros k Hk. apply HS; auto.
Qed.

Lemma comW_ok c : comj_of mb w c ->
  for_up (nrBodies mb) (fun i W => X <- get (bodyPosW m) i ;; C <- get (cj_com c) i ;; set W i (pttr (trR (ptmul C X)))) (cj_comW c) =
  Ok (map (fun i => pttr (trR (ptmul (pttr (own_com mb i)) (posW m i)))) (seq 0 (nrBodies mb))).
Proof.
  intro H. apply (for_fill _ ptid). { apply H. } intros i l Hi Ll. rewrite getX by auto. cbn [bind].
  rewrite (cjo_com _ _ _ H). rewrite (get_nth _ i ptid) by (now rewrite garbage_length). cbn [bind].
  now rewrite nth_map_seq.
Qed.

Lemma comj_jacobian_ok c : comj_of mb w c -> exists c', comj_jacobian mb m c = Ok c' /\ comj_of mb w c' /\
  cj_dot c' = cj_dot c /\
  forall r x, (r < 3)%nat -> (x < mb_nrDof mb)%nat ->
    ment (cj_jac c') r x = entry mb path (coefw mb w) (lcols mb m path (own_com mb)) r x.
Proof.
  intro H. unfold comj_jacobian. rewrite comW_ok by auto. cbn [bind].
  match goal with |- context [with_comW ?l c] => set (comW := l) end.
  assert (HW : comj_of mb w (with_comW comW c)).
  { destruct H. constructor; auto. cbn. unfold comW. apply garbage_length. }
  destruct (cjo_jac _ _ _ H) as (J3 & JC).
  destruct (comj_matrix (with_comW comW c) (fun b => fcols mb m (pttr (trR (ptmul (pttr (own_com mb b)) (posW m b)))))
     (fun _ X_i_0 b => W <- getz comW b ;; Ok (ptm_lin (ptmul W X_i_0)))
     (fun k b => ptm_lin (ptmul (pttr (trR (ptmul (pttr (own_com mb b)) (posW m b)))) (ptinv (posW m k)))) (cj_jac c)) as (M' & E & M3 & MC & P); auto.
  - intros k b Hk Hb. rewrite getz_nat. rewrite (get_nth _ b ptid) by (unfold comW; now rewrite garbage_length). cbn [bind].
    unfold comW. now rewrite nth_map_seq.
  - intros b k Hb Hk. unfold fcols. rewrite map_length. apply (S_len mb W). auto.
  - intros b k d Hb Hk Hd. unfold fcols.
    rewrite (nth_map_lt _ _ d sv0 sv0) by (rewrite (S_len mb W); auto). reflexivity.
  - cbn [with_comW cj_jac]. rewrite E. cbn [bind snd]. eexists. split; [reflexivity|].
    split. { destruct HW. constructor; auto. } split; [reflexivity|]. exact P.
Qed.

Lemma comj_jacobianDot_ok c : comj_of mb w c -> exists c', comj_jacobianDot mb m c = Ok c' /\ comj_of mb w c' /\
  cj_jac c' = cj_jac c /\
  forall r x, (r < 3)%nat -> (x < mb_nrDof mb)%nat ->
    ment (cj_dot c') r x = entry mb path (coefw mb w) (ldots m path (own_com mb)) r x.
Proof.
  intro H. unfold comj_jacobianDot.
  rewrite (for_fill2 (fun i => ptmul (pttr (own_com mb i)) (posW m i)) (fun i => ptm (pttr (own_com mb i)) (vb m i)) ptid sv0); try apply H.
  2:{ intros i s Hi La Lb. rewrite getX, getV by auto. cbn [bind]. rewrite (cjo_com _ _ _ H).
      rewrite (get_nth _ i ptid) by (now rewrite garbage_length). cbn [bind]. now rewrite nth_map_seq. }
  cbn [bind fst snd].
  match goal with |- context [with_comV ?l (with_comW ?l' c)] => set (comV := l); set (comW := l') end.
  assert (HW : comj_of mb w (with_comV comV (with_comW comW c))).
  { destruct H. constructor; auto; cbn; apply garbage_length. }
  destruct (cjo_dot _ _ _ H) as (J3 & JC).
  match goal with |- context [comj_step mb m _ ?p] => set (pre := p) end.
  destruct (comj_matrix (with_comV comV (with_comW comW c)) (fun b => dcols m (dcol_world m b) (ptmul (pttr (own_com mb b)) (posW m b)) (ptm (pttr (own_com mb b)) (vb m b)))
     pre (fun k b S => slin (dcol_world m b (ptmul (ptmul (pttr (own_com mb b)) (posW m b)) (ptinv (posW m k)))
        (svsub (ptm (ptmul (ptmul (pttr (own_com mb b)) (posW m b)) (ptinv (posW m k))) (vb m k)) (ptm (pttr (own_com mb b)) (vb m b))) S)) (cj_dot c)) as (M' & E & M3 & MC & P); auto.
  - intros k b Hk Hb. unfold pre. rewrite !getz_nat. rewrite (get_nth comW b ptid) by (unfold comW; now rewrite garbage_length). cbn [bind].
    rewrite getX, getVW, getV by auto. cbn [bind].
    rewrite (get_nth comV b sv0) by (unfold comV; now rewrite garbage_length). cbn [bind].
    unfold comW, comV. rewrite !nth_map_seq by auto. reflexivity.
  - intros b k Hb Hk. apply (dcols_length mb m0 m W RN). auto.
  - intros b k d Hb Hk Hd. unfold dcols. cbv zeta.
    rewrite (nth_map_lt _ _ d sv0 sv0).
    2:{ rewrite (r_ms _ _ _ RN), (S_len mb W) by auto. auto. }
    now rewrite (r_ms _ _ _ RN).
  - cbn [with_comW with_comV cj_dot]. rewrite E. cbn [bind snd]. eexists. split; [reflexivity|].
    split. { destruct HW. constructor; auto. } split; [reflexivity|]. exact P.
Qed.

(** The other algorithm. *)
Lemma comd_loop (go : Jac -> res Jac) (cols : Jac -> list SV) (CB : nat -> list SV) vec full M :
  (forall b J, (b < nrBodies mb)%nat -> jacobian_of mb b (own_com mb b) J -> exists J', go J = Ok J' /\ jacobian_of mb b (own_com mb b) J' /\
     cols J' = CB b /\ length (CB b) = path_dof mb (path b)) ->
  length w = nrBodies mb ->
  length vec = nrBodies mb -> (forall i, (i < nrBodies mb)%nat -> exists J, nth_error vec i = Some J /\ jacobian_of mb i (own_com mb i) J) ->
  mrows full = 3%nat -> mcols full = mb_nrDof mb -> mrows M = 3%nat -> mcols M = mb_nrDof mb ->
  exists vec' full' M', for_up (nrBodies mb) (comd_step mb w go cols) (vec, full, mat_clear M) = Ok (vec', full', M') /\
    length vec' = nrBodies mb /\ (forall i, (i < nrBodies mb)%nat -> exists J, nth_error vec' i = Some J /\ jacobian_of mb i (own_com mb i) J) /\
    mrows full' = 3%nat /\ mcols full' = mb_nrDof mb /\ mrows M' = 3%nat /\ mcols M' = mb_nrDof mb /\
    forall r x, (r < 3)%nat -> (x < mb_nrDof mb)%nat -> ment M' r x = entry mb path (fun b => mass_of mb b * nth b w 0) CB r x.
Proof.
  intros GO Lw Lv HV F3 FC M3 MC. unfold entry.
  destruct (for_up_inv (fun i (s : list Jac * Mat * Mat) => let '(vec', full', M') := s in
    length vec' = nrBodies mb /\ (forall i, (i < nrBodies mb)%nat -> exists J, nth_error vec' i = Some J /\ jacobian_of mb i (own_com mb i) J) /\
    mrows full' = 3%nat /\ mcols full' = mb_nrDof mb /\ mrows M' = 3%nat /\ mcols M' = mb_nrDof mb /\
    forall r x, (r < 3)%nat -> (x < mb_nrDof mb)%nat -> ment M' r x =
      rsum i (fun b => mass_of mb b * nth b w 0 * ctr (pblocks mb (path b) 0) (fun e => vcoef r (slin (nth e (CB b) sv0))) x))
     (comd_step mb w go cols) (nrBodies mb) (vec, full, mat_clear M)) as (((vec' & full') & M') & E & P).
  - do 4 (split; auto).
  - intros i ((vec1 & full1) & M1) Hi (L1 & V1 & F1 & F2 & G1 & G2 & P). unfold comd_step.
    destruct (V1 i Hi) as (J & EJ & HJ). unfold get at 1. rewrite EJ. cbn [bind].
    destruct (GO i J Hi HJ) as (J' & EG & HJ' & EC & LC). rewrite EG. cbn [bind].
    rewrite set_ok by lia. cbn [bind].
    assert (EPa : jc_path J' = path i) by (apply (root_path_unique mb i); auto; apply (jo_path _ _ _ _ HJ')).
    destruct (fullJ_ctr mb i (own_com mb i) J' (lin_rows (cols J')) full1 W HJ') as (N & EN & N1 & N2 & N3).
    { cbn [lin_rows mcols]. rewrite EC, EPa. auto. } { cbn [lin_rows mrows]. lia. } { auto. }
    rewrite EN. cbn [bind]. rewrite get_body by auto. cbn [bind]. rewrite (get_nth w i 0) by lia. cbn [bind].
    unfold mat_addscaled. rewrite (proj2 (andb_true_iff _ _)) by (split; apply Nat.eqb_eq; congruence). cbn [bind].
    eexists. split; [reflexivity|]. cbn beta iota. rewrite upd_length. split; auto. split.
    { intros k Hk. destruct (Nat.eq_dec i k) as [->|NE].
      - exists J'. split; auto. apply nth_error_upd_eq. lia.
      - destruct (V1 k Hk) as (Jk & Ek & Hk'). exists Jk. split; auto. rewrite nth_error_upd_neq; auto. }
    split; [congruence|]. split; [congruence|]. cbn [mrows mcols]. split; [congruence|]. split; [congruence|].
    intros r x Hr Hx. cbn [ment]. rewrite P by auto. rewrite rsum_S. f_equal. rewrite N3 by auto. rewrite EPa.
    change (imass (binertia (nth i (mb_bodies mb) bd))) with (mass_of mb i). rewrite Rmult_comm. f_equal.
    apply ctr_ext. intro e. cbn [lin_rows ment]. now rewrite EC.
  - exists vec', full', M'. split; [exact E|]. exact P.
Qed.

Lemma entry_div D coef CB r x : D <> 0 -> entry mb path coef CB r x / D = entry mb path (fun b => coef b / D) CB r x.
Proof.
  intro N. unfold entry. unfold Rdiv at 1. rewrite Rmult_comm, <- rsum_scal. apply rsum_ext. intros. field. auto.
Qed.
Lemma lcols_len b p : (b < nrBodies mb)%nat -> length (lcols mb m path p b) = path_dof mb (path b).
Proof.
  intro Hb. destruct (jac_exists mb b (p b) (path b) (HP b Hb)) as (J & HJ & EP). unfold lcols. rewrite <- EP.
  rewrite (fcols_length mb m W b (p b) J) by auto. apply (jo_jac _ _ _ _ HJ).
Qed.
Lemma ldots_len b p : (b < nrBodies mb)%nat -> length (ldots m path p b) = path_dof mb (path b).
Proof.
  intro Hb. destruct (jac_exists mb b (p b) (path b) (HP b Hb)) as (J & HJ & EP). unfold ldots. rewrite <- EP.
  apply (dcols_total mb m0 m W RN b (p b) J HJ).
Qed.

Lemma comd_jacobian_ok c : 0 < total_mass_of mb -> comd_of mb w c -> exists c', comd_jacobian mb m c = Ok c' /\ comd_of mb w c' /\
  cd_dot c' = cd_dot c /\
  forall r x, (r < 3)%nat -> (x < mb_nrDof mb)%nat ->
    ment (cd_jac c') r x = entry mb path (coefw mb w) (lcols mb m path (own_com mb)) r x.
Proof.
  intros Z H. unfold comd_jacobian. destruct (cdo_jac _ _ _ H) as (A1 & A2). destruct (cdo_full _ _ _ H) as (A3 & A4).
  destruct (comd_loop (jacobian mb m) jc_jac (lcols mb m path (own_com mb)) (cd_vec c) (cd_full c) (cd_jac c)) as (v' & f' & M' & E & B1 & B2 & B3 & B4 & B5 & B6 & P); auto; try apply H.
  - intros b J Hb HJ. eexists. split; [apply (jacobian_run mb m0 m W RN b (own_com mb b) J HJ)|].
    assert (EPa : jc_path J = path b) by (apply (root_path_unique mb b); auto; apply (jo_path _ _ _ _ HJ)).
    pose proof (lcols_len b (own_com mb) Hb) as LL. unfold lcols in LL. rewrite <- EPa in LL.
    split. { apply jo_with_jac; auto. now rewrite LL, (jo_jac _ _ _ _ HJ). }
    split; [|now rewrite lcols_len]. cbn [with_jac jc_jac]. now rewrite EPa.
  - rewrite (cdo_weight _ _ _ H), E. cbn [bind]. rewrite (cdo_mass _ _ _ H). destruct (Rlt_dec 0 (total_mass_of mb)); [|contradiction].
    eexists. split; [reflexivity|]. split. { destruct H. constructor; auto. } split; [reflexivity|].
    intros r0 x Hr Hx. cbn [cd_jac mat_div ment]. rewrite P by auto. rewrite entry_div by lra. reflexivity.
Qed.
Lemma comd_jacobianDot_ok c : 0 < total_mass_of mb -> comd_of mb w c -> exists c', comd_jacobianDot mb m c = Ok c' /\ comd_of mb w c' /\
  cd_jac c' = cd_jac c /\
  forall r x, (r < 3)%nat -> (x < mb_nrDof mb)%nat ->
    ment (cd_dot c') r x = entry mb path (coefw mb w) (ldots m path (own_com mb)) r x.
Proof.
  intros Z H. unfold comd_jacobianDot. destruct (cdo_dot _ _ _ H) as (A1 & A2). destruct (cdo_full _ _ _ H) as (A3 & A4).
  destruct (comd_loop (jacobianDot mb m) jc_dot (ldots m path (own_com mb)) (cd_vec c) (cd_full c) (cd_dot c)) as (v' & f' & M' & E & B1 & B2 & B3 & B4 & B5 & B6 & P); auto; try apply H.
  - intros b J Hb HJ. eexists. split; [apply (jacobianDot_run mb m0 m W RN b (own_com mb b) J HJ)|].
    assert (EPa : jc_path J = path b) by (apply (root_path_unique mb b); auto; apply (jo_path _ _ _ _ HJ)).
    pose proof (ldots_len b (own_com mb) Hb) as LL. unfold ldots in LL. rewrite <- EPa in LL.
    split. { apply jo_with_dot; auto. now rewrite LL, (jo_dot _ _ _ _ HJ). }
    split; [|now rewrite ldots_len]. cbn [with_dot jc_dot]. now rewrite EPa.
  - rewrite (cdo_weight _ _ _ H), E. cbn [bind]. rewrite (cdo_mass _ _ _ H). destruct (Rlt_dec 0 (total_mass_of mb)); [|contradiction].
    eexists. split; [reflexivity|]. split. { destruct H. constructor; auto. } split; [reflexivity|].
    intros r0 x Hr Hx. cbn [cd_dot mat_div ment]. rewrite P by auto. rewrite entry_div by lra. reflexivity.
Qed.

(** Products with vectors of rates. *)
Lemma vcoef_mean f r : vcoef r (com_mean mb (fun i => nth i w 0) f) = rsum (nrBodies mb) (fun b => coefw mb w b * vcoef r (f b)).
Proof.
  unfold com_mean, coefw, vsum3. destruct r as [|[|r]]; cbn [vcoef vscale vx vy vz]; rewrite <- rsum_scal; apply rsum_ext; intros; unfold Rdiv; ring.
Qed.
Lemma entry_times M CB a r : mcols M = mb_nrDof mb -> (r < 3)%nat ->
  (forall b, (b < nrBodies mb)%nat -> length (CB b) = path_dof mb (path b)) ->
  (forall x, (x < mb_nrDof mb)%nat -> ment M r x = entry mb path (coefw mb w) CB r x) -> sized mb jdof a ->
  mat_vec M (concat a) r = vcoef r (com_mean mb (fun i => nth i w 0) (fun b => slin (smul (CB b) (on_path (path b) a)))).
Proof.
  intros MC Hr LC P SA. unfold mat_vec. rewrite MC, vcoef_mean.
  rewrite (rsum_ext _ _ (fun x => rsum (nrBodies mb) (fun b => coefw mb w b * (ctr (pblocks mb (path b) 0) (fun e => vcoef r (slin (nth e (CB b) sv0))) x * nth x (concat a) 0)))).
  2:{ intros x Hx. rewrite P by auto. unfold entry. rewrite Rmult_comm, <- rsum_scal. apply rsum_ext. intros. ring. }
  rewrite rsum_swap. apply rsum_ext. intros b Hb. rewrite rsum_scal. f_equal.
  rewrite (ctr_product mb (path b) (CB b) (fun v => vcoef r (slin v)) a W); auto.
  - apply (root_path_in _ _ _ W (HP b Hb)).
  - apply lin_coef.
  - apply (on_path_length mb W a b); auto.
Qed.
Lemma lcols_times p b a : (b < nrBodies mb)%nat -> sized mb jdof a ->
  smul (lcols mb m path p b) (on_path (path b) a) =
  point_velocity (posW m b) (p b) (path_sum (fun k => ptm (relX (bodyPosW m) b k) (smul (jS (nth k (mb_joints mb) jd)) (nth k a []))) (path b)).
Proof.
  intros Hb SA. destruct (jac_exists mb b (p b) (path b) (HP b Hb)) as (J & HJ & EP).
  destruct (jac_product mb m0 m W RN b (p b) J HJ) as (J1 & E1 & _ & _ & P). specialize (P a SA). destruct P as (_ & P).
  rewrite (jacobian_run mb m0 m W RN b (p b) J HJ) in E1. injection E1 as <-. cbn [with_jac jc_jac] in P. rewrite EP in P. exact P.
Qed.
Lemma ldots_times p b : (b < nrBodies mb)%nat ->
  smul (ldots m path p b) (on_path (path b) (alpha m)) =
  svadd (point_velocity (posW m b) (p b) (nacc m (path b) b)) (scross (wN m b) (point_velocity (posW m b) (p b) (vb m b))).
Proof.
  intros Hb. destruct (jac_exists mb b (p b) (path b) (HP b Hb)) as (J & HJ & EP).
  pose proof (dot_world_sum mb m0 m W RN b (p b) J HJ) as D. rewrite EP in D. exact D.
Qed.
End Run.
