(** Proofs about the derivatives of the torques of inverse statics: the two loops. *)
From Coq Require Import Reals String ZArith Bool Arith Lia Lra List.
From Verif Require Import Res ResP Vec VecP Sva SvaP Mat JointM JointP MultiBodyM KinM DynM JacM CoMM MomM ISM Spec SpecDyn SpecJac SpecDeriv KinP MbP KinFinP TreeP DynP DynCP DynFin2P
  JacP JacBlkP JacTopP JacFinP CoMP MomP DerivP DerivTreeP MomTopP IsDerivP.
Import ListNotations.
Open Scope R_scope.

Definition md : Mat := mat_zero 0 0.
(** Sizes of the object; N columns. *)
Record isd_ok (mb : MultiBody) (N : nat) (s : ISd) : Prop := {
  io_f : length (id_f s) = nrBodies mb;
  io_dl : length (id_df s) = nrBodies mb;
  io_d : forall i, (i < nrBodies mb)%nat -> mrows (nth i (id_df s) md) = 6%nat /\ mcols (nth i (id_df s) md) = N;
  io_tl : length (id_diff s) = nrBodies mb;
  io_jl : length (id_jac s) = nrBodies mb;
  io_j : forall i J, nth_error (id_jac s) i = Some J -> jacobian_of mb i v0 J;
  io_full : mrows (id_full s) = 6%nat /\ mcols (id_full s) = mb_nrDof mb
}.
Definition jacs_ok (mb : MultiBody) (N : nat) (jacs : list Mat) : Prop :=
  length jacs = nrBodies mb /\ forall JF, In JF jacs -> mcols JF = 0%nat \/ mrows JF = 6%nat /\ mcols JF = N.

Lemma nth_error_len {A} (l : list A) i d : (i < length l)%nat -> nth_error l i = Some (nth i l d).
Proof. intro H. now apply nth_error_nth'. Qed.
Lemma mv6_zero a N x : mv6 (mat_zero a N) x = sv0.
Proof.
  apply svdot_ext. intro u. unfold mv6. rewrite vsum_dot, svdot_0_l. apply rsum_eq0. intros c Hc. unfold svcol, svdot, vdot. cbn. ring.
Qed.
Lemma mv6_set F full N x y : slinear F -> mrows full = 6%nat -> (mcols full <= N)%nat -> (forall j, (j < mcols full)%nat -> nth j x 0 = nth j y 0) ->
  exists M', set_block (mat_zero 6 N) 0 0 (mrows full) (mcols full) (map_cols F full) = Ok M' /\ mrows M' = 6%nat /\ mcols M' = N /\
    mv6 M' x = F (mv6 full y).
Proof.
  intros L MR H HX. unfold set_block. cbn [mat_zero mrows mcols]. rewrite MR. rewrite (proj2 (andb_true_iff _ _)) by (split; apply Nat.leb_le; lia).
  eexists. split; [reflexivity|]. split; [reflexivity|]. split; [reflexivity|]. unfold mv6 at 1. cbn [mcols].
  rewrite (vsum_ext _ _ (fun c => if ((0 <=? c) && (c <? 0 + mcols full))%nat then svscale (nth c x 0) (F (svcol full c)) else sv0)).
  2:{ intros c Hc. apply SV_coef. intros r Hr. rewrite (proj2 (sv_coef r)), !svcoef_col by auto. cbn [ment]. unfold in_block, map_cols. cbn [Nat.leb Nat.add].
      rewrite (proj2 (Nat.ltb_lt r 6) Hr). cbn [andb]. rewrite !Nat.sub_0_r. destruct (c <? mcols full)%nat.
      - rewrite (proj2 (sv_coef r)). reflexivity.
      - rewrite (linear_0 _ (sv_coef r)). unfold mat_zero. cbn [ment]. ring. }
  rewrite (vsum_window N 0 (mcols full) (fun c => svscale (nth c x 0) (F (svcol full c)))) by lia.
  unfold mv6. rewrite (slinear_vsum F) by auto. apply vsum_ext. intros c Hc. cbn [Nat.add]. rewrite (proj2 L), HX by auto. reflexivity.
Qed.
Lemma ptdual_sv0 X : ptdual X sv0 = sv0.
Proof. apply (slinear_0 _ (ptdual_linear X)). Qed.
Lemma mat_add_ok A B N : mrows A = 6%nat -> mcols A = N -> mrows B = 6%nat -> mcols B = N ->
  exists M, mat_add A B = Ok M /\ mrows M = 6%nat /\ mcols M = N /\ forall x, mv6 M x = svadd (mv6 A x) (mv6 B x).
Proof.
  intros R1 C1 R2 C2. unfold mat_add. rewrite R1, R2, C1, C2, !Nat.eqb_refl. cbn [andb]. eexists. split; [reflexivity|]. split; [auto|]. split; [auto|].
  intro x. rewrite <- C1. rewrite <- (mv6_add A B x) by congruence. now rewrite R1, C1.
Qed.

(** Sums over the children with number at least [i]. *)
Definition accG (mb : MultiBody) (i : nat) (f0 con F : nat -> SV) : Prop :=
  forall k, (k < nrBodies mb)%nat -> F k = svadd (f0 k) (vsum (nrBodies mb) (fun c => if (i <=? c)%nat && is_par (par mb) c k then con c else sv0)).
Lemma accG_start mb f0 con F : (forall k, (k < nrBodies mb)%nat -> F k = f0 k) -> accG mb (nrBodies mb) f0 con F.
Proof.
  intros H k Hk. rewrite H by auto. apply svdot_ext. intro u. rewrite svdot_add_l, vsum_dot, rsum_eq0; [ring|]. intros c Hc.
  destruct (Nat.leb_spec (nrBodies mb) c); [lia|]. apply svdot_0_l.
Qed.
Lemma accG_none mb i f0 con con' F : (i < nrBodies mb)%nat -> par mb i = None -> (forall c, (i < c)%nat -> con' c = con c) ->
  accG mb (S i) f0 con F -> accG mb i f0 con' F.
Proof.
  intros L P EC H k Hk. rewrite H by auto. f_equal. apply vsum_ext. intros c Hc. destruct (Nat.eq_dec c i) as [->|].
  - unfold is_par. rewrite P, !andb_false_r. auto.
  - destruct (Nat.leb_spec (S i) c), (Nat.leb_spec i c); auto; try lia. cbn [andb]. rewrite EC by lia. reflexivity.
Qed.
Lemma accG_some mb i p f0 con con' F F' : (i < nrBodies mb)%nat -> (p < i)%nat -> par mb i = Some p -> (forall c, (i < c)%nat -> con' c = con c) ->
  (forall k, k <> p -> F' k = F k) -> F' p = svadd (F p) (con' i) ->
  accG mb (S i) f0 con F -> accG mb i f0 con' F'.
Proof.
  intros L Lp P EC EF EP H k Hk.
  assert (E : vsum (nrBodies mb) (fun c => if (i <=? c)%nat && is_par (par mb) c k then con' c else sv0) =
     svadd (vsum (nrBodies mb) (fun c => if (S i <=? c)%nat && is_par (par mb) c k then con c else sv0)) (if (p =? k)%nat then con' i else sv0)).
  { rewrite (vsum_ext _ _ (fun c => svadd (if (S i <=? c)%nat && is_par (par mb) c k then con c else sv0) (if (c =? i)%nat then (if (p =? k)%nat then con' i else sv0) else sv0))).
    - rewrite vsum_add. f_equal. apply (vsum_delta _ i (fun _ => if (p =? k)%nat then con' i else sv0)); auto.
    - intros c Hc. destruct (Nat.eqb_spec c i) as [->|NE].
      + unfold is_par. rewrite P. destruct (Nat.leb_spec (S i) i); [lia|]. rewrite Nat.leb_refl. cbn [andb]. now rewrite svadd_0_l.
      + rewrite svadd_0_r. destruct (Nat.leb_spec (S i) c), (Nat.leb_spec i c); auto; try lia. cbn [andb]. rewrite EC by lia. reflexivity. }
  rewrite E. destruct (Nat.eqb_spec p k) as [->|NE].
  - rewrite EP, H by auto. now rewrite svadd_assoc.
  - rewrite EF, H, svadd_0_r by auto. reflexivity.
Qed.
Lemma accG_end mb f0 con F : accG mb 0 f0 con F -> forall k, (k < nrBodies mb)%nat ->
  F k = svadd (f0 k) (vsum (nrBodies mb) (fun c => if is_par (par mb) c k then con c else sv0)).
Proof. intros H k Hk. now apply H. Qed.

Section Run.
Variables (mb : MultiBody) (m0 m : MBC) (N : nat) (jacs : list Mat) (x : list R).
Hypothesis W : wf_mb mb.
Hypothesis RM : rigid_mb mb.
Hypothesis K0 : mbc_ok mb m0.
Hypothesis C0 : config_ok mb m0.
Hypothesis AK : after_kinematics mb m0 m.
Hypothesis HN : (mb_nrDof mb <= N)%nat.
Hypothesis HJ : jacs_ok mb N jacs.
Hypothesis HX : forall j, (j < mb_nrDof mb)%nat -> nth j x 0 = nth j (concat (alpha m)) 0.
Let RN : run mb m0 m := kin_run mb m0 m W RM K0 C0 AK.
Let K : mbc_ok mb m := r_ok _ _ _ RN.
Let a0 := mkSV v0 (gravity m).

Definition own_f (i : nat) : SV := svsub (rbim (Ib mb i) (ptm (posW m i) a0)) (fext m i).
Definition own_d (i : nat) : SV :=
  svadd (is_MN (posW m i) (Ib mb i) a0 (nth i (force m) sv0) (point_velocity (posW m i) v0 (vb m i))) (ptdual (posW m i) (mv6 (nth i jacs md) x)).

Lemma full_velocity i J r : (i < nrBodies mb)%nat -> jacobian_of mb i v0 J -> mrows r = 6%nat -> mcols r = mb_nrDof mb ->
  exists J1 M, jacobian mb m J = Ok J1 /\ jacobian_of mb i v0 J1 /\ fullJacobian mb J1 (six_rows (jc_jac J1)) r = Ok M /\
    mrows M = 6%nat /\ mcols M = mb_nrDof mb /\ mv6 M (concat (alpha m)) = point_velocity (posW m i) v0 (vb m i).
Proof.
  intros Hi H Rr Cr. destruct (top_velocity mb m0 m W RM K0 C0 AK i v0 J H) as (X & V & J1 & J2 & EX & EV & E1 & H1 & _ & _ & P & _).
  destruct (full_ok mb i v0 J1 W H1 (six_rows (jc_jac J1)) r) as (M & EM & R1 & C1 & _ & _ & PM).
  - cbn [six_rows mcols]. apply (jo_jac _ _ _ _ H1).
  - cbn [six_rows mrows]. lia.
  - exact Cr.
  - exists J1, M. do 3 (split; [auto|]). split; [congruence|]. split; [auto|].
    assert (JP : jc_path J1 = jc_path J).
    { exact (KinPathP.root_path_unique _ _ _ _ W (jo_path _ _ _ _ H1) (jo_path _ _ _ _ H)). }
    rewrite (nth_error_len _ _ ptid) in EX by (rewrite (ok_bodyPosW _ _ K); auto). injection EX as EX.
    rewrite (nth_error_len _ _ sv0) in EV by (rewrite (ok_bodyVelB _ _ K); auto). injection EV as EV.
    unfold vb. rewrite EX, EV, <- P. apply SV_coef. intros c Hc. rewrite mv6_coef by auto.
    rewrite PM by (cbn [six_rows mrows]; auto; apply (ok_alpha _ _ K)). rewrite JP.
    assert (LL : length (on_path (jc_path J) (alpha m)) = length (jc_jac J1)).
    { rewrite (jo_jac _ _ _ _ H1), JP. apply (on_path_length mb W (alpha m) i); [apply (jo_path _ _ _ _ H)|apply (ok_alpha _ _ K)]. }
    unfold mat_vec. cbn [six_rows mcols ment]. rewrite smul_vsum by lia. rewrite svcoef_vsum. apply rsum_ext. intros d Hd.
    rewrite (proj2 (sv_coef c)). apply Rmult_comm.
Qed.

Definition fwdI (s0 : ISd) (k : nat) (st : ISd * list SV) : Prop :=
  isd_ok mb N (fst st) /\ id_diff (fst st) = id_diff s0 /\ id_set (fst st) = id_set s0 /\ length (snd st) = nrBodies mb /\
  (forall i, (i < k)%nat -> nth i (snd st) sv0 = ptm (posW m i) a0) /\
  (forall i, (i < k)%nat -> nth i (id_f (fst st)) sv0 = own_f i) /\
  (forall i, (i < k)%nat -> mv6 (nth i (id_df (fst st)) md) x = own_d i).
Lemma isd_forward s : isd_ok mb N s ->
  exists s' A, for_up (nrBodies mb) (isd_body mb m jacs a0) (s, bodyAccB m) = Ok (s', A) /\ fwdI s (nrBodies mb) (s', A).
Proof.
  intro HS. mbclens W K.
  destruct (for_up_inv (fwdI s) (isd_body mb m jacs a0) (nrBodies mb) (s, bodyAccB m)) as ([s' A] & E & H).
  - unfold fwdI. cbn [fst snd]. do 4 (split; [auto|]). split; [|split]; intros; lia.
  - intros k [s1 A] Hk (HS1 & ED & ES & LA & HA & HF & HD). cbn [fst snd] in *. unfold isd_body.
    pose proof (io_f _ _ _ HS1) as Lf. pose proof (io_dl _ _ _ HS1) as Ldf. pose proof (io_jl _ _ _ HS1) as Ljc.
    destruct (io_d _ _ _ HS1 k Hk) as (DR & DC). destruct (io_full _ _ _ HS1) as (FR & FC).
    rewrite (get_nth (id_df s1) k md) by lia. cbn [bind].
    assert (EJ : exists J, nth_error (id_jac s1) k = Some J).
    { destruct (nth_error (id_jac s1) k) eqn:E; [eauto|]. apply nth_error_None in E. lia. }
    destruct EJ as (J & EJ). unfold get at 1. rewrite EJ. cbn [bind].
    destruct (full_velocity k J (id_full s1) Hk (io_j _ _ _ HS1 k J EJ) FR FC) as (J1 & M & E1 & H1 & EM & MR & MC & MV).
    rewrite E1. cbn [bind]. rewrite set_ok by lia. cbn [bind]. rewrite EM. cbn [bind].
    assert (Lb : (k < length (mb_bodies mb))%nat) by exact Hk. gets.
    rewrite DR, DC.
    destruct (mv6_set (is_MN (posW m k) (Ib mb k) a0 (nth k (force m) sv0)) M N x (concat (alpha m)) (is_MN_linear _ _ _ _) MR ltac:(lia)) as (d1 & Ed1 & R1 & C1 & V1).
    { intros j Hj. apply HX. lia. }
    unfold Ib in Ed1. rewrite Ed1. cbn [bind].
    destruct HJ as (LJ & PJ). rewrite (get_nth jacs k md) by lia. cbn [bind].
    assert (FD : exists d2, (if (0 <? mcols (nth k jacs md))%nat
        then if (mrows (nth k jacs md) =? 6)%nat then mat_add d1 (mkMat 6 (mcols (nth k jacs md)) (map_cols (ptdual (posW m k)) (nth k jacs md))) else UB
        else Ok d1) = Ok d2 /\ mrows d2 = 6%nat /\ mcols d2 = N /\ mv6 d2 x = own_d k).
    { unfold own_d. rewrite <- MV. destruct (PJ (nth k jacs md)) as [Z|(R2 & C2)]; [apply nth_In; lia| |].
      - rewrite Z. exists d1. split; [reflexivity|]. do 2 (split; [auto|]). rewrite V1.
        assert (E0 : mv6 (nth k jacs md) x = sv0) by (unfold mv6; rewrite Z; reflexivity). rewrite E0, ptdual_sv0, svadd_0_r. reflexivity.
      - destruct (Nat.ltb_spec 0 (mcols (nth k jacs md))) as [LT|GE].
        + rewrite R2. cbn [Nat.eqb].
          destruct (mat_add_ok d1 (mkMat 6 (mcols (nth k jacs md)) (map_cols (ptdual (posW m k)) (nth k jacs md))) N R1 C1 eq_refl C2) as (d2 & E2 & R3 & C3 & V3).
          exists d2. split; [exact E2|]. do 2 (split; [auto|]). rewrite V3, V1, mv6_map by apply ptdual_linear. reflexivity.
        + exists d1. split; [reflexivity|]. do 2 (split; [auto|]). rewrite V1.
          assert (E0 : mv6 (nth k jacs md) x = sv0) by (unfold mv6; replace (mcols (nth k jacs md)) with 0%nat by lia; reflexivity). rewrite E0, ptdual_sv0, svadd_0_r. reflexivity. }
    destruct FD as (d2 & E2 & R2 & C2 & V2). rewrite E2. cbn [bind]. rewrite set_ok by lia. cbn [bind].
    eexists. split; [reflexivity|]. unfold fwdI. cbn [fst snd id_f id_df id_diff id_jac id_full id_set]. split; [constructor; cbn [fst snd id_f id_df id_diff id_jac id_full id_set]; rewrite ?upd_length; auto|].
    + intros i Hi. destruct (Nat.eq_dec i k) as [->|]; [rewrite nth_upd_eq by lia; auto|]. rewrite nth_upd_neq by auto. apply (io_d _ _ _ HS1); auto.
    + apply (io_tl _ _ _ HS1).
    + intros i J' E. destruct (Nat.eq_dec i k) as [->|].
      * rewrite nth_error_upd_eq in E by lia. injection E as <-. exact H1.
      * rewrite nth_error_upd_neq in E by auto. now apply (io_j _ _ _ HS1).
    + split; [auto|]. split; [auto|]. rewrite upd_length. split; [auto|].
      split; [|split]; intros i Hi; (destruct (Nat.eq_dec i k) as [->|]; [rewrite nth_upd_eq by lia; auto|rewrite nth_upd_neq by auto]).
      * apply HA. lia.
      * apply HF. lia.
      * apply HD. lia.
  - exists s', A. auto.
Qed.

Definition conF (s : ISd) (c : nat) : SV := pttrans (ptsn m c) (nth c (id_f s) sv0).
Definition conD (s : ISd) (c : nat) : SV :=
  svsub (pttrans (ptsn m c) (mv6 (nth c (id_df s) md) x))
        (pttrans (nth c (mb_Xt mb) ptid) (is_MJ (nth c (jointConfig m) ptid) (nth c (id_f s) sv0) (smul (nth c (motionSubspace m) []) (nth c (alpha m) [])))).
Definition diffI (s : ISd) (i : nat) : Prop :=
  mrows (nth i (id_diff s) md) = length (nth i (motionSubspace m) []) /\ mcols (nth i (id_diff s) md) = N /\
  forall r, mat_vec (nth i (id_diff s) md) x r = svdot (nth r (nth i (motionSubspace m) []) sv0) (mv6 (nth i (id_df s) md) x).
Definition bwdI (s0 : ISd) (f0 d0 : nat -> SV) (k : nat) (s : ISd) : Prop :=
  isd_ok mb N s /\ id_set s = id_set s0 /\
  accG mb k f0 (conF s) (fun k => nth k (id_f s) sv0) /\ accG mb k d0 (conD s) (fun k => mv6 (nth k (id_df s) md) x) /\
  (forall i, (k <= i < nrBodies mb)%nat -> diffI s i).
Lemma diff_vec ms d r : mcols d = N -> mat_vec (mkMat (length ms) (mcols d) (fun r c => svdot (nth r ms sv0) (svcol d c))) x r = svdot (nth r ms sv0) (mv6 d x).
Proof.
  intro E. unfold mat_vec, mv6. cbn [mcols ment]. rewrite (svdot_comm (nth r ms sv0)), vsum_dot. apply rsum_ext. intros c Hc.
  rewrite svdot_scale_l, (svdot_comm (svcol d c)). apply Rmult_comm.
Qed.
Lemma isd_backward s : isd_ok mb N s ->
  exists s', for_down (nrJoints mb) (isd_torque mb m) s = Ok s' /\
    bwdI s (fun k => nth k (id_f s) sv0) (fun k => mv6 (nth k (id_df s) md) x) 0 s'.
Proof.
  intro HS. mbclens W K. pose proof (wf_nrJoints mb W) as NJ. rewrite NJ.
  apply for_down_inv.
  - unfold bwdI. split; [auto|]. split; [auto|]. split; [now apply accG_start|]. split; [now apply accG_start|]. intros; lia.
  - intros i s1 Hi (HS1 & ES & AF & AD & HT). unfold isd_torque.
    pose proof (io_f _ _ _ HS1) as Lf. pose proof (io_dl _ _ _ HS1) as Ldf. pose proof (io_tl _ _ _ HS1) as Ltd.
    destruct (io_d _ _ _ HS1 i Hi) as (DR & DC).
    rewrite (get_nth (motionSubspace m) i []) by lia. cbn [bind]. rewrite (get_nth (id_df s1) i md) by lia. cbn [bind].
    set (ms := nth i (motionSubspace m) []).
    rewrite set_ok by lia. cbn [bind]. predcase W Hi.
    + eexists. split; [reflexivity|]. unfold bwdI. cbn [id_f id_df id_diff id_jac id_full id_set].
      split; [destruct HS1; constructor; cbn [id_f id_df id_diff id_jac id_full id_set]; rewrite ?upd_length; auto|]. split; [auto|].
      split; [eapply accG_none; eauto|]. split; [eapply accG_none; eauto|].
      intros k Hk. unfold diffI. cbn [id_df id_diff]. destruct (Nat.eq_dec k i) as [->|].
      * rewrite nth_upd_eq by lia. cbn [mrows mcols]. split; [auto|]. split; [auto|]. intro r. now apply diff_vec.
      * rewrite nth_upd_neq by auto. apply HT. lia.
    + destruct (io_d _ _ _ HS1 p ltac:(lia)) as (PR & PC).
      gets. rewrite (get_nth (id_df s1) p md) by lia. cbn [bind].
      destruct (mat_add_ok (nth p (id_df s1) md) (mkMat 6 (mcols (nth i (id_df s1) md)) (map_cols (transMat (ptsn m i)) (nth i (id_df s1) md))) N PR PC eq_refl DC) as (d1 & E1 & R1 & C1 & V1).
      rewrite E1. cbn [bind]. gets. rewrite (nth_upd_neq _ p i) by lia. rewrite (get_posDof mb i W Hi). cbn [bind].
      pose proof (sized_nth _ _ _ i Sms ltac:(lia)) as Ls. fold ms in Ls. rewrite Ls, Nat.eqb_refl. rewrite <- Ls.
      pose proof (sized_nth _ _ _ i Sa ltac:(lia)) as La'.
      pose proof (pos_le mb i W Hi) as PL. unfold dofi in PL.
      destruct (mv6_block d1 (pos mb i) (fun v => transMat (nth i (mb_Xt mb) ptid) (is_MJ (nth i (jointConfig m) ptid) (nth i (id_f s1) sv0) v)) ms x (nth i (alpha m) [])) as (d2 & E2 & R2 & C2 & V2).
      * destruct (is_MJ_linear (nth i (jointConfig m) ptid) (nth i (id_f s1) sv0)) as (A1 & A2), (pttrans_linear (nth i (mb_Xt mb) ptid)) as (B1 & B2).
        split; intros; cbv beta; rewrite ?A1, ?A2, !transMat_eq, ?B1, ?B2; auto.
      * auto.
      * rewrite C1, Ls. lia.
      * congruence.
      * intros d Hd. rewrite HX by lia. apply concat_tile; auto; [lia|]. unfold dofi. lia.
      * rewrite E2. cbn [bind]. rewrite setz_nat, set_ok by lia. cbn [bind].
        set (s2 := mkISd _ _ _ _ _ _).
        assert (F1 : forall k, k <> p -> nth k (id_f s2) sv0 = nth k (id_f s1) sv0) by (intros; unfold s2; cbn [id_f]; now rewrite nth_upd_neq by auto).
        assert (F2 : forall k, k <> p -> nth k (id_df s2) md = nth k (id_df s1) md) by (intros; unfold s2; cbn [id_df]; now rewrite nth_upd_neq by auto).
        assert (F3 : nth p (id_f s2) sv0 = svadd (nth p (id_f s1) sv0) (conF s2 i)).
        { unfold conF. rewrite (F1 i) by lia. unfold s2. cbn [id_f]. now rewrite nth_upd_eq by lia. }
        assert (F4 : mv6 (nth p (id_df s2) md) x = svadd (mv6 (nth p (id_df s1) md) x) (conD s2 i)).
        { unfold conD. rewrite (F1 i), (F2 i) by lia. unfold s2. cbn [id_df]. rewrite nth_upd_eq by lia. rewrite V2, V1.
          rewrite mv6_map. 2:{ split; intros; rewrite !transMat_eq; apply pttrans_linear. }
          rewrite !transMat_eq. fold ms.
          generalize (mv6 (nth p (id_df s1) md) x), (pttrans (ptsn m i) (mv6 (nth i (id_df s1) md) x)),
            (pttrans (nth i (mb_Xt mb) ptid) (is_MJ (nth i (jointConfig m) ptid) (nth i (id_f s1) sv0) (smul ms (nth i (alpha m) [])))). clear. intros. svring. }
        exists s2. split; [reflexivity|]. split.
        { destruct HS1. constructor; unfold s2; cbn [id_f id_df id_diff id_jac id_full id_set]; rewrite ?upd_length; auto.
          intros k Hk. destruct (Nat.eq_dec k p) as [->|]; [rewrite nth_upd_eq by lia; split; [auto|congruence]|]. rewrite nth_upd_neq by auto. auto. }
        split; [exact ES|]. split; [|split].
        -- apply (accG_some mb i p _ (conF s1) (conF s2) (fun k => nth k (id_f s1) sv0) (fun k => nth k (id_f s2) sv0) Hi Hp Pp); [|exact F1|exact F3|exact AF].
           intros c Hc. unfold conF. rewrite F1 by lia. reflexivity.
        -- apply (accG_some mb i p _ (conD s1) (conD s2) (fun k => mv6 (nth k (id_df s1) md) x) (fun k => mv6 (nth k (id_df s2) md) x) Hi Hp Pp); [| |exact F4|exact AD].
           ++ intros c Hc. unfold conD. rewrite F1, F2 by lia. reflexivity.
           ++ intros c Hc. cbv beta. now rewrite F2 by auto.
        -- intros k Hk. unfold diffI. rewrite F2 by lia. unfold s2. cbn [id_diff]. destruct (Nat.eq_dec k i) as [->|].
           ++ rewrite nth_upd_eq by lia. cbn [mrows mcols]. split; [auto|]. split; [auto|]. intro r. now apply diff_vec.
           ++ rewrite nth_upd_neq by auto. apply HT. lia.
Qed.
End Run.
