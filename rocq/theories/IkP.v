(** Inverse kinematics. *)
From Coq Require Import Reals String ZArith Bool Arith List Lia Lra.
From Verif Require Import Res ResP Vec Sva Mat JointM MultiBodyM KinM JacM IkM Spec SpecDeriv SpecJac SpecIk JointP KinP KinFinP MbP JacP JacFinP ConfFinP.
Import ListNotations.
Open Scope R_scope.

Lemma round_flush z x : 0 <= z -> round_op z x = flush z x.
Proof. intros Z. unfold round_op, flush. destruct (Rlt_dec (Rabs x) z) as [A|A]. - apply Rabs_def2 in A. destruct (Rlt_dec (- z) x); [|lra]. destruct (Rlt_dec x z); lra. - destruct (Rlt_dec (- z) x); auto. destruct (Rlt_dec x z); auto. exfalso. apply A. apply Rabs_def1; lra. Qed.
Lemma round_flush_neg z x : z < 0 -> round_op z x = flush z x.
Proof. intros Z. unfold round_op, flush. pose proof (Rabs_pos x). destruct (Rlt_dec (Rabs x) z); [lra|]. destruct (Rlt_dec (- z) x); auto. destruct (Rlt_dec x z); lra. Qed.
Lemma round_op_flush z x : round_op z x = flush z x.
Proof. destruct (Rle_lt_dec 0 z); [now apply round_flush|now apply round_flush_neg]. Qed.
Lemma round_sv_flush z c : round_sv z c = flush_col z c.
Proof. unfold round_sv, round_v, flush_col. now rewrite !round_op_flush. Qed.

(** *** The update of q. *)
Lemma ik_param_ok lam r c qi : (c + length qi <= length r)%nat ->
  exists qi', for_up (length qi) (ik_param lam r) (c, qi) = Ok ((c + length qi)%nat, qi') /\ length qi' = length qi /\ forall j, (j < length qi)%nat -> co qi' j = co qi j + lam * co r (c + j).
Proof.
  intro L. destruct (for_up_inv (fun i (s : nat * list R) => fst s = (c + i)%nat /\ length (snd s) = length qi /\
     forall j, (j < length qi)%nat -> co (snd s) j = if (j <? i)%nat then co qi j + lam * co r (c + j) else co qi j) (ik_param lam r) (length qi) (c, qi)) as ((c' & qi') & E & C & L' & V).
  - cbn. auto.
  - intros i (c1 & s) Hi (C & L' & V). cbn [fst snd] in *. unfold ik_param. cbn [fst snd]. rewrite (get_nth s i 0) by lia. cbn [bind]. rewrite (get_nth r c1 0) by lia. cbn [bind]. rewrite set_ok by lia. cbn [bind].
    eexists. split; [reflexivity|]. cbn [fst snd]. rewrite upd_length. split; [lia|]. split; auto. intros j Hj. unfold co. destruct (Nat.eq_dec j i) as [->|NE].
    + rewrite nth_upd_eq by lia. destruct (Nat.ltb_spec i (S i)); [|lia]. specialize (V i Hj). unfold co in V. rewrite V. destruct (Nat.ltb_spec i i); [lia|]. now rewrite C.
    + rewrite nth_upd_neq by auto. specialize (V j Hj). unfold co in V. rewrite V. destruct (Nat.ltb_spec j i), (Nat.ltb_spec j (S i)); try lia; reflexivity.
  - cbn [fst snd] in *. subst c'. exists qi'. split; auto. split; auto. intros j Hj. rewrite V by auto. destruct (Nat.ltb_spec j (length qi)); [reflexivity|lia].
Qed.
Lemma for_from_fail {St} (P : nat -> St -> Prop) (f : nat -> St -> res St) k : forall n lo s, (lo <= k < lo + n)%nat -> P lo s ->
  (forall i s, (lo <= i < k)%nat -> P i s -> exists s', f i s = Ok s' /\ P (S i) s') -> (forall s, P k s -> f k s = UB) -> for_from lo n f s = UB.
Proof.
  induction n as [|n IH]; intros lo s B H0 HS HF; [lia|]. cbn [for_from]. destruct (Nat.eq_dec lo k) as [->|NE].
  - now rewrite (HF s H0).
  - destruct (HS lo s) as (s' & -> & H1); auto; [lia|]. cbn [bind]. apply IH; auto; [lia|]. intros; apply HS; auto; lia.
Qed.
Lemma ik_param_fail lam r c qi : (c <= length r < c + length qi)%nat -> for_up (length qi) (ik_param lam r) (c, qi) = UB.
Proof.
  intro L. apply (for_from_fail (fun i (s : nat * list R) => fst s = (c + i)%nat /\ length (snd s) = length qi) _ (length r - c)); [lia|cbn; auto| |].
  - intros i (c1 & s) Hi (C & L'). cbn [fst snd] in *. unfold ik_param. cbn [fst snd]. rewrite (get_nth s i 0) by lia. cbn [bind]. rewrite (get_nth r c1 0) by lia. cbn [bind]. rewrite set_ok by lia. cbn [bind].
    eexists. split; [reflexivity|]. cbn [fst snd]. rewrite upd_length. split; [lia|auto].
  - intros (c1 & s) (C & L'). cbn [fst snd] in *. unfold ik_param. cbn [fst snd]. rewrite (get_nth s _ 0) by lia. cbn [bind]. rewrite get_UB by lia. reflexivity.
Qed.
Lemma ik_joint_ok lam r c qs k : (k < length qs)%nat -> (c + length (nth k qs []) <= length r)%nat ->
  exists qi', ik_joint lam r k (c, qs) = Ok ((c + length (nth k qs []))%nat, upd qs k qi') /\ length qi' = length (nth k qs []) /\ forall j, (j < length qi')%nat -> co qi' j = co (nth k qs []) j + lam * co r (c + j).
Proof.
  intros K L. destruct (ik_param_ok lam r c (nth k qs []) L) as (qi' & E & L' & V). exists qi'. unfold ik_joint. cbn [fst snd]. rewrite (get_nth qs k []) by auto. cbn [bind]. rewrite E. cbn [bind fst snd]. rewrite set_ok by auto. cbn [bind].
  split; auto. split; auto. intros j Hj. apply V. lia.
Qed.
Lemma upd_lens (qs : list (list R)) k qi : length qi = length (nth k qs []) -> map (@length R) (upd qs k qi) = map (@length R) qs.
Proof.
  intro L. apply (list_ext_nth _ _ 0%nat); [now rewrite !map_length, upd_length|]. intros i Hi. rewrite map_length, upd_length in Hi. change 0%nat with (length (@nil R)). rewrite !map_nth.
  destruct (Nat.eq_dec i k) as [->|NE]; [rewrite nth_upd_eq by auto; exact L|now rewrite nth_upd_neq by auto].
Qed.
Lemma lens_nth (a b : list (list R)) k : map (@length R) a = map (@length R) b -> length (nth k a []) = length (nth k b []).
Proof. intro H. rewrite <- !(map_nth (@length R)). now rewrite H. Qed.
Lemma lens_len (a b : list (list R)) : map (@length R) a = map (@length R) b -> length a = length b.
Proof. intro H. rewrite <- (map_length (@length R) a), H. apply map_length. Qed.
Lemma on_path_snoc {A} l k (v : list (list A)) : on_path (l ++ [k]) v = on_path l v ++ nth k v [].
Proof. unfold on_path. rewrite map_app, concat_app. cbn. now rewrite app_nil_r. Qed.
Lemma on_path_agree {A} l (v w : list (list A)) : (forall k, In k l -> nth k v [] = nth k w []) -> on_path l v = on_path l w.
Proof. intro H. unfold on_path. f_equal. apply map_ext_in. auto. Qed.
Lemma on_path_len_eq l (v w : list (list R)) : map (@length R) v = map (@length R) w -> length (on_path l v) = length (on_path l w).
Proof. intro H. unfold on_path. induction l; cbn; auto. rewrite !app_length, IHl. f_equal. now apply lens_nth. Qed.
Lemma ik_update_ok lam r path qs : NoDup path -> (forall k, In k path -> (k < length qs)%nat) -> (length (on_path path qs) <= length r)%nat ->
  exists qs', for_each path (ik_joint lam r) (0%nat, qs) = Ok (length (on_path path qs), qs') /\ map (@length R) qs' = map (@length R) qs /\
    (forall k, ~ In k path -> nth k qs' [] = nth k qs []) /\ forall d, (d < length (on_path path qs))%nat -> co (on_path path qs') d = co (on_path path qs) d + lam * co r d.
Proof.
  intros ND IN L.
  destruct (for_each_inv (fun dn (s : nat * list (list R)) => fst s = length (on_path dn qs) /\ map (@length R) (snd s) = map (@length R) qs /\ (forall k, ~ In k dn -> nth k (snd s) [] = nth k qs []) /\
      forall d, (d < length (on_path dn qs))%nat -> co (on_path dn (snd s)) d = co (on_path dn qs) d + lam * co r d) (ik_joint lam r) path [] (0%nat, qs)) as ((c & qs') & E & C & LL & U & V).
  - cbn. do 3 (split; [auto|]). intros. lia.
  - intros dn k rest (c & s) EP (C & LL & U & V). cbn [app fst snd] in *. assert (Ik : In k path) by (rewrite EP; apply in_or_app; right; now left).
    assert (NI : ~ In k dn). { rewrite EP in ND. apply NoDup_remove_2 in ND. intro X. apply ND. apply in_or_app. now left. }
    pose proof (lens_nth s qs k LL) as Lk. assert (FIT : (c + length (nth k s []) <= length r)%nat).
    { rewrite EP in L. unfold on_path in L, C. rewrite map_app, concat_app, app_length in L. cbn in L. rewrite app_length in L. unfold on_path in *. lia. }
    destruct (ik_joint_ok lam r c s k) as (qi' & EJ & Lq & Vq); [rewrite (lens_len _ _ LL); auto|exact FIT|]. rewrite EJ. eexists. split; [reflexivity|]. cbn [fst snd]. rewrite on_path_snoc, app_length. split; [lia|]. split; [rewrite upd_lens by auto; exact LL|].
    assert (Ks : (k < length s)%nat) by (rewrite (lens_len _ _ LL); auto).
    assert (EA : on_path dn (upd s k qi') = on_path dn s). { apply on_path_agree. intros x Hx. apply nth_upd_neq. intros ->. auto. }
    split.
    + intros x Hx. rewrite nth_upd_neq; [apply U; intro; apply Hx, in_or_app; now left|]. intros ->. apply Hx. apply in_or_app. right. now left.
    + intros d Hd. rewrite on_path_snoc. rewrite EA. rewrite nth_upd_eq by auto. unfold co. pose proof (on_path_len_eq dn s qs LL) as LD. destruct (lt_dec d (length (on_path dn qs))) as [A|A].
      * rewrite !app_nth1 by lia. exact (V d A).
      * rewrite !app_nth2 by lia. rewrite LD. specialize (Vq (d - length (on_path dn qs))%nat ltac:(lia)). unfold co in Vq. rewrite Vq. rewrite (U k NI). do 3 f_equal. lia.
  - cbn [app fst snd] in *. exists qs'. subst c. auto.
Qed.
Lemma ik_update_fail lam r : forall path c qs, (forall k, In k path -> (k < length qs)%nat) -> (c <= length r < c + length (on_path path qs))%nat -> for_each path (ik_joint lam r) (c, qs) = UB.
Proof.
  induction path as [|k path IH]; intros c qs IN L; [cbn in L; lia|]. cbn [for_each]. assert (Kq : (k < length qs)%nat) by (apply IN; now left).
  unfold on_path in L. cbn in L. rewrite app_length in L. fold (on_path path qs) in L. destruct (le_lt_dec (c + length (nth k qs [])) (length r)) as [F|F].
  - destruct (ik_joint_ok lam r c qs k Kq F) as (qi' & -> & Lq & _). cbn [bind]. apply IH.
    + intros x Hx. rewrite upd_length. apply IN. now right.
    + rewrite (on_path_len_eq path _ qs (upd_lens qs k qi' Lq)). lia.
  - unfold ik_joint. cbn [fst snd]. rewrite (get_nth qs k []) by auto. cbn [bind]. rewrite ik_param_fail by lia. reflexivity.
Qed.

(** *** The Jacobian. *)
Section Iter.
Variable svd : list SV -> SV -> list R.
Variable rotErr : M3 -> M3 -> V3.
Hypothesis SVD : forall A v, length (svd A v) = length A.
Variables (mb : MultiBody) (i : nat) (J0 : Jac) (target : PT).
Hypothesis W : wf_mb mb.
Hypothesis JO : jacobian_of mb i v0 J0.
Notation path := (jc_path J0).
Lemma in_path k : In k path -> (k < nrBodies mb)%nat. Proof. apply (root_path_in _ _ _ W (jo_path _ _ _ _ JO)). Qed.
Lemma i_lt : (i < nrBodies mb)%nat.
Proof. apply in_path. destruct (root_path_last _ _ _ (jo_path _ _ _ _ JO)) as (l & ->). apply in_or_app. right. now left. Qed.
Definition jmat (m : MBC) : list SV := concat (map (jcols m (pttr (trR (ptmul (pttr v0) (posW m i)))) J0) (seq 0 (length path))).
Lemma jacobian_is m Jx : mbc_ok mb m -> length Jx = path_dof mb path -> jacobian mb m (with_jac Jx J0) = Ok (with_jac (jmat m) J0) /\ length (jmat m) = path_dof mb path.
Proof.
  intros K L. assert (JX : jacobian_of mb i v0 (with_jac Jx J0)) by (apply jo_with_jac; auto; rewrite L; symmetry; apply JO).
  assert (PO : path_ok mb m (with_jac Jx J0)).
  { constructor; try apply JX; try apply K. - intros k. apply in_path. - rewrite (jo_sign _ _ _ _ JX). apply map_length. }
  unfold jacobian. rewrite (root_path_back _ _ _ (jo_path _ _ _ _ JX)). cbn [bind]. rewrite (get_nth _ i ptid) by (rewrite (ok_bodyPosW _ _ K); apply i_lt). cbn [bind].
  rewrite jacobian__ok by auto. cbn [bind]. unfold to_ref. cbn [with_jac jc_ref]. rewrite (jo_ref _ _ _ _ JO). cbn [Z.gtb Z.compare]. cbn [jc_path with_jac jc_point]. rewrite (jo_point _ _ _ _ JO). split; [reflexivity|].
  unfold jmat. pose proof (path_dof_idx mb m (with_jac Jx J0) (jcols m (pttr (trR (ptmul (pttr v0) (posW m i)))) J0) W PO) as PD. apply PD.
  intros idx Hi. unfold jcols. rewrite map_length. cbn [with_jac jc_path] in Hi. apply (sized_nth _ _ _ _ (ok_motionSubspace _ _ K)). rewrite (wf_nrJoints _ W). apply in_path. now apply nth_In.
Qed.
Lemma with_jac_same : with_jac (jc_jac J0) J0 = J0. Proof. destruct J0; reflexivity. Qed.
Lemma jac_J0 m : mbc_ok mb m -> jacobian mb m J0 = Ok (with_jac (jmat m) J0).
Proof. intro K. rewrite <- with_jac_same at 1. now apply (jacobian_is m _ K (jo_jac _ _ _ _ JO)). Qed.
Lemma path_params_eq m : mbc_ok mb m -> (forall k, In k path -> plain (jtyp (nth k (mb_joints mb) jd))) -> length (on_path path (q m)) = path_dof mb path.
Proof.
  intros K PL. unfold on_path, path_dof. rewrite (concat_map_length _ (fun k => jdof (nth k (mb_joints mb) jd))); auto. intros k Hk.
  assert (Kn : (k < nrBodies mb)%nat) by now apply in_path. rewrite (sized_nth mb jparams) by (try apply K; rewrite (wf_nrJoints _ W); auto). pose proof (wf_joint_nth mb k W Kn) as JK. rewrite (joint_ok_params _ JK), (joint_ok_dof _ JK).
  destruct (PL k Hk) as (P1 & P2). destruct (jtyp (nth k (mb_joints mb) jd)); try reflexivity; contradiction.
Qed.
Lemma path_params_more m k0 : mbc_ok mb m -> In k0 path -> ~ plain (jtyp (nth k0 (mb_joints mb) jd)) -> (path_dof mb path < length (on_path path (q m)))%nat.
Proof.
  intros K I0 NP. assert (G : forall l, (forall k, In k l -> (k < nrBodies mb)%nat) -> (path_dof mb l <= length (on_path l (q m)))%nat /\ (In k0 l -> (path_dof mb l < length (on_path l (q m)))%nat)).
  { induction l as [|k l IH]; intro IN.
    - split; [cbn; lia|intros []].
    - destruct IH as (I1 & I2); [intros; apply IN; now right|]. assert (Kn : (k < nrBodies mb)%nat) by (apply IN; now left). pose proof (wf_joint_nth mb k W Kn) as JK.
      assert (E1 : path_dof mb (k :: l) = (tdof (jtyp (nth k (mb_joints mb) jd)) + path_dof mb l)%nat) by (unfold path_dof; cbn; now rewrite (joint_ok_dof _ JK)).
      assert (E2 : length (on_path (k :: l) (q m)) = (tparams (jtyp (nth k (mb_joints mb) jd)) + length (on_path l (q m)))%nat).
      { unfold on_path; cbn. rewrite app_length. f_equal. rewrite (sized_nth mb jparams) by (try apply K; rewrite (wf_nrJoints _ W); auto). apply (joint_ok_params _ JK). }
      rewrite E1, E2. assert (LE : (tdof (jtyp (nth k (mb_joints mb) jd)) <= tparams (jtyp (nth k (mb_joints mb) jd)))%nat) by (generalize (jtyp (nth k (mb_joints mb) jd)); clear; intros []; unfold tdof, tparams; lia). split; [lia|].
      intros [->|H].
      + destruct (jtyp (nth k0 (mb_joints mb) jd)); try (exfalso; apply NP; split; discriminate); cbn; lia.
      + specialize (I2 H). lia. }
  apply (G path in_path); auto.
Qed.
Variables (mx : Z) (lam thr zr : R).
Definition obj (Jx : list SV) : IK := mkIK mx lam thr zr (Z.of_nat i) (with_jac Jx J0).
Notation flagged m := (if Rlt_dec (far rotErr i target m) thr then true else false).
Lemma with_q_ok m qs : mbc_ok mb m -> map (@length R) qs = map (@length R) (q m) -> mbc_ok mb (with_q qs m).
Proof. intros [] E. constructor; cbn; auto. unfold sized in *. now rewrite E. Qed.
Lemma iter_ok m Jx : mbc_ok mb m -> (forall k, In k path -> plain (jtyp (nth k (mb_joints mb) jd))) -> length Jx = path_dof mb path ->
  exists m' Jx', ik_iter svd rotErr mb target (obj Jx) m = Ok (obj Jx', m', flagged m) /\ length Jx' = path_dof mb path /\ mbc_ok mb m' /\ newton svd rotErr mb i J0 lam zr target m m'.
Proof.
  intros K PL LJ. destruct (jacobian_is m Jx K LJ) as (EJ & LM). unfold ik_iter. cbn [obj ik_jac]. rewrite EJ. cbn [bind obj with_ik_jac ik_ef ik_zero ik_lambda ik_threshold jc_jac jc_path with_jac].
  rewrite getz_nat. rewrite (get_nth _ i ptid) by (rewrite (ok_bodyPosW _ _ K); apply i_lt). cbn [bind].
  set (r := svd (map (round_sv zr) (jmat m)) (ik_residual rotErr target (posW m i))). assert (Lr : length r = path_dof mb path) by (unfold r; rewrite SVD, map_length; auto).
  pose proof (path_params_eq m K PL) as LP. pose proof (sized_length _ _ _ (ok_q _ _ K)) as LQ. rewrite (wf_nrJoints _ W) in LQ.
  destruct (ik_update_ok lam r path (q m)) as (qs' & EU & LL & U & V); [apply (root_path_increasing _ _ _ W (jo_path _ _ _ _ JO))|intros k Hk; rewrite LQ; now apply in_path|lia|].
  rewrite EU. cbn [bind snd]. pose proof (with_q_ok m qs' K LL) as K'. destruct (FK_total mb (with_q qs' m) W K') as (mk & E1 & F1). rewrite E1. cbn [bind]. pose proof (FK_mbc_ok _ _ _ W K' F1) as K1.
  destruct (FV_total mb mk W K1) as (m' & E2 & F2). rewrite E2. cbn [bind]. exists m', (jmat m). split; [reflexivity|]. split; [exact LM|]. split; [exact (FV_mbc_ok _ _ _ K1 F2)|].
  assert (Q' : q m' = qs'). { rewrite (fv_frame _ _ _ F2). cbn. rewrite (fk_frame _ _ _ F1). reflexivity. }
  exists (with_jac (jmat m) J0), (posW m i). split; [now apply jac_J0|]. split; [apply nth_error_nth'; rewrite (ok_bodyPosW _ _ K); apply i_lt|]. rewrite Q'. cbv zeta. split; [exact LL|].
  cbn [with_jac jc_jac]. split.
  - intros d Hd. rewrite V by lia. unfold r. rewrite (map_ext _ _ (round_sv_flush zr)). reflexivity.
  - split; [exact U|]. exists mk. rewrite <- Q'. split; auto. rewrite Q'. exact E1.
Qed.
Lemma iter_fail m Jx k0 : mbc_ok mb m -> In k0 path -> ~ plain (jtyp (nth k0 (mb_joints mb) jd)) -> length Jx = path_dof mb path -> ik_iter svd rotErr mb target (obj Jx) m = UB.
Proof.
  intros K I0 NP LJ. destruct (jacobian_is m Jx K LJ) as (EJ & LM). unfold ik_iter. cbn [obj ik_jac]. rewrite EJ. cbn [bind obj with_ik_jac ik_ef ik_zero ik_lambda ik_threshold jc_jac jc_path with_jac].
  rewrite getz_nat. rewrite (get_nth _ i ptid) by (rewrite (ok_bodyPosW _ _ K); apply i_lt). cbn [bind]. pose proof (sized_length _ _ _ (ok_q _ _ K)) as LQ. rewrite (wf_nrJoints _ W) in LQ.
  rewrite ik_update_fail; [reflexivity|intros k Hk; rewrite LQ; now apply in_path|]. rewrite SVD, map_length, LM. pose proof (path_params_more m k0 K I0 NP). lia.
Qed.
(** *** The loop: r more iterations are allowed. *)
Hypothesis PL : forall k, In k path -> plain (jtyp (nth k (mb_joints mb) jd)).
Definition trace (m : MBC) (ms : nat -> MBC) (k : nat) (b : bool) (m' : MBC) : Prop :=
  ms 0%nat = m /\ ms k = m' /\ (forall t, (t < k)%nat -> newton svd rotErr mb i J0 lam zr target (ms t) (ms (S t))) /\
  (forall t, (S t < k)%nat -> thr <= far rotErr i target (ms t)) /\
  (b = true <-> exists t, k = S t /\ far rotErr i target (ms t) < thr).
Lemma loop_ok : forall r fuel iter m Jx, (r <= fuel)%nat -> Z.to_nat (mx - iter) = r -> mbc_ok mb m -> length Jx = path_dof mb path ->
  exists Jx' m' b ms k, ik_loop svd rotErr fuel mb target iter false (obj Jx) m = Ok (obj Jx', m', b) /\ length Jx' = path_dof mb path /\ mbc_ok mb m' /\ (k <= r)%nat /\ (b = false -> k = r) /\ trace m ms k b m'.
Proof.
  induction r as [|r IH]; intros fuel iter m Jx F EM K LJ.
  - exists Jx, m, false, (fun _ => m), 0%nat. assert (NL : (iter <? mx)%Z = false) by (apply Z.ltb_ge; lia).
    split. { destruct fuel; cbn [ik_loop obj ik_max]; rewrite NL; reflexivity. }
    do 4 (split; [auto|]). unfold trace. do 2 (split; [auto|]). split; [intros; lia|]. split; [intros; lia|]. split; [discriminate|intros (t & X & _); discriminate].
  - destruct fuel as [|fuel]; [lia|]. assert (LT : (iter <? mx)%Z = true) by (apply Z.ltb_lt; lia). cbn [ik_loop]. change (ik_max (obj Jx)) with mx. rewrite LT. cbn [negb andb].
    destruct (iter_ok m Jx K PL LJ) as (m1 & J1 & E1 & L1 & K1 & N1). rewrite E1. cbn [bind fst snd].
    destruct (Rlt_dec (far rotErr i target m) thr) as [C|C].
    + exists J1, m1, true, (fun t => match t with O => m | S _ => m1 end), 1%nat. split. { destruct fuel; cbn [ik_loop negb andb]; reflexivity. }
      do 2 (split; [auto|]). split; [lia|]. split; [discriminate|]. unfold trace. do 2 (split; [auto|]). split; [intros t Ht; replace t with 0%nat by lia; exact N1|]. split; [intros; lia|]. split; auto. intros _. exists 0%nat. auto.
    + destruct (IH fuel (iter + 1)%Z m1 J1) as (J2 & m2 & b & ms & k & E2 & L2 & K2 & B2 & F2 & (T0 & T1 & T2 & T3 & T4)); auto; [lia|lia|].
      exists J2, m2, b, (fun t => match t with O => m | S t => ms t end), (S k). split; [exact E2|]. do 2 (split; [auto|]). split; [lia|]. split; [intro X; rewrite (F2 X); auto|].
      unfold trace. split; auto. split; auto. split.
      { intros [|t] Ht; [now rewrite T0|apply T2; lia]. }
      split. { intros [|t] Ht; [lra|apply T3; lia]. }
      rewrite T4. split.
      * intros (t & -> & H). exists (S t). auto.
      * intros (t & X & H). injection X as <-. destruct k as [|k]; [contradiction|]. exists k. auto.
Qed.
End Iter.
Lemma IK_obj I : exists Jx, I = mkIK (ik_max I) (ik_lambda I) (ik_threshold I) (ik_zero I) (ik_ef I) (with_jac Jx (ik_jac I)) /\ Jx = jc_jac (ik_jac I).
Proof. exists (jc_jac (ik_jac I)). split; auto. destruct I as [? ? ? ? ? []]. reflexivity. Qed.
Definition same_ik (I I' : IK) : Prop := exists Jx, I' = with_ik_jac (with_jac Jx (ik_jac I)) I.
Theorem ik_bounded svd rotErr mb i I target m fuel : (forall A v, length (svd A v) = length A) -> wf_mb mb -> mbc_ok mb m -> jacobian_of mb i v0 (ik_jac I) -> ik_ef I = Z.of_nat i ->
  (forall k, In k (jc_path (ik_jac I)) -> plain (jtyp (nth k (mb_joints mb) jd))) -> (Z.to_nat (ik_max I) <= fuel)%nat ->
  exists I' m' b (ms : nat -> MBC) k, inverseKinematics svd rotErr fuel mb target I m = Ok (I', m', b) /\ mbc_ok mb m' /\ same_ik I I' /\ jacobian_of mb i v0 (ik_jac I') /\
    (k <= Z.to_nat (ik_max I))%nat /\ (b = false -> k = Z.to_nat (ik_max I)) /\
    forwardKinematics mb m = Ok (ms 0%nat) /\ ms k = m' /\
    (forall t, (t < k)%nat -> newton svd rotErr mb i (ik_jac I) (ik_lambda I) (ik_zero I) target (ms t) (ms (S t))) /\
    (forall t, (S t < k)%nat -> ik_threshold I <= far rotErr i target (ms t)) /\
    (b = true <-> exists t, k = S t /\ far rotErr i target (ms t) < ik_threshold I).
Proof.
  intros SVD W K JO EF PL F. destruct (FK_total mb m W K) as (m0 & E0 & F0). pose proof (FK_mbc_ok _ _ _ W K F0) as K0.
  destruct (IK_obj I) as (Jx & EI & EJx). rewrite EF in EI. unfold inverseKinematics. rewrite E0. cbn [bind].
  assert (LJ : length Jx = path_dof mb (jc_path (ik_jac I))) by (rewrite EJx; apply JO).
  destruct (loop_ok svd rotErr SVD mb i (ik_jac I) target W JO (ik_max I) (ik_lambda I) (ik_threshold I) (ik_zero I) PL (Z.to_nat (ik_max I)) fuel 0 m0 Jx F ltac:(f_equal; lia) K0 LJ) as (J' & m' & b & ms & k & E & L' & K' & B & FB & (T0 & T1 & T2 & T3 & T4)).
  unfold obj in E. rewrite <- EI in E. exists (obj i (ik_jac I) (ik_max I) (ik_lambda I) (ik_threshold I) (ik_zero I) J'), m', b, ms, k. split; [exact E|]. split; [auto|].
  split; [exists J'; unfold obj, with_ik_jac; now rewrite EF|]. split; [apply jo_with_jac; auto; rewrite L'; symmetry; apply JO|]. do 2 (split; [auto|]). split; [now rewrite T0|]. auto.
Qed.
Theorem ik_curved svd rotErr mb i I target m fuel : (forall A v, length (svd A v) = length A) -> wf_mb mb -> mbc_ok mb m -> jacobian_of mb i v0 (ik_jac I) -> ik_ef I = Z.of_nat i ->
  (0 < ik_max I)%Z -> (0 < fuel)%nat -> forall k, In k (jc_path (ik_jac I)) -> ~ plain (jtyp (nth k (mb_joints mb) jd)) -> inverseKinematics svd rotErr fuel mb target I m = UB.
Proof.
  intros SVD W K JO EF MX F k Ik NP. destruct (FK_total mb m W K) as (m0 & E0 & F0). pose proof (FK_mbc_ok _ _ _ W K F0) as K0.
  destruct (IK_obj I) as (Jx & EI & EJx). rewrite EF in EI. unfold inverseKinematics. rewrite E0. cbn [bind]. destruct fuel as [|fuel]; [lia|]. cbn [ik_loop negb andb]. rewrite (proj2 (Z.ltb_lt 0 (ik_max I)) MX). cbn [andb].
  pose proof (iter_fail svd rotErr SVD mb i (ik_jac I) target W JO (ik_max I) (ik_lambda I) (ik_threshold I) (ik_zero I) m0 Jx k K0 Ik NP) as IF. unfold obj in IF. rewrite <- EI in IF. rewrite IF; [reflexivity|]. rewrite EJx. apply JO.
Qed.
(** *** Starting on the target. *)
Lemma app_inv_length {A} (a b c d : list A) : length a = length c -> a ++ b = c ++ d -> a = c /\ b = d.
Proof. revert c. induction a as [|x a IH]; intros [|y c] L E; try discriminate; auto. injection E as -> E. destruct (IH c) as (-> & ->); auto. Qed.
Lemma FK_again mb m m0 mk : wf_mb mb -> mbc_ok mb m -> forwardKinematics mb m = Ok m0 -> forwardKinematics mb (with_q (q m) m0) = Ok mk -> bodyPosW mk = bodyPosW m0.
Proof.
  intros W K E0 E1. pose proof (FK_run _ _ _ W K E0) as F0. pose proof (FK_mbc_ok _ _ _ W K F0) as K0.
  assert (Q0 : q m0 = q m) by (rewrite (fk_frame _ _ _ F0); reflexivity). assert (K1 : mbc_ok mb (with_q (q m) m0)) by (apply with_q_ok; [exact K0|now rewrite Q0]).
  pose proof (FK_run _ _ _ W K1 E1) as F1. assert (L1 : length (bodyPosW mk) = nrBodies mb) by (apply (FK_mbc_ok _ _ _ W K1 F1)). pose proof (ok_bodyPosW _ _ K0) as L0.
  assert (PS : forall i, (i < nrBodies mb)%nat -> nth i (parentToSon mk) ptid = nth i (parentToSon m0) ptid).
  { intros i Hi. rewrite (fk_pts _ _ _ F1), (fk_pts _ _ _ F0) by auto. pose proof (fk_jc _ _ _ F1 i Hi) as A. pose proof (fk_jc _ _ _ F0 i Hi) as B. cbn [q with_q] in A. rewrite A in B. injection B as ->. reflexivity. }
  apply (list_ext_nth _ _ ptid); [lia|]. intros i Hi. rewrite L1 in Hi. induction i as [i IH] using lt_wf_ind. rewrite (fk_bp _ _ _ F1), (fk_bp _ _ _ F0) by auto. rewrite PS by auto.
  destruct (par mb i) as [p|] eqn:P; auto. f_equal. apply IH; [|]; pose proof (par_lt mb i p W Hi P); lia.
Qed.
Theorem ik_at_target svd rotErr mb i I target m m0 fuel : (forall A v, length (svd A v) = length A) -> wf_mb mb -> mbc_ok mb m -> jacobian_of mb i v0 (ik_jac I) -> ik_ef I = Z.of_nat i ->
  (forall k, In k (jc_path (ik_jac I)) -> plain (jtyp (nth k (mb_joints mb) jd))) -> (Z.to_nat (ik_max I) <= fuel)%nat ->
  (forall A d, co (svd A sv0) d = 0) -> rotErr (rotE target) (rotE target) = v0 -> (0 < ik_max I)%Z -> 0 < ik_threshold I ->
  forwardKinematics mb m = Ok m0 -> nth i (bodyPosW m0) ptid = target ->
  exists I' m', inverseKinematics svd rotErr fuel mb target I m = Ok (I', m', true) /\ q m' = q m /\ bodyPosW m' = bodyPosW m0.
Proof.
  intros SVD W K JO EF PL F S0 R0 MX TH E0 TG. destruct (ik_bounded svd rotErr mb i I target m fuel SVD W K JO EF PL F) as (I' & m' & b & ms & k & E & K' & _ & _ & B & FB & EM & EK & NW & ER & FL).
  rewrite E0 in EM. injection EM as EM. pose proof (FK_run _ _ _ W K E0) as F0. pose proof (FK_mbc_ok _ _ _ W K F0) as K0.
  assert (G : gap rotErr target target = sv0). { unfold gap. rewrite R0. unfold sv0. f_equal. unfold vsub, v0. f_equal; ring. }
  assert (FAR : far rotErr i target (ms 0%nat) = 0). { unfold far, gap_norm. rewrite <- EM, TG, G. cbv zeta. unfold sv0, v0; cbn [sang slin vx vy vz]. replace (_ + _) with 0 by ring. apply sqrt_0. }
  assert (K1 : k = 1%nat). { destruct k as [|[|k]]; auto. - destruct b; [destruct (proj1 FL eq_refl) as (t & X & _); discriminate|]. specialize (FB eq_refl). lia. - specialize (ER 0%nat ltac:(lia)). lra. }
  subst k. assert (Bt : b = true) by (apply FL; exists 0%nat; split; auto; lra). subst b. exists I', m'. split; auto. specialize (NW 0%nat ltac:(lia)). rewrite EK, <- EM in NW.
  destruct NW as (J1 & X & _ & HX & N). cbv zeta in N. destruct N as (LL & V & U & mk & A1 & A2).
  assert (X = target) by (rewrite <- TG; apply nth_error_nth with (d := ptid) in HX; auto). subst X.
  assert (Q0 : q m0 = q m) by (rewrite (fk_frame _ _ _ F0); reflexivity). pose proof (path_params_eq mb i (ik_jac I) W JO m0 K0 PL) as LP.
  assert (QQ : q m' = q m0).
  { apply (list_ext_nth _ _ []); [now apply lens_len|]. intros j Hj. destruct (in_dec Nat.eq_dec j (jc_path (ik_jac I))) as [IN|NI]; [|now apply U].
    assert (OP : on_path (jc_path (ik_jac I)) (q m') = on_path (jc_path (ik_jac I)) (q m0)).
    { apply (list_ext_nth _ _ 0); [now apply on_path_len_eq|]. intros d Hd. rewrite (on_path_len_eq _ _ _ LL), LP in Hd. specialize (V d Hd). rewrite G, S0 in V. unfold co in V. lra. }
    revert IN OP. clear - LL. induction (jc_path (ik_jac I)) as [|a l IH]; [intros []|]. unfold on_path. cbn. intros IN OP. destruct (app_inv_length _ _ _ _ (lens_nth _ _ a LL) OP) as (O1 & O2). destruct IN as [->|IN]; auto. }
  split; [congruence|]. rewrite QQ, Q0 in A1. rewrite <- (FK_again mb m m0 mk W K E0 A1). assert (Kq : mbc_ok mb (with_q (q m) m0)) by (apply with_q_ok; [exact K0|now rewrite Q0]).
  pose proof (FK_run _ _ _ W Kq A1) as F1. pose proof (FK_mbc_ok _ _ _ W Kq F1) as Kk. destruct (FV_total mb mk W Kk) as (m2 & E2 & F2). rewrite E2 in A2. injection A2 as ->. rewrite (fv_frame _ _ _ F2). reflexivity.
Qed.
Lemma ctor_ik g mb i b : wf_mb mb -> nth_error (mb_bodies mb) i = Some b -> sBodyIndexByName mb (bname b) = Ok (Z.of_nat i) ->
  exists I, IK_ctor g mb (Z.of_nat i) = Ok I /\ jacobian_of mb i v0 (ik_jac I) /\ ik_ef I = Z.of_nat i /\ ik_max I = 50%Z.
Proof.
  intros W B N. assert (L : (i < nrBodies mb)%nat) by (unfold nrBodies; apply nth_error_Some; congruence). destruct (ctor_ok g mb (bname b) v0 i W N L) as (J & EJ & HJ).
  unfold IK_ctor. rewrite getz_nat. rewrite (proj2 (get_Ok _ _ _) B). cbn [bind]. rewrite EJ. cbn [bind]. eexists. split; [reflexivity|]. auto.
Qed.
Lemma sIK_ok svd rotErr mb I target m fuel : wf_mb mb -> mbc_ok mb m -> sInverseKinematics svd rotErr fuel mb target I m = inverseKinematics svd rotErr fuel mb target I m.
Proof.
  intros W K. pose proof (wf_nrJoints mb W) as NJ. unfold sInverseKinematics.
  destruct (checks_exact mb m) as (H1 & _ & _ & _ & _ & _ & _ & _ & _ & _ & _ & H2 & _ & _ & H3 & _ & H4).
  rewrite (proj2 H1) by apply K. cbn [bind]. rewrite (proj2 H2) by apply K. cbn [bind]. rewrite (proj2 H3) by apply K. cbn [bind]. rewrite (proj2 H4) by (rewrite NJ; apply K). reflexivity.
Qed.
