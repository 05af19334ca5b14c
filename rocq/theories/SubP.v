(** The chain extracted by subMultiBody. *)
From Coq Require Import Reals String ZArith Bool Arith List Lia Lra.
From Verif Require Import Res ResP SMap Vec VecP Sva SvaP Mat JointM MultiBodyM KinM DynM JacM Spec SpecDyn SpecJac SpecRel SpecSub
  JointP JointFinP KinP KinPathP MbP TreeP DynP DynCP ConvP KinFinP SpecDeriv DerivP DerivTreeP JacP JacFinP JacFin2P RelP RelTopP RelFinP.
Import ListNotations.
Open Scope R_scope.

(** Entries of the chain: [n] is the number of joints walked backwards. *)
Definition sub_j (mb : MultiBody) (path : list nat) (n k : nat) : Joint :=
  let j := nth (nth k path 0%nat) (mb_joints mb) jd in if (k <? n)%nat then set_forward j (negb (jfwd j)) else j.
Definition sub_x (mb : MultiBody) (path : list nat) (n k : nat) : PT :=
  let X i := nth (nth i path 0%nat) (mb_Xt mb) ptid in
  match k with
  | O => if (0 <? n)%nat then ptid else X 0%nat
  | S p => if (p <? n)%nat then (if (S p <? n)%nat then ptinv (X p) else ptmul (ptinv (X p)) (X (S p))) else X (S p)
  end.
Lemma sign_nth (dn up : list nat) k : (k < length (dn ++ up))%nat ->
  get (map (fun _ => -1) dn ++ map (fun _ => 1) up) k = Ok (if (k <? length dn)%nat then -1 else 1).
Proof.
  intro L. rewrite app_length in L. rewrite (get_nth _ _ 0) by (rewrite app_length, !map_length; lia). f_equal.
  destruct (Nat.ltb_spec k (length dn)).
  - rewrite app_nth1 by (rewrite map_length; lia). rewrite (nth_map_lt _ dn k 0%nat 0) by lia. reflexivity.
  - rewrite app_nth2 by (rewrite map_length; lia). rewrite map_length. rewrite (nth_map_lt _ up _ 0%nat 0) by lia. reflexivity.
Qed.
Lemma unit_fwd j b : joint_unit j -> joint_unit (set_forward j b).
Proof. intros (a & U & B). exists a. split; [exact U|now constructor]. Qed.
Lemma pttr_v0 : pttr v0 = ptid. Proof. reflexivity. Qed.
Ltac req := match goal with |- context [Req_EM_T ?a ?b] => destruct (Req_EM_T a b); try (exfalso; lra) end.
Lemma list_sum_map_seq {A} (f : A -> nat) (l : list A) d : list_sum (map (fun k => f (nth k l d)) (seq 0 (length l))) = list_sum (map f l).
Proof. f_equal. apply (map_seq_nth f). Qed.

Lemma vadd_assoc_sub a b r : svadd (svsub a r) b = svsub (svadd a b) r.
Proof. svring. Qed.
Lemma sub_0 : svsub (sv0) sv0 = sv0. Proof. svring. Qed.
Lemma ptm_svsub X a b : ptm X (svsub a b) = svsub (ptm X a) (ptm X b).
Proof. svring. Qed.
Lemma sub_same a b : svsub (svadd a b) a = b. Proof. svring. Qed.
Lemma ptm_zero X : ptm X sv0 = sv0. Proof. svring. Qed.
Lemma sub_zero_r a : svsub a sv0 = a. Proof. svring. Qed.
Lemma ptmul_cancel_l A X Y : rigid A -> ptmul A X = ptmul A Y -> X = Y.
Proof. intros RA H. apply (f_equal (ptmul (ptinv A))) in H. rewrite !ptmul_assoc, ptinv_l, !ptmul_id_l in H by auto. exact H. Qed.
Lemma ptmul_cancel_r A X Y : rigid A -> ptmul X A = ptmul Y A -> X = Y.
Proof. intros RA H. apply (f_equal (fun Z => ptmul Z (ptinv A))) in H. rewrite <- !ptmul_assoc, ptinv_r, !ptmul_id_r in H by auto. exact H. Qed.
Section Sub.
Variables (mb : MultiBody) (J : Jac) (dn up : list nat).
Hypothesis W : wf_mb mb.
Hypothesis RM : rigid_mb mb.
Hypothesis IN : forall k, In k (dn ++ up) -> (k < nrBodies mb)%nat.
Hypothesis EP : jc_path J = dn ++ up.
Hypothesis ES : jc_sign J = map (fun _ => -1) dn ++ map (fun _ => 1) up.
Let path := dn ++ up.
Let N := length path.
Let n := length dn.
Lemma path_in k : (k < N)%nat -> (nth k path 0%nat < nrBodies mb)%nat.
Proof. intro. apply IN. now apply nth_In. Qed.
Lemma sub_Xt_ok k : (k < N)%nat -> sub_Xt mb J k (nth k path 0%nat) = Ok (sub_x mb path n k).
Proof.
  intro L. unfold sub_Xt, sub_x. rewrite ES, sign_nth by exact L. fold n. cbn [bind].
  assert (GX : forall i, (i < N)%nat -> get (mb_Xt mb) (nth i path 0%nat) = Ok (nth (nth i path 0%nat) (mb_Xt mb) ptid)).
  { intros i Hi. apply get_nth. rewrite (wf_Xt_len mb W). now apply path_in. }
  destruct k as [|p].
  - destruct (Nat.ltb_spec 0 n); req; [now rewrite pttr_v0|now apply GX].
  - rewrite sign_nth by (fold path N; lia). fold n. cbn [bind]. rewrite EP. fold path.
    rewrite (get_nth path p 0%nat) by (fold N; lia).
    destruct (Nat.ltb_spec p n).
    + destruct (Req_EM_T (-1) (-1)); [|lra]. cbn [bind]. rewrite GX by lia. cbn [bind].
      destruct (Nat.ltb_spec (S p) n); req; [reflexivity|]. rewrite GX by lia. reflexivity.
    + destruct (Nat.ltb_spec (S p) n); [lia|]. req. now apply GX.
Qed.
Lemma sub_x_rigid k : (k < N)%nat -> rigid (sub_x mb path n k).
Proof.
  intro L. assert (GX : forall i, (i < N)%nat -> rigid (nth (nth i path 0%nat) (mb_Xt mb) ptid)).
  { intros i Hi. apply (proj2 RM). apply nth_In. rewrite (wf_Xt_len mb W). now apply path_in. }
  unfold sub_x. destruct k as [|p].
  - destruct (0 <? n)%nat; [apply SO3_id|now apply GX].
  - destruct (p <? n)%nat; [destruct (S p <? n)%nat; [apply rigid_inv; apply GX; lia|apply rigid_mul; [apply rigid_inv|]; apply GX; lia]|now apply GX].
Qed.
Lemma sub_j_unit k : (k < N)%nat -> joint_unit (sub_j mb path n k).
Proof.
  intro L. assert (U : joint_unit (nth (nth k path 0%nat) (mb_joints mb) jd)) by (apply (proj1 RM), nth_In; rewrite (wf_joints mb W); now apply path_in).
  unfold sub_j. destruct (k <? n)%nat; [now apply unit_fwd|exact U].
Qed.
Lemma sub_ok : exists ch, subMultiBody mb J = Ok ch /\ is_chain mb path ch /\
  mb_joints ch = map (sub_j mb path n) (seq 0 N) /\ mb_Xt ch = map (sub_x mb path n) (seq 0 N).
Proof.
  pose proof (wf_nrJoints mb W) as NJ. unfold nrJoints in NJ.
  unfold subMultiBody. rewrite EP. fold path. fold N.
  rewrite (map_res_all_Ok (get (mb_bodies mb)) (fun k => nth k (mb_bodies mb) bd)) by (intros; apply get_nth; now apply IN). cbn [bind].
  rewrite (map_res_all_Ok _ (sub_j mb path n)).
  2:{ intros k Hk. apply in_seq in Hk. rewrite (get_nth path k 0%nat) by (fold N; lia). cbn [bind].
      rewrite (get_nth (mb_joints mb) _ jd) by (rewrite NJ; apply path_in; lia). cbn [bind].
      rewrite ES, sign_nth by (fold path N; lia). cbn [bind]. unfold sub_j. fold n. destruct (k <? n)%nat; req; reflexivity. }
  cbn [bind].
  rewrite (map_res_all_Ok _ (sub_x mb path n)).
  2:{ intros k Hk. apply in_seq in Hk. rewrite (get_nth path k 0%nat) by (fold N; lia). cbn [bind]. apply sub_Xt_ok. lia. }
  cbn [bind].
  set (pr := map (fun k => (Z.of_nat k - 1)%Z) (seq 0 N)).
  destruct (MultiBody_ctor_spec (map (fun k => nth k (mb_bodies mb) bd) path) (map (sub_j mb path n) (seq 0 N)) pr (map Z.of_nat (seq 0 N)) pr (map (sub_x mb path n) (seq 0 N)))
    as (ch & EC & Eb & Ej & Ep & Es & Epa & EX & _ & _ & _ & _ & Nd & _).
  { rewrite !map_length, seq_length. fold N. lia. }
  exists ch. split; [exact EC|]. split; [|auto].
  assert (WC : wf_mb ch).
  { apply (MultiBody_ctor_wf _ _ _ _ _ ch) in EC; auto. constructor; unfold pr; rewrite ?map_length, ?seq_length; auto.
    - intros i z Hz. rewrite nth_error_map in Hz. destruct (nth_error (seq 0 N) i) eqn:E; [|discriminate]. cbn in Hz. injection Hz as <-.
      assert (i < N)%nat by (rewrite <- (seq_length N 0); apply nth_error_Some; congruence).
      rewrite (nth_error_nth' _ 0%nat), seq_nth in E by (rewrite ?seq_length; auto). injection E as <-. lia.
    - intros j Hj. apply in_map_iff in Hj as (k & <- & Hk). apply in_seq in Hk. apply joint_unit_ok. apply sub_j_unit. lia. }
  unfold is_chain. split; [exact WC|]. split.
  { split.
    - rewrite Ej. intros j Hj. apply in_map_iff in Hj as (k & <- & Hk). apply in_seq in Hk. apply sub_j_unit. lia.
    - rewrite EX. intros X Hj. apply in_map_iff in Hj as (k & <- & Hk). apply in_seq in Hk. apply sub_x_rigid. lia. }
  split; [unfold nrBodies; now rewrite Eb, map_length|]. split; [exact Ep|]. split.
  { rewrite Nd. rewrite firstn_all2 by (rewrite !map_length, seq_length; fold N; lia). rewrite map_map.
    unfold path_dof. rewrite <- (list_sum_map_seq (fun k => jdof (nth k (mb_joints mb) jd)) path 0%nat). f_equal. apply map_ext_in. intros k _.
    unfold sub_j. destruct (k <? n)%nat; reflexivity. }
  intros k Hk. rewrite Eb, nth_error_map, (nth_error_nth' path 0%nat) by exact Hk. cbn [option_map]. symmetry. apply nth_error_nth'. now apply path_in.
Qed.

(** ** Poses along the chain *)
Variables (m0 m : MBC) (ch : MultiBody) (c0 c : MBC).
Hypothesis RN : run mb m0 m.
Hypothesis CK : config_ok mb m0.
Hypothesis M0 : mbc_ok mb m0.
Hypothesis HC : is_chain mb path ch.
Hypothesis EJ : mb_joints ch = map (sub_j mb path n) (seq 0 N).
Hypothesis EX : mb_Xt ch = map (sub_x mb path n) (seq 0 N).
Hypothesis KC : mbc_ok ch c0.
Hypothesis AL : along path m0 c0.
Hypothesis AK : after_kinematics ch c0 c.
Let WC : wf_mb ch := proj1 HC.
Let RC : rigid_mb ch := proj1 (proj2 HC).
Let NC : nrBodies ch = N := proj1 (proj2 (proj2 HC)).
Lemma ch_joint k : (k < N)%nat -> nth k (mb_joints ch) jd = sub_j mb path n k.
Proof. intro L. rewrite EJ. now rewrite nth_map_seq. Qed.
Lemma ch_X k : (k < N)%nat -> nth k (mb_Xt ch) ptid = sub_x mb path n k.
Proof. intro L. rewrite EX. now rewrite nth_map_seq. Qed.
Lemma ch_q k : (k < N)%nat -> nth k (q c0) [] = nth (nth k path 0%nat) (q m0) [].
Proof. intro L. rewrite (proj1 AL). apply (nth_map_lt (fun k => nth k (q m0) []) path k 0%nat []). exact L. Qed.
Lemma ch_a k : (k < N)%nat -> nth k (alpha c0) [] = nth (nth k path 0%nat) (alpha m0) [].
Proof. intro L. rewrite (proj2 AL). apply (nth_map_lt (fun k => nth k (alpha m0) []) path k 0%nat []). exact L. Qed.
Lemma q_ok_fwd j b x : q_ok j x -> q_ok (set_forward j b) x.
Proof. intro H. exact H. Qed.
Lemma ch_config : config_ok ch c0.
Proof.
  intros k j qi Ej Eq. assert (L : (k < N)%nat).
  { rewrite <- NC, <- (wf_joints ch WC). apply nth_error_Some. congruence. }
  apply (nth_error_nth _ _ jd) in Ej. apply (nth_error_nth _ _ []) in Eq. rewrite ch_joint in Ej by auto. rewrite ch_q in Eq by auto. subst.
  pose proof (q_ok_nth mb m0 _ W M0 CK (path_in k L)) as Q. unfold sub_j. destruct (k <? n)%nat; [now apply q_ok_fwd|exact Q].
Qed.
Let RR : run ch c0 c := kin_run ch c0 c WC RC KC ch_config AK.
Lemma ch_run : run ch c0 c. Proof. exact RR. Qed.
Lemma ch_pose k : (k < N)%nat -> nth k (jointConfig c) ptid =
  if (k <? n)%nat then ptinv (nth (nth k path 0%nat) (jointConfig m) ptid) else nth (nth k path 0%nat) (jointConfig m) ptid.
Proof.
  intro L. pose proof (r_pose _ _ _ RR k) as P. rewrite NC, ch_joint, ch_q in P by auto. specialize (P L).
  pose proof (r_pose _ _ _ RN _ (path_in k L)) as P'. unfold sub_j in P. destruct (k <? n)%nat.
  - assert (U : joint_unit (nth (nth k path 0%nat) (mb_joints mb) jd)) by (apply (proj1 RM), nth_In; rewrite (wf_joints mb W); now apply path_in).
    rewrite (pose_reverse _ _ _ U (q_ok_nth mb m0 _ W M0 CK (path_in k L)) P') in P. injection P as P. congruence.
  - rewrite P' in P. injection P as P. congruence.
Qed.
Lemma ch_par k : (k < N)%nat -> par ch k = match k with O => None | S p => Some p end.
Proof.
  intro L. assert (E : nth_error (mb_pred ch) k = Some (Z.of_nat k - 1)%Z).
  { rewrite (proj1 (proj2 (proj2 (proj2 HC)))). fold N. rewrite nth_error_map, (nth_error_nth' _ 0%nat) by now rewrite seq_length. now rewrite seq_nth. }
  destruct k as [|p]; [now apply pred_par_none|]. apply pred_par. rewrite E. f_equal. lia.
Qed.
(** World frame of a body, the world itself for none. *)
Definition at_par (o : option nat) : PT := match o with Some p => posW m p | None => ptid end.
Lemma pos_par i : (i < nrBodies mb)%nat -> posW m i = ptmul (ptmul (nth i (jointConfig m) ptid) (nth i (mb_Xt mb) ptid)) (at_par (par mb i)).
Proof.
  intro L. rewrite (r_bp _ _ _ RN i L), (r_pts _ _ _ RN i L). unfold at_par. destruct (par mb i); [reflexivity|now rewrite ptmul_id_r].
Qed.
Lemma at_par_rigid i : (i < nrBodies mb)%nat -> rigid (at_par (par mb i)).
Proof.
  intro L. destruct (par mb i) as [p|] eqn:E; [|apply SO3_id]. apply (r_rw _ _ _ RN). pose proof (par_lt mb i p W L E). lia.
Qed.
Lemma ch_pos k : (k < N)%nat -> posW c k = ptmul (ptmul (nth k (jointConfig c) ptid) (sub_x mb path n k)) (match k with O => ptid | S p => posW c p end).
Proof.
  intro L. assert (Lc : (k < nrBodies ch)%nat) by (rewrite NC; exact L).
  rewrite (r_bp _ _ _ RR k Lc), (r_pts _ _ _ RR k Lc), ch_par, ch_X by auto. destruct k; [now rewrite ptmul_id_r|reflexivity].
Qed.
Lemma xt_rigid i : (i < nrBodies mb)%nat -> rigid (nth i (mb_Xt mb) ptid).
Proof. intro L. apply (proj2 RM), nth_In. now rewrite (wf_Xt_len mb W). Qed.
(** The frame where the joint of body i is mounted. *)
Definition mount (i : nat) : PT := ptmul (nth i (mb_Xt mb) ptid) (at_par (par mb i)).
Lemma mount_pos i : (i < nrBodies mb)%nat -> mount i = ptmul (ptinv (nth i (jointConfig m) ptid)) (posW m i).
Proof.
  intro L. rewrite pos_par by auto. rewrite <- (ptmul_assoc (nth i (jointConfig m) ptid)). rewrite ptmul_assoc, ptinv_l, ptmul_id_l; [reflexivity|].
  apply (r_rj _ _ _ RN i L).
Qed.
Lemma pos_mount i : (i < nrBodies mb)%nat -> posW m i = ptmul (nth i (jointConfig m) ptid) (mount i).
Proof. intro L. rewrite pos_par by auto. now rewrite <- ptmul_assoc. Qed.
(** The part walked backwards. *)
Variable Xr : PT.
Hypothesis RX : rigid Xr.
Hypothesis D0 : (0 < n)%nat -> posW m (nth 0 path 0%nat) = Xr.
Hypothesis DS : forall k, (S k < n)%nat -> par mb (nth k path 0%nat) = Some (nth (S k) path 0%nat).
Lemma n_le : (n <= N)%nat. Proof. unfold n, N, path. rewrite app_length. lia. Qed.
Lemma down_pos k : (k < n)%nat -> posW c k = ptmul (mount (nth k path 0%nat)) (ptinv Xr).
Proof.
  pose proof n_le. induction k as [|k IH]; intro L; rewrite ch_pos by lia; rewrite ch_pose by lia.
  - replace (0 <? n)%nat with true by (symmetry; now apply Nat.ltb_lt). unfold sub_x. replace (0 <? n)%nat with true by (symmetry; now apply Nat.ltb_lt).
    rewrite !ptmul_id_r. rewrite mount_pos by (apply path_in; lia). rewrite D0 by auto. rewrite <- ptmul_assoc, ptinv_r, ptmul_id_r by auto. reflexivity.
  - replace (S k <? n)%nat with true by (symmetry; now apply Nat.ltb_lt). unfold sub_x.
    replace (k <? n)%nat with true by (symmetry; apply Nat.ltb_lt; lia). replace (S k <? n)%nat with true by (symmetry; now apply Nat.ltb_lt).
    rewrite IH by lia. unfold mount at 1. rewrite DS by auto. cbn [at_par].
    rewrite mount_pos by (apply path_in; lia). rewrite <- !ptmul_assoc. f_equal. rewrite ptmul_assoc, ptinv_l, ptmul_id_l; [reflexivity|].
    apply xt_rigid, path_in. lia.
Qed.
(** The part walked forwards. *)
Hypothesis UF : n = 0%nat -> (0 < N)%nat -> at_par (par mb (nth 0 path 0%nat)) = Xr.
Hypothesis US : forall k, (n <= k)%nat -> (S k < N)%nat -> par mb (nth (S k) path 0%nat) = Some (nth k path 0%nat).
(** At the turn the result is right exactly when the two placements commute. *)
Lemma up_iff k : (n <= k)%nat -> (k < N)%nat ->
  (posW c k = relative_pose (posW m (nth k path 0%nat)) Xr <-> posW c n = relative_pose (posW m (nth n path 0%nat)) Xr).
Proof.
  induction k as [|k IH]; intros L1 L2.
  - assert (E : n = 0%nat) by lia. rewrite E. tauto.
  - destruct (Nat.eq_dec n (S k)) as [E|NE]; [rewrite <- E; tauto|]. rewrite <- (IH ltac:(lia) ltac:(lia)).
    rewrite ch_pos by lia. rewrite ch_pose by lia. unfold sub_x.
    replace (S k <? n)%nat with false by (symmetry; apply Nat.ltb_ge; lia). replace (k <? n)%nat with false by (symmetry; apply Nat.ltb_ge; lia).
    unfold relative_pose. rewrite (pos_par (nth (S k) path 0%nat)) by now apply path_in. rewrite US by lia. cbn [at_par]. rewrite <- (ptmul_assoc (ptmul _ _) _ (ptinv Xr)).
    split; [|now intros ->]. apply ptmul_cancel_l. apply rigid_mul; [apply (r_rj _ _ _ RN); now apply path_in|apply xt_rigid; now apply path_in].
Qed.
Lemma turn_iff : (0 < n)%nat -> (n < N)%nat -> let p := nth (n - 1) path 0%nat in let i := nth n path 0%nat in par mb p = par mb i ->
  (posW c n = relative_pose (posW m i) Xr <->
   ptmul (ptinv (nth p (mb_Xt mb) ptid)) (nth i (mb_Xt mb) ptid) = ptmul (nth i (mb_Xt mb) ptid) (ptinv (nth p (mb_Xt mb) ptid))).
Proof.
  intros L1 L2 p i EQ. assert (Lp : (p < nrBodies mb)%nat) by (apply path_in; lia). assert (Li : (i < nrBodies mb)%nat) by (apply path_in; lia).
  pose proof (xt_rigid p Lp) as Rp. pose proof (xt_rigid i Li) as Ri.
  rewrite ch_pos by lia. rewrite ch_pose by lia. rewrite Nat.ltb_irrefl. unfold relative_pose. rewrite (pos_par i Li).
  assert (E : n = S (n - 1)) by lia.
  replace (sub_x mb path n n) with (ptmul (ptinv (nth p (mb_Xt mb) ptid)) (nth i (mb_Xt mb) ptid)).
  2:{ unfold i, p. rewrite E at 2 4. unfold sub_x. replace (n - 1 <? n)%nat with true by (symmetry; apply Nat.ltb_lt; lia). rewrite <- E, Nat.ltb_irrefl. reflexivity. }
  replace (match n with O => ptid | S p0 => posW c p0 end) with (posW c (n - 1)) by (rewrite E at 2; reflexivity).
  rewrite down_pos by lia. fold p. unfold mount. rewrite EQ. set (A := nth p (mb_Xt mb) ptid) in *. set (B := nth i (mb_Xt mb) ptid) in *. fold i.
  set (P := at_par (par mb i)). set (Jc := nth i (jointConfig m) ptid).
  assert (RP : rigid P) by now apply at_par_rigid. assert (RJ : rigid Jc) by now apply (r_rj _ _ _ RN).
  replace (ptmul (ptmul Jc (ptmul (ptinv A) B)) (ptmul (ptmul A P) (ptinv Xr))) with (ptmul Jc (ptmul (ptmul (ptinv A) (ptmul B A)) (ptmul P (ptinv Xr)))) by now rewrite <- !ptmul_assoc.
  replace (ptmul (ptmul (ptmul Jc B) P) (ptinv Xr)) with (ptmul Jc (ptmul B (ptmul P (ptinv Xr)))) by now rewrite <- !ptmul_assoc.
  split; intro H.
  - apply ptmul_cancel_l in H; [|exact RJ]. apply ptmul_cancel_r in H; [|apply rigid_mul; [exact RP|now apply rigid_inv]].
    apply (f_equal (fun X => ptmul X (ptinv A))) in H. cbv beta in H. rewrite <- H. rewrite <- !ptmul_assoc, ptinv_r, ptmul_id_r by auto. reflexivity.
  - f_equal. f_equal. rewrite ptmul_assoc, H, <- ptmul_assoc, ptinv_l, ptmul_id_r by auto. reflexivity.
Qed.
(** At the turn, either both joints are mounted on the same body and their placements commute,
    or the chain goes on with the root, which is fixed at the origin. *)
Definition turn_ok : Prop := (0 < n)%nat -> (n < N)%nat ->
  let p := nth (n - 1) path 0%nat in let i := nth n path 0%nat in
  (par mb p = par mb i /\ ptmul (ptinv (nth p (mb_Xt mb) ptid)) (nth i (mb_Xt mb) ptid) = ptmul (nth i (mb_Xt mb) ptid) (ptinv (nth p (mb_Xt mb) ptid))) \/
  (par mb p = Some i /\ nth i (jointConfig m) ptid = ptid /\ nth i (mb_Xt mb) ptid = ptid).
Hypothesis TO : turn_ok.
Lemma up_pos k : (n <= k)%nat -> (k < N)%nat -> posW c k = relative_pose (posW m (nth k path 0%nat)) Xr.
Proof.
  unfold relative_pose. induction k as [|k IH]; intros L1 L2; rewrite ch_pos by lia; rewrite ch_pose by lia.
  - assert (E : n = 0%nat) by lia. unfold sub_x. rewrite E. cbn [Nat.ltb Nat.leb]. rewrite ptmul_id_r. rewrite (pos_par (nth 0 path 0%nat)) by now apply path_in.
    rewrite (UF E) by lia. rewrite <- !ptmul_assoc. now rewrite ptinv_r, ptmul_id_r by auto.
  - replace (S k <? n)%nat with false by (symmetry; apply Nat.ltb_ge; lia). unfold sub_x.
    replace (S k <? n)%nat with false by (symmetry; apply Nat.ltb_ge; lia).
    destruct (Nat.ltb_spec k n) as [Lk|Lk].
    + assert (E : n = S k) by lia. rewrite down_pos by auto. destruct (TO ltac:(lia) ltac:(lia)) as [(EQ & CM)|(EQ & E1 & E2)]; rewrite E in *; cbn [Nat.sub] in *; rewrite Nat.sub_0_r in *.
      * rewrite CM. unfold mount. rewrite EQ. rewrite (pos_par (nth (S k) path 0%nat)) by now apply path_in. rewrite <- !ptmul_assoc. do 2 f_equal.
        rewrite (ptmul_assoc (ptinv _)), ptinv_l, ptmul_id_l; [reflexivity|]. apply xt_rigid, path_in. lia.
      * rewrite E1, E2. rewrite ptmul_id_l, ptmul_id_r. unfold mount. rewrite EQ. cbn [at_par]. rewrite !ptmul_assoc, ptinv_l, ptmul_id_l; [reflexivity|].
        apply xt_rigid, path_in. lia.
    + rewrite IH by lia. rewrite (pos_par (nth (S k) path 0%nat)) by now apply path_in. rewrite US by auto. cbn [at_par]. now rewrite <- !ptmul_assoc.
Qed.
(** Velocities when nothing is walked backwards. *)
Variable Vr : SV.
Hypothesis N0 : n = 0%nat.
Hypothesis VF : (0 < N)%nat -> match par mb (nth 0 path 0%nat) with Some r => vb m r = Vr | None => Vr = sv0 end.
Lemma chain_vel k : (k < N)%nat -> vb c k = relative_velocity (posW m (nth k path 0%nat)) Xr (vb m (nth k path 0%nat)) Vr.
Proof.
  induction k as [|k IH]; intro L.
  all: assert (Lc : (forall i, (i < N)%nat -> (i < nrBodies ch)%nat)) by (intro; now rewrite NC).
  all: assert (VJ : forall i, (i < N)%nat -> nth i (jointVelocity c) sv0 = nth (nth i path 0%nat) (jointVelocity m) sv0).
  1,3: intros i Hi; rewrite (r_vj _ _ _ RR i (Lc i Hi)), (r_vj _ _ _ RN _ (path_in i Hi)), ch_joint, ch_a by auto; unfold sub_j; rewrite N0; reflexivity.
  - unfold vb at 1. rewrite (r_vb _ _ _ RR 0%nat (Lc _ L)), ch_par, VJ by auto. specialize (VF L).
    unfold relative_velocity, relative_pose. unfold vb at 1. rewrite (r_vb _ _ _ RN _ (path_in 0 L)).
    pose proof (pos_par _ (path_in 0 L)) as PP. rewrite (UF N0 L) in PP. rewrite PP, <- ptmul_assoc, ptinv_r, ptmul_id_r by auto. rewrite <- (r_pts _ _ _ RN _ (path_in 0 L)).
    destruct (par mb (nth 0 path 0%nat)) as [r|].
    + rewrite <- VF. fold (vb m r). now rewrite sub_same.
    + rewrite VF, ptm_zero, sub_zero_r. reflexivity.
  - unfold vb at 1. rewrite (r_vb _ _ _ RR (S k) (Lc _ L)), ch_par, VJ by auto. fold (vb c k). rewrite IH by lia.
    unfold relative_velocity, relative_pose. unfold vb at 2. rewrite (r_vb _ _ _ RN _ (path_in (S k) L)). rewrite US by lia. fold (vb m (nth k path 0%nat)).
    rewrite ptm_svsub, vadd_assoc_sub.
    assert (EP2 : nth (S k) (parentToSon c) ptid = nth (nth (S k) path 0%nat) (parentToSon m) ptid).
    { rewrite (r_pts _ _ _ RR _ (Lc _ L)), (r_pts _ _ _ RN _ (path_in _ L)), ch_X, ch_pose by auto. unfold sub_x. rewrite N0. reflexivity. }
    rewrite EP2. f_equal. rewrite <- ptm_mul; [f_equal|].
    + pose proof (pos_par _ (path_in (S k) L)) as PP. rewrite US in PP by lia. cbn [at_par] in PP. rewrite PP, <- (r_pts _ _ _ RN _ (path_in _ L)). now rewrite ptmul_assoc.
    + apply rigid_mul; [apply (r_rw _ _ _ RN), path_in; lia|now apply rigid_inv].
Qed.
End Sub.
