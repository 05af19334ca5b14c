(** Chains of Jacobian objects with a reference. *)
From Coq Require Import Reals String ZArith Bool Arith List Lia Lra.
From Verif Require Import Res ResP SMap Vec VecP Sva SvaP Mat JointM MultiBodyM KinM DynM JacM Spec SpecDyn SpecJac SpecRel SpecSub
  JointP JointFinP KinP KinPathP MbP Ex TreeP DynP DynCP ConvP KinFinP SpecDeriv DerivP DerivTreeP JacP JacFinP JacFin2P CoMP RelP RelTopP RelFinP SubP SubTopP.
Import ListNotations.
Open Scope R_scope.

Record shape_facts (mb : MultiBody) (b r : nat) (dn up : list nat) : Prop := {
  sf_in : forall k, In k (dn ++ up) -> (k < nrBodies mb)%nat;
  sf_r : (0 < length dn)%nat -> nth 0 (dn ++ up) 0%nat = r;
  sf_dn : forall k, (S k < length dn)%nat -> par mb (nth k (dn ++ up) 0%nat) = Some (nth (S k) (dn ++ up) 0%nat);
  sf_first : length dn = 0%nat -> (0 < length (dn ++ up))%nat -> par mb (nth 0 (dn ++ up) 0%nat) = Some r;
  sf_up : forall k, (length dn <= k)%nat -> (S k < length (dn ++ up))%nat -> par mb (nth (S k) (dn ++ up) 0%nat) = Some (nth k (dn ++ up) 0%nat);
  sf_turn : (0 < length dn)%nat -> (length dn < length (dn ++ up))%nat ->
    let p := nth (length dn - 1) (dn ++ up) 0%nat in let i := nth (length dn) (dn ++ up) 0%nat in
    (exists c, c <> 0%nat /\ par mb p = Some c /\ par mb i = Some c /\ i <> p /\ anc mb i b /\ anc mb p r) \/ (par mb p = Some i /\ i = 0%nat /\ meets_root mb b r);
  sf_anc : forall k, (k < length (dn ++ up))%nat -> anc mb (nth k (dn ++ up) 0%nat) b -> (length dn <= k)%nat;
  sf_last : b <> r -> (anc mb b r -> b = 0%nat) -> (0 < length up)%nat /\ nth (length (dn ++ up) - 1) (dn ++ up) 0%nat = b
}.
Lemma root_path_incl mb b c lc s : root_path mb c lc -> root_path mb b (lc ++ s) -> wf_mb mb -> anc mb c b.
Proof.
  intros RC RB W. apply (root_path_anc mb b _ W RB). apply in_app_iff. left. destruct (root_path_last _ _ _ RC) as (l & ->). apply in_app_iff. right. now left.
Qed.
Lemma anc_tr mb a d e : anc mb a d -> anc mb d e -> anc mb a e.
Proof. intros A B. induction B; auto. econstructor; eauto. Qed.
Lemma par_of mb i d : wf_mb mb -> nth_error (mb_pred mb) i = Some (Z.of_nat d) -> anc mb d i.
Proof. intros W P. apply (anc_step _ _ d); [exact P|constructor]. Qed.
(** The two children through which the branches to b and r leave each other. *)
Lemma fork_unique mb b r i q0 d i' q' d' : wf_mb mb -> 
  nth_error (mb_pred mb) i = Some (Z.of_nat d) -> nth_error (mb_pred mb) q0 = Some (Z.of_nat d) -> i <> q0 -> anc mb i b -> anc mb q0 r ->
  nth_error (mb_pred mb) i' = Some (Z.of_nat d') -> nth_error (mb_pred mb) q' = Some (Z.of_nat d') -> i' <> q' -> anc mb i' b -> anc mb q' r -> i = i' /\ q0 = q'.
Proof.
  intros W P1 P2 NE A1 A2 P1' P2' NE' A1' A2'.
  assert (L : forall x y, nth_error (mb_pred mb) x = Some y -> (x < nrBodies mb)%nat) by (intros x y Q; rewrite <- (wf_pred_len _ W); apply nth_error_Some; congruence).
  assert (G : forall i q0 d i' q' d', nth_error (mb_pred mb) i = Some (Z.of_nat d) -> nth_error (mb_pred mb) q0 = Some (Z.of_nat d) -> i <> q0 -> anc mb i b -> anc mb q0 r ->
    nth_error (mb_pred mb) i' = Some (Z.of_nat d') -> nth_error (mb_pred mb) q' = Some (Z.of_nat d') -> anc mb i' b -> anc mb q' r -> anc mb i i' -> i = i').
  { clear -W L. intros i q0 d i' q' d' P1 P2 NE A1 A2 P1' P2' A1' A2' H. inversion H as [x|x p0 y P0 A0]; subst; auto. exfalso.
    rewrite P1' in P0. injection P0 as E. apply Nat2Z.inj in E. subst p0. apply NE.
    apply (anc_sibling mb i q0 d r W (L _ _ P1) (L _ _ P2) P1 P2); [|exact A2].
    apply (anc_tr mb i d' r A0). apply (anc_tr mb d' q' r); auto. apply par_of; auto. }
  assert (E : i = i').
  { destruct (anc_chain mb i i' b W A1 A1') as [H|H]; [apply (G i q0 d i' q' d'); auto|symmetry; apply (G i' q' d' i q0 d); auto]. }
  subst i'. split; [reflexivity|]. rewrite P1 in P1'. injection P1' as E. apply Nat2Z.inj in E. subst d'.
  apply (anc_sibling mb q0 q' d r W (L _ _ P2) (L _ _ P2') P2 P2' A2 A2').
Qed.
Lemma last_app (l s : list nat) : (0 < length s)%nat -> nth (length (l ++ s) - 1) (l ++ s) 0%nat = nth (length s - 1) s 0%nat.
Proof. intro L. rewrite app_length, app_nth2 by lia. f_equal. lia. Qed.
(** A path down and a path up that start from bodies c and c'. *)
Lemma two_paths mb b r lc sb sr c : wf_mb mb -> root_path mb c lc -> root_path mb b (lc ++ sb) -> root_path mb r (lc ++ sr) ->
  (forall k, In k sr -> ~ In k (lc ++ sb)) ->
  (forall k, In k (rev sr ++ sb) -> (k < nrBodies mb)%nat) /\
  ((0 < length sr)%nat -> nth 0 (rev sr) 0%nat = r) /\
  (forall k, (S k < length sr)%nat -> par mb (nth k (rev sr) 0%nat) = Some (nth (S k) (rev sr) 0%nat)) /\
  ((0 < length sr)%nat -> par mb (nth (length sr - 1) (rev sr) 0%nat) = Some c) /\
  (forall k, In k sr -> anc mb k r /\ ~ anc mb k b) /\ (forall k, In k sb -> anc mb k b).
Proof.
  intros W RC RB RR ND. destruct (tail_adj mb r c lc sr W RC RR) as (A & B & C & E).
  split. { intros k Hk. apply in_app_iff in Hk as [Hk|Hk]; [apply in_rev in Hk; apply (root_path_in mb r _ W RR)|apply (root_path_in mb b _ W RB)]; apply in_app_iff; auto. }
  split. { intro L. rewrite nth_rev0 by auto. rewrite Nat.sub_0_r. now apply C. }
  split. { intros k L. rewrite !nth_rev0 by lia. replace (length sr - 1 - k)%nat with (S (length sr - 1 - S k)) by lia. apply A. lia. }
  split. { intro L. rewrite nth_rev0 by lia. replace (length sr - 1 - (length sr - 1))%nat with 0%nat by lia. now apply B. }
  split. { intros k Hk. split; [apply (root_path_anc mb r _ W RR), in_app_iff; auto|]. intro H. apply (root_path_anc mb b _ W RB) in H. apply (ND k Hk H). }
  intros k Hk. apply (root_path_anc mb b _ W RB), in_app_iff. auto.
Qed.
Lemma shape_has mb b r dn up : wf_mb mb -> one_root mb -> rel_shape mb b r dn up -> shape_facts mb b r dn up.
Proof.
  intros W O1 H. destruct H as [lr s R1 R2|c lc sb sr RC RB RR ND NZ|sb sr RB RR ND NR].
  - destruct (tail_adj mb b r lr s W R1 R2) as (A & B & C & E). constructor; cbn [app length]; try (intros; lia); auto.
    + intros k Hk. apply (root_path_in mb b _ W R2). apply in_app_iff. auto.
  - destruct (two_paths mb b r lc sb sr c W RC RB RR ND) as (IN & P0 & PS & PL & PR & PB). destruct (tail_adj mb b c lc sb W RC RB) as (A & B & C & E).
    destruct (tail_adj mb r c lc sr W RC RR) as (_ & _ & _ & E').
    constructor; rewrite ?rev_length.
    + exact IN.
    + intro L. rewrite app_nth1 by now rewrite rev_length. auto.
    + intros k L. rewrite !app_nth1 by (rewrite rev_length; lia). auto.
    + intros L0 L. destruct sr; [|discriminate]. cbn in *. rewrite (E' eq_refl). auto.
    + intros k L1 L2. rewrite app_length, rev_length in L2. rewrite !app_nth2 by (rewrite rev_length; lia). rewrite rev_length. replace (S k - length sr)%nat with (S (k - length sr)) by lia. apply A. lia.
    + intros L1 L2. rewrite app_length, rev_length in L2. rewrite (app_nth1 (rev sr)) by (rewrite rev_length; lia). rewrite (app_nth2 (rev sr)) by (rewrite rev_length; lia). rewrite rev_length, Nat.sub_diag. left.
      assert (I1 : In (nth 0 sb 0%nat) sb) by (apply nth_In; lia). assert (I2 : In (nth (length sr - 1) (rev sr) 0%nat) sr) by (apply in_rev, nth_In; rewrite rev_length; lia).
      exists c. split; [exact NZ|]. split; [auto|]. split; [apply B; lia|]. split; [intro Q; rewrite <- Q in I2; destruct (PR _ I2); auto|]. split; [auto|now apply PR].
    + intros k L HA. destruct (Nat.le_gt_cases (length sr) k) as [|G]; auto. exfalso. rewrite app_nth1 in HA by (rewrite rev_length; lia).
      refine (proj2 (PR (nth k (rev sr) 0%nat) _) HA). apply in_rev, nth_In. rewrite rev_length. lia.
    + intros NE AB. assert (L : (0 < length sb)%nat).
      { destruct sb; [|cbn; lia]. exfalso. specialize (E eq_refl). subst c. apply NZ, AB. apply (root_path_incl mb r b lc sr); auto. }
      split; [exact L|]. rewrite last_app by auto. auto.
  - assert (RC : root_path mb 0%nat [0%nat]).
    { constructor. destruct (root_path_adj _ _ _ RB) as (A & _ & _). cbn [nth] in A. apply par_none; auto. apply (root_path_in mb b _ W RB). now left. }
    destruct (two_paths mb b r [0%nat] sb sr 0%nat W RC RB RR ND) as (IN & P0 & PS & PL & PR & PB). destruct (tail_adj mb b 0%nat [0%nat] sb W RC RB) as (A & B & C & E).
    destruct (tail_adj mb r 0%nat [0%nat] sr W RC RR) as (_ & _ & _ & E').
    assert (Lsr : (0 < length sr)%nat) by (destruct sr; [exfalso; apply NR; auto|cbn; lia]).
    assert (US : forall k, (S k < S (length sb))%nat -> par mb (nth (S k) (0%nat :: sb) 0%nat) = Some (nth k (0%nat :: sb) 0%nat)).
    { intros k L. destruct k as [|k]; cbn [nth]; [apply B; lia|apply A; lia]. }
    constructor; rewrite ?rev_length.
    + intros k Hk. apply in_app_iff in Hk as [Hk|[<-|Hk]]; [apply IN, in_app_iff; auto| |apply IN, in_app_iff; auto]. apply (root_path_in mb b _ W RB). now left.
    + intro L. rewrite app_nth1 by now rewrite rev_length. auto.
    + intros k L. rewrite !app_nth1 by (rewrite rev_length; lia). auto.
    + intros L0. lia.
    + intros k L1 L2. rewrite app_length, rev_length in L2. cbn [length] in L2. rewrite !app_nth2 by (rewrite rev_length; lia). rewrite rev_length. replace (S k - length sr)%nat with (S (k - length sr)) by lia. apply US. lia.
    + intros L1 L2. rewrite (app_nth1 (rev sr)) by (rewrite rev_length; lia). rewrite (app_nth2 (rev sr)) by (rewrite rev_length; lia). rewrite rev_length, Nat.sub_diag. right. cbn [nth].
      split; [auto|]. split; [reflexivity|]. split.
      * intro HA. assert (Ir : In r sr) by (destruct (root_path_last _ _ _ RR) as (l & El); destruct sr using rev_ind; [cbn in Lsr; lia|]; rewrite app_comm_cons in El; apply app_inj_tail in El as (_ & <-); apply in_app_iff; right; now left).
        destruct (PR r Ir) as (_ & X). auto.
      * intros c Hb Hr. apply (root_path_anc mb r _ W RR) in Hr. destruct Hr as [<-|Hr]; auto. destruct (PR c Hr) as (_ & X). contradiction.
    + intros k L HA. destruct (Nat.le_gt_cases (length sr) k) as [|G]; auto. exfalso. rewrite app_nth1 in HA by (rewrite rev_length; lia).
      refine (proj2 (PR (nth k (rev sr) 0%nat) _) HA). apply in_rev, nth_In. rewrite rev_length. lia.
    + intros NE AB. split; [cbn; lia|]. rewrite last_app by (cbn; lia). cbn [length]. replace (S (length sb) - 1)%nat with (length sb) by lia.
      destruct (Nat.eq_dec (length sb) 0) as [Z|NZ]; [rewrite Z; cbn; symmetry; auto|]. replace (length sb) with (S (length sb - 1)) by lia. cbn [nth]. apply C. lia.
Qed.
(** Placements that may be exchanged. *)
Section Rel.
Variables (mb : MultiBody) (name ref : string) (b r : nat) (p : V3) (J : Jac).
Hypothesis W : wf_mb mb.
Hypothesis RM : rigid_mb mb.
Hypothesis O1 : one_root mb.
Hypothesis Hb : (b < nrBodies mb)%nat.
Hypothesis Hr : (r < nrBodies mb)%nat.
Hypothesis Eb : sBodyIndexByName mb name = Ok (Z.of_nat b).
Hypothesis Er : sBodyIndexByName mb ref = Ok (Z.of_nat r).
Hypothesis HB : built_relative mb name ref p J.
Lemma rel_chain : exists ch, subMultiBody mb J = Ok ch /\ is_chain mb (jc_path J) ch /\
  exists dn up, jc_path J = dn ++ up /\ shape_facts mb b r dn up /\
  mb_joints ch = map (sub_j mb (dn ++ up) (length dn)) (seq 0 (length (dn ++ up))) /\ mb_Xt ch = map (sub_x mb (dn ++ up) (length dn)) (seq 0 (length (dn ++ up))).
Proof.
  destruct (built_shape mb name ref p J b r W O1 Hb Hr Eb Er HB) as (dn & up & HS & HO & _). pose proof (shape_has mb b r dn up W O1 HS) as SF.
  destruct HO as (EP & ES & _). destruct (sub_ok mb J dn up W RM (sf_in _ _ _ _ _ SF) EP ES) as (ch & E & HC & EJ & EX).
  exists ch. split; [exact E|]. rewrite EP. split; [exact HC|]. exists dn, up. auto.
Qed.
Variables (ch : MultiBody) (m0 m c0 c : MBC).
Hypothesis ESub : subMultiBody mb J = Ok ch.
Hypothesis M0 : mbc_ok mb m0.
Hypothesis C0 : config_ok mb m0.
Hypothesis AM : after_kinematics mb m0 m.
Hypothesis KC : mbc_ok ch c0.
Hypothesis AL : along (jc_path J) m0 c0.
Hypothesis AK : after_kinematics ch c0 c.
Let RN : run mb m0 m := kin_run mb m0 m W RM M0 C0 AM.
Lemma some_pos : forall k, (k < length (jc_path J))%nat -> nth_error (bodyPosW c) k = Some (posW c k) /\ nth_error (bodyVelB c) k = Some (vb c k).
Proof.
  destruct rel_chain as (ch' & E & HC & dn & up & EP & SF & EJ & EX). rewrite ESub in E. injection E as <-. rewrite EP in *.
  pose proof (ch_run mb dn up W (sf_in _ _ _ _ _ SF) m0 ch c0 c C0 M0 HC EJ KC AL AK) as RR. pose proof (r_ok _ _ _ RR) as OC.
  assert (NC : nrBodies ch = length (dn ++ up)) by apply HC. intros k Hk. split; apply nth_error_nth'; rewrite ?(ok_bodyPosW _ _ OC), ?(ok_bodyVelB _ _ OC), NC; auto.
Qed.
Lemma rel_poses :
  placements_commute mb b r -> (meets_root mb b r -> fixed_root mb) ->
  forall k, (k < length (jc_path J))%nat -> anc mb (nth k (jc_path J) 0%nat) b ->
    posW c k = relative_pose (posW m (nth k (jc_path J) 0%nat)) (posW m r).
Proof.
  intros CM FX k Hk HA. destruct rel_chain as (ch' & E & HC & dn & up & EP & SF & EJ & EX). rewrite ESub in E. injection E as <-. rewrite EP in *.
  apply (up_pos mb dn up W RM (sf_in _ _ _ _ _ SF) m0 m ch c0 c RN C0 M0 HC EJ EX KC AL AK (posW m r)); auto.
  - apply (r_rw _ _ _ RN r Hr).
  - intro L. now rewrite (sf_r _ _ _ _ _ SF L).
  - exact (sf_dn _ _ _ _ _ SF).
  - intros L0 L. rewrite (sf_first _ _ _ _ _ SF L0 L). reflexivity.
  - exact (sf_up _ _ _ _ _ SF).
  - intros L1 L2. cbv zeta. destruct (sf_turn _ _ _ _ _ SF L1 L2) as [(d & ND & P1 & P2 & NE & A1 & A2)|(P1 & I0 & MR)].
    + left. split; [congruence|]. apply (CM _ _ d); auto; apply par_pred; auto.
    + right. split; [exact P1|]. destruct (FX MR) as (F1 & F2). rewrite I0.
      assert (L0 : (0 < nrBodies mb)%nat) by lia. split; [|now apply nth_error_nth].
      assert (F : jtyp (nth 0 (mb_joints mb) jd) = Fixed) by (apply F1, nth_error_nth'; rewrite (wf_joints mb W); auto).
      pose proof (r_pose _ _ _ RN 0%nat L0) as P. unfold pose in P. rewrite F in P. injection P as P. now symmetry.
  - apply (sf_anc _ _ _ _ _ SF); auto.
Qed.
Lemma rel_last : b <> r -> (anc mb b r -> b = 0%nat) -> (0 < length (jc_path J))%nat /\ nth (length (jc_path J) - 1) (jc_path J) 0%nat = b.
Proof.
  intros NE AB. destruct rel_chain as (ch' & E & HC & dn & up & EP & SF & EJ & EX). rewrite EP. destruct (sf_last _ _ _ _ _ SF NE AB) as (L & H).
  split; [rewrite app_length; lia|exact H].
Qed.
Lemma anc_refl_pos : forall d i q0, ~ anc mb b r -> ~ anc mb r b -> d <> 0%nat -> nth_error (mb_pred mb) i = Some (Z.of_nat d) -> nth_error (mb_pred mb) q0 = Some (Z.of_nat d) -> i <> q0 -> anc mb i b -> anc mb q0 r ->
  posW c (length (jc_path J) - 1) = relative_pose (posW m b) (posW m r) <->
  ptmul (ptinv (nth q0 (mb_Xt mb) ptid)) (nth i (mb_Xt mb) ptid) = ptmul (nth i (mb_Xt mb) ptid) (ptinv (nth q0 (mb_Xt mb) ptid)).
Proof.
  intros d i q0 NB NR ND Pi Pq NE Ai Aq.
  assert (NBR : b <> r) by (intros ->; apply NB; constructor).
  destruct rel_chain as (ch' & E & HC & dn & up & EP & SF & EJ & EX). rewrite ESub in E. injection E as <-. 
  destruct (sf_last _ _ _ _ _ SF NBR ltac:(tauto)) as (LU & LL). rewrite EP in *.
  assert (LN : (length dn < length (dn ++ up))%nat) by (rewrite app_length; lia).
  assert (LD : (0 < length dn)%nat).
  { destruct dn as [|x dn]; [|cbn; lia]. exfalso. cbn [length] in *. pose proof (sf_first _ _ _ _ _ SF eq_refl LN) as F. cbn [app] in *.
    assert (G : forall k, (k < length up)%nat -> anc mb r (nth k up 0%nat)).
    { induction k as [|k IH]; intro L; [apply (anc_step _ _ r); [apply par_pred; auto|constructor]|]. apply (anc_step _ _ (nth k up 0%nat)); [apply par_pred; auto; apply (sf_up _ _ _ _ _ SF); cbn; lia|apply IH; lia]. }
    apply NR. rewrite <- LL. apply G. lia. }
  pose proof (r_rw _ _ _ RN r Hr) as RX.
  assert (H1 : (0 < length dn)%nat -> posW m (nth 0 (dn ++ up) 0%nat) = posW m r) by (intro L; now rewrite (sf_r _ _ _ _ _ SF L)).
  assert (H2 : length dn = 0%nat -> (0 < length (dn ++ up))%nat -> at_par m (par mb (nth 0 (dn ++ up) 0%nat)) = posW m r) by (intros; lia).
  pose proof (up_iff mb dn up W RM (sf_in _ _ _ _ _ SF) m0 m ch c0 c RN C0 M0 HC EJ EX KC AL AK (posW m r) H1 H2 (sf_up _ _ _ _ _ SF) (length (dn ++ up) - 1) ltac:(lia) ltac:(lia)) as UI.
  rewrite LL in UI. rewrite UI.
  destruct (sf_turn _ _ _ _ _ SF LD LN) as [(d' & ND' & P1 & P2 & NE' & A1 & A2)|(P1 & I0 & MR)].
  2:{ exfalso. apply ND. apply (proj2 MR); [apply (anc_tr mb d i b); auto; apply par_of; auto|apply (anc_tr mb d q0 r); auto; apply par_of; auto]. }
  assert (Q : nth (length dn) (dn ++ up) 0%nat = i /\ nth (length dn - 1) (dn ++ up) 0%nat = q0).
  { apply (fork_unique mb b r _ _ d' _ _ d); auto; apply par_pred; auto. }
  destruct Q as (Q1 & Q2).
  pose proof (turn_iff mb dn up W RM (sf_in _ _ _ _ _ SF) m0 m ch c0 c RN C0 M0 HC EJ EX KC AL AK (posW m r) RX H1 (sf_dn _ _ _ _ _ SF)) as T.
  specialize (T H2 LD LN). cbv zeta in T. rewrite Q1, Q2 in T. rewrite Q1. rewrite Q2 in P1. rewrite Q1 in P2. apply T. congruence.
Qed.
Lemma rel_vels : anc mb r b -> forall k, (k < length (jc_path J))%nat ->
  vb c k = relative_velocity (posW m (nth k (jc_path J) 0%nat)) (posW m r) (vb m (nth k (jc_path J) 0%nat)) (vb m r).
Proof.
  intros HA k Hk. destruct rel_chain as (ch' & E & HC & dn & up & EP & SF & EJ & EX). rewrite ESub in E. injection E as <-. rewrite EP in *.
  assert (N0 : length dn = 0%nat).
  { destruct (Nat.eq_dec (length dn) 0) as [|NE]; auto. pose proof (sf_r _ _ _ _ _ SF ltac:(lia)) as E0.
    assert (L : (0 < length (dn ++ up))%nat) by lia. pose proof (sf_anc _ _ _ _ _ SF 0%nat L) as G. rewrite E0 in G. specialize (G HA). lia. }
  apply (chain_vel mb dn up W RM (sf_in _ _ _ _ _ SF) m0 m ch c0 c RN C0 M0 HC EJ EX KC AL AK (posW m r)); auto.
  - apply (r_rw _ _ _ RN r Hr).
  - intro L. now rewrite (sf_r _ _ _ _ _ SF L).
  - intros L0 L. rewrite (sf_first _ _ _ _ _ SF L0 L). reflexivity.
  - exact (sf_up _ _ _ _ _ SF).
  - intro L. now rewrite (sf_first _ _ _ _ _ SF N0 L).
Qed.
End Rel.

(** A state of the chain with given positions and speeds. *)
Lemma chain_sized (mb ch : MultiBody) (path : list nat) n (f : Joint -> nat) (v : list (list R)) : 
  (forall k, In k path -> (k < nrBodies mb)%nat) -> (forall j s, f (set_forward j s) = f j) -> wf_mb mb -> sized mb f v ->
  mb_joints ch = map (sub_j mb path n) (seq 0 (length path)) -> sized ch f (map (fun k => nth k v []) path).
Proof.
  intros IN HF W SZ EJ. unfold sized. rewrite EJ, !map_map. rewrite <- (map_seq_nth (fun k => length (nth k v [])) path 0%nat).
  apply map_ext_in. intros k Hk. apply in_seq in Hk. assert (L : (nth k path 0%nat < nrBodies mb)%nat) by (apply IN, nth_In; lia).
  transitivity (f (nth (nth k path 0%nat) (mb_joints mb) jd)); [|unfold sub_j; destruct (k <? n)%nat; auto].
  unfold sized in SZ. pose proof (wf_nrJoints mb W) as NJ. unfold nrJoints in NJ.
  assert (LV : length v = nrBodies mb) by (rewrite <- NJ, <- (map_length (@length R) v), SZ, map_length; reflexivity).
  apply (f_equal (fun l => nth (nth k path 0%nat) l 0%nat)) in SZ.
  rewrite (nth_map_lt (@length R) v _ [] 0%nat), (nth_map_lt f (mb_joints mb) _ jd 0%nat) in SZ by lia. exact SZ.
Qed.
Lemma chain_state (g : Garbage) (mb ch : MultiBody) (path : list nat) n m0 : (forall k, In k path -> (k < nrBodies mb)%nat) -> wf_mb mb -> mbc_ok mb m0 -> wf_mb ch ->
  mb_joints ch = map (sub_j mb path n) (seq 0 (length path)) -> exists c0 c, mbc_ok ch c0 /\ along path m0 c0 /\ after_kinematics ch c0 c.
Proof.
  intros IN W M0 WC EJ. set (c0 := with_alpha (map (fun k => nth k (alpha m0) []) path) (with_q (map (fun k => nth k (q m0) []) path) (MBC_ctor g ch))).
  assert (K : mbc_ok ch c0).
  { pose proof (ok_q _ _ M0) as Q0. pose proof (ok_alpha _ _ M0) as A0. destruct (MBC_ctor_ok g ch (wf_nrJoints ch WC)). constructor; auto; unfold c0; cbn [q alpha with_q with_alpha].
    - apply (chain_sized mb ch path n); auto.
    - apply (chain_sized mb ch path n); auto. }
  destruct (FK_total ch c0 WC K) as (m1 & E1 & F). pose proof (FK_mbc_ok _ _ _ WC K F) as OK1.
  destruct (FV_total ch m1 WC OK1) as (m2 & E2 & V). exists c0, m2. split; [exact K|]. split; [split; reflexivity|]. exists m1. auto.
Qed.

Lemma rel_chain_top : forall mb name ref b r p J, wf_mb mb -> rigid_mb mb -> one_root mb -> (b < nrBodies mb)%nat -> (r < nrBodies mb)%nat ->
  sBodyIndexByName mb name = Ok (Z.of_nat b) -> sBodyIndexByName mb ref = Ok (Z.of_nat r) -> built_relative mb name ref p J ->
  exists ch, subMultiBody mb J = Ok ch /\ is_chain mb (jc_path J) ch /\
    (b <> r -> (anc mb b r -> b = 0%nat) -> exists l, jc_path J = l ++ [b]) /\
    forall m0 m Xr Vr, mbc_ok mb m0 -> config_ok mb m0 -> after_kinematics mb m0 m ->
    nth_error (bodyPosW m) r = Some Xr -> nth_error (bodyVelB m) r = Some Vr ->
    (exists c0 c, mbc_ok ch c0 /\ along (jc_path J) m0 c0 /\ after_kinematics ch c0 c) /\
    forall c0 c, mbc_ok ch c0 -> along (jc_path J) m0 c0 -> after_kinematics ch c0 c ->
    forall k i Xi Vi, nth_error (jc_path J) k = Some i -> nth_error (bodyPosW m) i = Some Xi -> nth_error (bodyVelB m) i = Some Vi -> anc mb i b ->
    exists X V, nth_error (bodyPosW c) k = Some X /\ nth_error (bodyVelB c) k = Some V /\
      (placements_commute mb b r -> (meets_root mb b r -> fixed_root mb) -> X = relative_pose Xi Xr) /\
      (anc mb r b -> X = relative_pose Xi Xr /\ V = relative_velocity Xi Xr Vi Vr).
Proof.
  intros mb name ref b r p J W RM O1 Hb Hr Eb Er HB. 
  destruct (rel_chain mb name ref b r p J W RM O1 Hb Hr Eb Er HB) as (ch & E & HC & dn & up & EP & SF & EJ & EX). exists ch. split; [exact E|]. split; [exact HC|]. split.
  { intros NE AB. destruct (rel_last mb name ref b r p J W RM O1 Hb Hr Eb Er HB NE AB) as (L & H).
    destruct (exists_last (l := jc_path J)) as (l & x & El); [destruct (jc_path J); [cbn in L; lia|discriminate]|]. exists l. rewrite El in *.
    rewrite app_length, app_nth2 in H by (cbn; lia). replace (length l + length [x] - 1 - length l)%nat with 0%nat in H by (cbn; lia). cbn in H. now subst x. }
  intros m0 m Xr Vr M0 C0 AM NXr NVr. split.
  { rewrite EP. apply (chain_state ex_garbage mb ch (dn ++ up) (length dn) m0 (sf_in _ _ _ _ _ SF) W M0 (proj1 HC) EJ). }
  intros c0 c KC AL AK k i Xi Vi Nk NXi NVi HA.
  assert (Lk : (k < length (jc_path J))%nat) by (apply nth_error_Some; congruence). apply (nth_error_nth _ _ 0%nat) in Nk.
  apply (nth_error_nth _ _ ptid) in NXr, NXi. apply (nth_error_nth _ _ sv0) in NVr, NVi.
  destruct (some_pos mb name ref b r p J W RM O1 Hb Hr Eb Er HB ch m0 c0 c E M0 C0 KC AL AK k Lk) as (P1 & P2).
  assert (HA' : anc mb (nth k (jc_path J) 0%nat) b) by (now rewrite Nk).
  assert (G : placements_commute mb b r -> (meets_root mb b r -> fixed_root mb) -> posW c k = relative_pose Xi Xr).
  { intros PC FR. rewrite <- NXi, <- NXr, <- Nk. apply (rel_poses mb name ref b r p J W RM O1 Hb Hr Eb Er HB ch m0 m c0 c E M0 C0 AM KC AL AK PC FR k Lk HA'). }
  exists (posW c k), (vb c k). split; [exact P1|]. split; [exact P2|]. split; [exact G|].
  intro AR. split.
  - apply G.
    + intros x y d ND Px Py NE Ax Ay. exfalso. apply NE.
      assert (L : forall x y, nth_error (mb_pred mb) x = Some y -> (x < nrBodies mb)%nat) by (intros x0 y0 Q; rewrite <- (wf_pred_len _ W); apply nth_error_Some; congruence).
      apply (anc_sibling mb x y d b W (L _ _ Px) (L _ _ Py) Px Py Ax). now apply (anc_tr mb y r b).
    + intros (N & _). contradiction.
  - rewrite <- NXi, <- NVi, <- NXr, <- NVr, <- Nk. apply (rel_vels mb name ref b r p J W RM O1 Hb Hr Eb Er HB ch m0 m c0 c E M0 C0 AM KC AL AK AR k Lk).
Qed.
Lemma turn_exact_top : forall mb name ref b r p J, wf_mb mb -> rigid_mb mb -> one_root mb -> (b < nrBodies mb)%nat -> (r < nrBodies mb)%nat ->
  sBodyIndexByName mb name = Ok (Z.of_nat b) -> sBodyIndexByName mb ref = Ok (Z.of_nat r) -> built_relative mb name ref p J ->
  forall d i k, d <> 0%nat -> nth_error (mb_pred mb) i = Some (Z.of_nat d) -> nth_error (mb_pred mb) k = Some (Z.of_nat d) -> i <> k -> anc mb i b -> anc mb k r ->
  forall ch m0 m c0 c Xb Xr, subMultiBody mb J = Ok ch -> mbc_ok mb m0 -> config_ok mb m0 -> after_kinematics mb m0 m ->
  mbc_ok ch c0 -> along (jc_path J) m0 c0 -> after_kinematics ch c0 c ->
  nth_error (bodyPosW m) b = Some Xb -> nth_error (bodyPosW m) r = Some Xr ->
  forall Xi Xk, nth_error (mb_Xt mb) i = Some Xi -> nth_error (mb_Xt mb) k = Some Xk ->
  (nth_error (bodyPosW c) (length (jc_path J) - 1) = Some (relative_pose Xb Xr) <-> ptmul (ptinv Xk) Xi = ptmul Xi (ptinv Xk)).
Proof.
  intros mb name ref b r p J W RM O1 Hb Hr Eb Er HB d i k ND Pi Pk NE Ai Ak ch m0 m c0 c Xb Xr E M0 C0 AM KC AL AK NXb NXr Xi Xk NXi NXk.
  assert (L : forall x y, nth_error (mb_pred mb) x = Some y -> (x < nrBodies mb)%nat) by (intros x0 y0 Q; rewrite <- (wf_pred_len _ W); apply nth_error_Some; congruence).
  assert (NB : ~ anc mb b r) by (intro A; apply NE; apply (anc_sibling mb i k d r W (L _ _ Pi) (L _ _ Pk) Pi Pk); [now apply (anc_tr mb i b r)|exact Ak]).
  assert (NR : ~ anc mb r b) by (intro A; apply NE; apply (anc_sibling mb i k d b W (L _ _ Pi) (L _ _ Pk) Pi Pk); [exact Ai|now apply (anc_tr mb k r b)]).
  assert (NBR : b <> r) by (intros ->; apply NB; constructor).
  destruct (rel_last mb name ref b r p J W RM O1 Hb Hr Eb Er HB NBR ltac:(tauto)) as (LP & _).
  destruct (some_pos mb name ref b r p J W RM O1 Hb Hr Eb Er HB ch m0 c0 c E M0 C0 KC AL AK (length (jc_path J) - 1) ltac:(lia)) as (P1 & _).
  rewrite P1. apply (nth_error_nth _ _ ptid) in NXr, NXb, NXi, NXk. rewrite <- NXb, <- NXr, <- NXi, <- NXk.
  rewrite <- (anc_refl_pos mb name ref b r p J W RM O1 Hb Hr Eb Er HB ch m0 m c0 c E M0 C0 AM KC AL AK d i k NB NR ND Pi Pk NE Ai Ak).
  split; [intro Q; now injection Q|intro Q; now rewrite Q].
Qed.
