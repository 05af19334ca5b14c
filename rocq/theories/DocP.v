(** Proofs about whole robots: what the writers see of a robot. *)
From Coq Require Import Reals String ZArith Bool Arith List Lia.
From Verif Require Import Res ResP SMap Vec VecP Sva SvaP JointM JointP MultiBodyM KinM GraphM ParserM YamlM Spec SpecGraph SpecParser SpecDoc DynP GraphP GraphWalkP GraphTreeP GraphUseP GraphTopP GraphSimP MbP ConfFinP DocGraphP.
Import ListNotations.
Open Scope nat_scope.

Lemma filter_one {A} (key : A -> string) l e : In e l -> NoDup (map key l) -> filter (fun a => String.eqb (key a) (key e)) l = [e].
Proof.
  intros I ND. induction l as [|a l IH]; [destruct I|]. cbn [filter map] in *. inversion ND; subst. destruct I as [->|I].
  - rewrite String.eqb_refl. f_equal. destruct (filter _ l) as [|b m] eqn:F; [reflexivity|]. exfalso.
    assert (Q : In b (filter (fun a => String.eqb (key a) (key e)) l)) by (rewrite F; now left). apply filter_In in Q as (Q1 & Q2). apply String.eqb_eq in Q2.
    apply H1. rewrite <- Q2. now apply in_map.
  - destruct (String.eqb_spec (key a) (key e)) as [E|_]; [|auto]. exfalso. apply H1. rewrite E. now apply in_map.
Qed.
Lemma for_each_snoc {A B} (F : A -> res (option B)) (U : A -> B) l : (forall a, In a l -> F a = Ok (Some (U a))) -> forall acc,
  for_each l (fun j l => o <- F j ;; Ok (match o with Some u => l ++ [u] | None => l end)) acc = Ok (acc ++ map U l).
Proof.
  induction l as [|a l IH]; intros H acc; cbn [for_each map]; [now rewrite app_nil_r|]. rewrite H by now left. cbn [bind]. rewrite IH by (intros; apply H; now right).
  now rewrite <- app_assoc.
Qed.
Lemma seq_cons n : 0 < n -> seq 0 n = 0 :: seq 1 (n - 1). Proof. destruct n; [lia|]. cbn. now rewrite Nat.sub_0_r. Qed.

(** What is known of a robot as the readers leave it. *)
Definition par_of (mb : MultiBody) (i : nat) : nat := Z.to_nat (nth i (mb_parent mb) 0%Z).
Definition rootj (fixed : bool) : Joint := mkJ (if fixed then Fixed else Free) unitZ true "Root".
Definition zero_mbc (g : Garbage) (mb : MultiBody) : res MBC :=
  m <- MBC_zero mb (MBC_ctor g mb) ;; m <- forwardKinematics mb m ;; forwardVelocity mb m.
Lemma make_result_zero fuel g base fixed s l n mb : makeMultiBody_fixed fuel base fixed ptid ptid s = Ok mb ->
  make_result fuel g base fixed s l n = m <- zero_mbc g mb ;; Ok (mkPR mb m s l n).
Proof.
  intro E. unfold make_result, zero_mbc. rewrite E. cbn [bind]. destruct (MBC_zero mb (MBC_ctor g mb)); cbn [bind]; auto.
  destruct (forwardKinematics mb a); cbn [bind]; auto.
Qed.
Lemma robot_view g fixed r : tree_robot g fixed r -> named r ->
  let mb := pr_mb r in let N := List.length (mb_bodies mb) in let P := par_of mb in
  let B i := nth i (mb_bodies mb) bd in let J i := nth i (mb_joints mb) jd in let X i := nth i (mb_Xt mb) ptid in
  (forall i, 0 < i < N -> jfwd (J i) = true) ->
  0 < N /\ List.length (mb_joints mb) = N /\ List.length (mb_Xt mb) = N /\
  zero_mbc g mb = Ok (pr_mbc r) /\
  (forall i, 0 < i < N -> P i < i) /\
  (forall i k, i < N -> k < N -> bname (B i) = bname (B k) -> i = k) /\
  (forall i k, i < N -> k < N -> jname (J i) = jname (J k) -> i = k) /\
  J 0 = rootj fixed /\ X 0 = ptid /\
  (let par := map (fun i => match i with O => (-1)%Z | _ => Z.of_nat (P i) end) (seq 0 N) in
   MultiBody_ctor (mb_bodies mb) (mb_joints mb) par (map Z.of_nat (seq 0 N)) par (mb_Xt mb) = Ok mb) /\
  (exists h tr j0 X0 Xb, unf h None tr /\ gsize tr = N /\
     (forall i en, nth_error (pre h None (-1)%Z j0 X0 Xb 0 tr) i = Some en -> 0 < i -> n_par en = Z.of_nat (P i))) /\
  (forall i, i < N -> jointIndexByName mb (jname (J i)) = Ok (Z.of_nat i)) /\
  (forall i, 0 < i < N -> ends_of mb (Z.of_nat i) = Ok (B (P i), B i) /\
     exists nd e, nodeByName (bname (B (P i))) (pr_mbg r) = Ok nd /\ arcs_named (nArcs nd) (jname (J i)) = [e] /\ aX e = X i).
Proof.
  intros (G & CF & RN & AN & fuel & base & HF & MR) (ND & _) mb N P B J X FW.
  set (s := pr_mbg r) in *.
  assert (M : makeMultiBody_fixed fuel base fixed ptid ptid s = Ok mb /\ zero_mbc g mb = Ok (pr_mbc r)).
  { unfold mb. unfold make_result in MR. destruct (makeMultiBody_fixed fuel base fixed ptid ptid s) as [mb0| | |] eqn:E; cbn [bind] in MR; try discriminate.
    unfold zero_mbc. destruct (MBC_zero mb0 (MBC_ctor g mb0)) as [m1| | |] eqn:E1; cbn [bind] in MR; try discriminate.
    destruct (forwardKinematics mb0 m1) as [m2| | |] eqn:E2; cbn [bind] in MR; try discriminate.
    destruct (forwardVelocity mb0 m2) as [m3| | |] eqn:E3; cbn [bind] in MR; try discriminate. injection MR as <-. cbn [pr_mb pr_mbc]. rewrite E1. cbn [bind]. rewrite E2. cbn [bind]. auto. }
  clear MR. destruct M as (MM & ZM).
  assert (RT : exists ra, mfind (gBody (snd s)) base = Some ra).
  { unfold makeMultiBody_fixed, makeMultiBody_type, makeMultiBody in MM. destruct s as (h0, g0). cbn [snd]. unfold mat_ in MM. destruct (mfind (gBody g0) base) as [ra|]; [eauto|discriminate]. }
  destruct RT as (ra & RT). unfold makeMultiBody_fixed, makeMultiBody_type in MM.
  destruct (graph_unfolding s ra G CF) as (tr & T1 & T2 & T3 & T4 & T5 & T6); [now apply (ng_body _ (gk_names _ G)) in RT|].
  destruct (makeMultiBody_tree s base ra (if fixed then Fixed else Free) unitZ ptid ptid fuel tr G CF RT T1 T2) as (mb1 & bs & E & MG & EC); auto; [lia|].
  rewrite MM in E. injection E as <-. rewrite RN in MG. fold (rootj fixed) in MG.
  destruct (makeMultiBody_run s base ra (if fixed then Fixed else Free) unitZ ptid ptid fuel tr RT T1 T2) as (mb2 & E & H); [lia|].
  rewrite MM in E. injection E as <-. cbv zeta in H. destruct H as (_ & _ & _ & _ & HPAR & _ & _).
  set (L := pre (fst s) None (-1)%Z (mkJ (if fixed then Fixed else Free) unitZ true (gRoot (snd s))) ptid ptid 0 tr) in *.
  set (ord := gnodes tr) in *. pose proof (mg_bodies_len _ _ _ _ _ _ _ _ MG) as LB. fold N in LB.
  assert (N0 : 0 < N). { rewrite LB. unfold ord. destruct tr. cbn. lia. }
  pose proof (mg_parent_lt s ra (rootj fixed) ptid ptid ord bs mb MG) as PLT.
  pose proof (mg_joints_len _ _ _ _ _ _ _ _ MG) as LJ. pose proof (mg_Xt_len _ _ _ _ _ _ _ _ MG) as LX. pose proof (mg_parent_len _ _ _ _ _ _ _ _ MG) as LPA.
  pose proof (mg_first _ _ _ _ _ _ _ _ MG) as (F1 & F2 & F3 & F4).
  assert (PZ : forall i, 0 < i < N -> exists e e', nth i (mb_parent mb) 0%Z = Z.of_nat (P i) /\ P i < i /\ In e (arcs_at (fst s) (nth (P i) ord 0)) /\ aNext e = nth i ord 0 /\
     In e' (arcs_at (fst s) (nth i ord 0)) /\ aNext e' = nth (P i) ord 0 /\ J i = aJoint e /\ X i = ptmul (aX e) (ptinv (nth (P i) bs ptid)) /\ nth i bs ptid = aX e').
  { intros i Hi. destruct (mg_next _ _ _ _ _ _ _ _ MG i) as (p & e & e' & Q1 & Q2 & Q3 & Q4 & Q5 & Q6 & Q7 & Q8 & Q9); [lia|].
    assert (P i = p) by (unfold P, par_of; rewrite Q2; apply Nat2Z.id). exists e, e'. rewrite H. do 7 (split; [assumption|]). split; assumption. }
  assert (VN : forall i, i < N -> In (nth i ord 0) (gNodes (snd s))). { intros i Hi. apply T6. apply nth_In. rewrite <- LB. exact Hi. }
  assert (BS : forall i, i < N -> nth i bs ptid = ptid).
  { intros i Hi. destruct i as [|i]; [exact F4|]. destruct (PZ (S i)) as (e & e' & Q2 & Q1 & Q3 & Q4 & Q5 & Q6 & Q7 & Q8 & Q9); [lia|]. rewrite Q9.
    apply (AN (nth (S i) ord 0)); auto.
    destruct (gk_pair _ G (nth (P (S i)) ord 0) e) as (e2 & R1 & R2 & R3); auto; [apply VN; lia|]. rewrite Q4 in R1.
    assert (e2 = e'). { pose proof (cf_single _ _ CF (nth (S i) ord 0) (VN _ Hi)) as NDA. apply in_split in Q5 as (l1 & l2 & E). rewrite E in *. destruct (NoDup_map_remove _ _ _ _ NDA) as (_ & NQ).
      apply in_app_iff in R1. destruct R1 as [R1|[R1|R1]]; auto; exfalso; apply (NQ e2); [apply in_app_iff; auto|congruence|apply in_app_iff; auto|congruence]. }
    subst e2. rewrite R3. cbn [set_forward jfwd]. rewrite <- Q7, FW by lia. reflexivity. }
  assert (BN : forall i, i < N -> bname (B i) = bname (body_at (fst s) (nth i ord 0))).
  { intros i Hi. unfold B. rewrite (mg_bodies _ _ _ _ _ _ _ _ MG i) by lia. reflexivity. }
  split; [exact N0|]. split; [lia|]. split; [lia|]. split; [exact ZM|]. split.
  { intros i Hi. now destruct (PZ i Hi) as (_ & _ & _ & Q & _). }
  split.
  { intros i k Hi Hk E. rewrite !BN in E by auto. pose proof (names_nodup s ord G T4 ltac:(intros b Hb; now apply T6)) as NN. unfold names_of in NN.
    apply (proj1 (NoDup_nth _ EmptyString) NN); rewrite ?map_length; try lia. rewrite !(nth_map_lt (fun a => bname (body_at (fst s) a)) _ _ 0) by lia. exact E. }
  assert (JN : forall i k, i < N -> k < N -> jname (J i) = jname (J k) -> i = k).
  { intros i k Hi Hk E. apply (proj1 (NoDup_nth _ EmptyString) ND); rewrite ?map_length; fold mb; try lia. unfold J in E. rewrite !(nth_map_lt jname _ _ jd) by lia. exact E. }
  split; [exact JN|]. split; [exact F1|]. split; [exact F3|].
  assert (PAR : mb_parent mb = map (fun i => match i with O => (-1)%Z | _ => Z.of_nat (P i) end) (seq 0 N)).
  { apply (list_ext_nth _ _ 0%Z); [rewrite map_length, seq_length; lia|]. intros i Hi. rewrite (nth_map_seq (fun i => match i with O => (-1)%Z | _ => Z.of_nat (P i) end)) by lia. destruct i; [exact F2|].
    now destruct (PZ (S i) ltac:(lia)) as (_ & _ & Q & _). }
  split.
  { cbv zeta. rewrite <- PAR. rewrite (mg_pred _ _ _ _ _ _ _ _ MG), (mg_succ _ _ _ _ _ _ _ _ MG) in EC. rewrite LB. exact EC. }
  split.
  { exists (fst s), tr, (mkJ (if fixed then Fixed else Free) unitZ true (gRoot (snd s))), ptid, ptid. split; [exact T2|]. split; [unfold gsize; fold ord; lia|].
    intros i en Hn Hi. fold L in Hn. assert (Q : nth i (mb_parent mb) 0%Z = n_par en) by (rewrite HPAR; now apply nth_map_e).
    assert (i < N). { rewrite LB. assert (i < List.length L) by (apply nth_error_Some; congruence). assert (List.length L = List.length ord); [|lia]. unfold L. rewrite pre_len. reflexivity. }
    rewrite <- Q. now destruct (PZ i ltac:(lia)) as (_ & _ & W & _). }
  pose proof (names_last (mb_bodies mb) (mb_joints mb) (mb_pred mb) (mb_succ mb) (mb_pred mb) (mb_Xt mb) mb (eq_trans LJ (eq_sym LB)) EC) as (_ & JU & _).
  split.
  { intros i Hi. apply JU. split; [rewrite nth_error_map, (nth_error_nth' _ jd) by lia; reflexivity|]. intros k Hk HE.
    assert (Lk : k < List.length (mb_joints mb)). { rewrite <- (map_length jname). apply nth_error_Some. congruence. }
    rewrite nth_error_map, (nth_error_nth' _ jd) in HE by auto. injection HE as HE. apply JN in HE; lia. }
  intros i Hi. destruct (PZ i Hi) as (e & e' & Q2 & Q1 & Q3 & Q4 & Q5 & Q6 & Q7 & Q8 & Q9). split.
  - unfold ends_of. rewrite (mg_pred _ _ _ _ _ _ _ _ MG), (mg_succ _ _ _ _ _ _ _ _ MG). rewrite getz_nat. rewrite (get_nth _ _ 0%Z) by lia. cbn [bind]. rewrite Q2.
    destruct (Z.eqb_spec (Z.of_nat (P i)) (-1)); [lia|]. rewrite getz_nat, (get_nth _ _ bd) by lia. cbn [bind]. rewrite getz_nat. rewrite (get_seq Z.of_nat) by lia. cbn [bind]. rewrite getz_nat, (get_nth _ _ bd) by lia. reflexivity.
  - unfold nodeByName, mat_. assert (MF : mfind (gBody (snd s)) (bname (B (P i))) = Some (nth (P i) ord 0)). { apply (ng_body _ (gk_names _ G)). split; [apply VN; lia|symmetry; apply BN; lia]. }
    rewrite MF. cbn [bind]. pose proof (ng_node _ (gk_names _ G) _ (VN (P i) ltac:(lia))) as LN.
    destruct (nth_error (hNodes (fst s)) (nth (P i) ord 0)) as [nd|] eqn:EN; [|apply nth_error_None in EN; lia]. exists nd, e. split; [now apply get_Ok|].
    destruct (node_at _ _ _ EN) as (_ & EA & _). rewrite <- EA. split.
    + unfold arcs_named. rewrite Q7. fold (ajn e). apply (filter_one ajn); auto. apply (gk_once _ G). apply VN. lia.
    + rewrite Q8, BS by lia. rewrite ptinv_id, ptmul_id_r. reflexivity.
Qed.

Lemma robot_len g fixed r : tree_robot g fixed r -> List.length (mb_joints (pr_mb r)) = List.length (mb_bodies (pr_mb r)).
Proof.
  intros (G & CF & RN & AN & fuel & base & HF & MR). set (s := pr_mbg r) in *.
  assert (MM : makeMultiBody_fixed fuel base fixed ptid ptid s = Ok (pr_mb r)).
  { unfold make_result in MR. destruct (makeMultiBody_fixed fuel base fixed ptid ptid s) as [mb0| | |] eqn:E; cbn [bind] in MR; try discriminate.
    destruct (MBC_zero mb0 (MBC_ctor g mb0)) as [m1| | |] eqn:E1; cbn [bind] in MR; try discriminate.
    destruct (forwardKinematics mb0 m1) as [m2| | |] eqn:E2; cbn [bind] in MR; try discriminate.
    destruct (forwardVelocity mb0 m2) as [m3| | |] eqn:E3; cbn [bind] in MR; try discriminate. injection MR as <-. reflexivity. }
  assert (RT : exists ra, mfind (gBody (snd s)) base = Some ra).
  { unfold makeMultiBody_fixed, makeMultiBody_type, makeMultiBody in MM. destruct s as (h0, g0). cbn [snd]. unfold mat_ in MM. destruct (mfind (gBody g0) base) as [ra|]; [eauto|discriminate]. }
  destruct RT as (ra & RT). unfold makeMultiBody_fixed, makeMultiBody_type in MM.
  destruct (makeMultiBody_ok s base ra (if fixed then Fixed else Free) unitZ ptid ptid fuel G CF RT HF) as (mb1 & ord & bs & E & MG & _).
  rewrite MM in E. injection E as <-. now rewrite (mg_joints_len _ _ _ _ _ _ _ _ MG), (mg_bodies_len _ _ _ _ _ _ _ _ MG).
Qed.
