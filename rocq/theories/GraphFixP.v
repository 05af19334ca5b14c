(** What fixJoints returns. *)
From Coq Require Import Reals String ZArith Bool Arith List Lia Relations.
From Verif Require Import Res ResP SMap Vec Mat Sva JointM MultiBodyM KinM GraphM Spec SpecGraph SpecGraphOp MbP DynP GraphP GraphWalkP GraphHistP GraphSimP GraphRmP GraphCopyP GraphSepP GraphApartP.
Import ListNotations.
Open Scope R_scope.
Local Open Scope nat_scope.

Definition hit_name (names : list string) (all : bool) (j : Joint) : bool := existsb (fun n => String.eqb n (jname j) || all) names.
Definition fixj (names : list string) (all : bool) (j : Joint) : Joint := if hit_name names all j then fixed_of j else j.
Lemma fix_arc_eq names all e : fix_arc names all e = mkArc (aX e) (fixj names all (aJoint e)) (aNext e).
Proof. unfold fix_arc, fixj, hit_name, ajn. destruct (existsb _ names); [reflexivity|now destruct e]. Qed.
Lemma fixj_name names all j : jname (fixj names all j) = jname j.
Proof. unfold fixj. now destruct (hit_name names all j). Qed.
Lemma fixj_fwd names all j : jfwd (fixj names all j) = jfwd j.
Proof. unfold fixj. now destruct (hit_name names all j). Qed.
Lemma fixj_set names all j b : fixj names all (set_forward j b) = set_forward (fixj names all j) b.
Proof.
  unfold fixj. change (hit_name names all (set_forward j b)) with (hit_name names all j). destruct (hit_name names all j); [|reflexivity].
  unfold fixed_of, set_forward, mkJ. cbn. destruct (Bool.eqb b (jfwd j)); reflexivity.
Qed.
Lemma fixj_spec names j : fixed_in names j (fixj names false j).
Proof.
  unfold fixj, hit_name. split; intro H.
  - assert (E : existsb (fun n => String.eqb n (jname j) || false) names = true). { apply existsb_exists. exists (jname j). split; auto. now rewrite String.eqb_refl. }
    rewrite E. cbn. auto.
  - destruct (existsb _ names) eqn:E; auto. exfalso. apply existsb_exists in E as (n & Hn & E). rewrite orb_false_r in E. apply String.eqb_eq in E. subst n. auto.
Qed.
Lemma fixj_all names j : names <> [] -> fixj names true j = fixed_of j.
Proof. unfold fixj, hit_name. destruct names as [|n l]; [easy|]. intros _. cbn [existsb]. now rewrite orb_true_r. Qed.
Lemma fixj_nil all j : fixj [] all j = j. Proof. reflexivity. Qed.

(** *** The links are rewritten in place. *)
Definition arcs_fixed (F : Arc -> Arc) (l : list nat) (h h' : Heap) : Prop :=
  hJoints h' = hJoints h /\ length (hNodes h') = length (hNodes h) /\ (forall a, body_at h' a = body_at h a) /\
  (forall a, arcs_at h' a = if inb l a then map F (arcs_at h a) else arcs_at h a).
Lemma fix_nodes_run names all l : forall h, (forall a, In a l -> a < length (hNodes h)) -> NoDup l ->
  exists h', for_each l (fix_node names all) h = Ok h' /\ arcs_fixed (fix_arc names all) l h h'.
Proof.
  induction l as [|a l IH]; intros h L ND; cbn [for_each].
  - exists h. split; auto. repeat split; auto.
  - inversion ND as [|u v N1 N2]; subst. unfold fix_node at 1. destruct (nth_error (hNodes h) a) as [nd|] eqn:E; [|apply nth_error_None in E; specialize (L a (or_introl eq_refl)); lia].
    destruct (node_at _ _ _ E) as (EB & EA & LA). unfold get. rewrite E. cbn [bind]. unfold set_node. rewrite set_ok by auto. cbn [bind].
    set (h1 := mkHeap (upd (hNodes h) a (with_arcs nd (map (fix_arc names all) (nArcs nd)))) (hJoints h)).
    destruct (IH h1) as (h' & E1 & J & LL & B & A); auto. { intros b Hb. unfold h1. cbn [hNodes]. rewrite upd_length. apply L. now right. }
    exists h'. split; [exact E1|]. split; [exact J|]. split; [|split].
    + rewrite LL. unfold h1. cbn [hNodes]. apply upd_length.
    + intro b. rewrite B. unfold h1. rewrite body_at_upd. destruct ((a =? b) && (a <? length (hNodes h))) eqn:EQ; auto.
      apply andb_prop in EQ as (EQ & _). apply Nat.eqb_eq in EQ. subst b. cbn [with_arcs nBody]. now rewrite EB.
    + intro b. rewrite A. unfold h1. rewrite !arcs_at_upd. cbn [inb existsb]. fold (inb l b). destruct (Nat.eqb_spec a b) as [<-|N].
      * assert (Q : inb l a = false) by (now apply inb_false). rewrite Q. rewrite (Nat.eqb_refl a). cbn [orb]. rewrite (proj2 (Nat.ltb_lt _ _) LA). cbn [andb with_arcs nArcs]. now rewrite EA.
      * cbn [andb]. destruct (Nat.eqb_spec b a) as [->|]; [congruence|]. cbn [orb]. reflexivity.
Qed.

(** *** The multibody. *)
Definition fixl (F : Joint -> Joint) (l : list Joint) : list Joint := match l with [] => [] | j :: l => j :: map F l end.
Definition am (F : Joint -> Joint) (acc : Acc) : Acc :=
  mkAcc (ac_bodies acc) (fixl F (ac_joints acc)) (ac_pred acc) (ac_succ acc) (ac_parent acc) (ac_Xt acc).
Lemma fixl_snoc F l j : l <> [] -> fixl F (l ++ [j]) = fixl F l ++ [F j].
Proof. destruct l as [|x l]; [easy|]. intros _. cbn. now rewrite map_app. Qed.
Definition rmap {A} (f : A -> A) (r : res A) : res A := match r with Ok a => Ok (f a) | Throw e => Throw e | UB => UB | Diverge => Diverge end.
Section Tree.
Variables (h h' : Heap) (F : Joint -> Joint) (V : nat -> Prop).
Hypothesis LEN : length (hNodes h') = length (hNodes h).
Hypothesis BODY : forall a, body_at h' a = body_at h a.
Hypothesis ARCS : forall a, V a -> arcs_at h' a = map (fun e => mkArc (aX e) (F (aJoint e)) (aNext e)) (arcs_at h a).
Hypothesis CL : forall a e, V a -> In e (arcs_at h a) -> V (aNext e).
Lemma xfrom_fix from X l : x_from (map (fun e => mkArc (aX e) (F (aJoint e)) (aNext e)) l) from X = x_from l from X.
Proof.
  unfold x_from. induction l as [|e l IH]; cbn [map find]; auto. replace (is_from from _) with (is_from from e) by (now destruct from). destruct (is_from from e); auto.
Qed.
Lemma get_fix a : V a -> (exists nd nd', get (hNodes h) a = Ok nd /\ get (hNodes h') a = Ok nd' /\ nArcs nd = arcs_at h a /\ nBody nd' = nBody nd /\
   nArcs nd' = map (fun e => mkArc (aX e) (F (aJoint e)) (aNext e)) (nArcs nd)) \/ get (hNodes h) a = UB /\ get (hNodes h') a = UB.
Proof.
  intro Va. pose proof (BODY a) as B. pose proof (ARCS a Va) as A. unfold get, body_at, arcs_at in *. destruct (nth_error (hNodes h) a) as [nd|] eqn:E.
  - destruct (nth_error (hNodes h') a) as [nd'|] eqn:E'; [left; exists nd, nd'; auto|]. apply nth_error_None in E'. assert (a < length (hNodes h)) by (apply nth_error_Some; congruence). lia.
  - assert (E' : nth_error (hNodes h') a = None) by (apply nth_error_None; apply nth_error_None in E; lia). rewrite E'. auto.
Qed.
Lemma tree_fix fuel : forall a from j p s0 par X Xb acc, V a -> ac_joints acc <> [] ->
  makeTree fuel h' a from (F j) p s0 par X Xb (am F acc) = rmap (am F) (makeTree fuel h a from j p s0 par X Xb acc) /\
  (forall r, makeTree fuel h a from j p s0 par X Xb acc = Ok r -> ac_joints r <> []).
Proof.
  induction fuel as [|n IH]; intros a from j p s0 par X Xb acc Va NE; cbn [makeTree].
  - split; [reflexivity|discriminate].
  - destruct (get_fix a Va) as [(nd & nd' & E1 & E2 & EA & EB & EF)|(E1 & E2)]; rewrite E1, E2; cbn [bind]; [|split; [reflexivity|discriminate]].
    cbv zeta. rewrite EB, EF, xfrom_fix, for_each_map. cbn [aNext aJoint aX].
    match goal with |- for_each _ _ (ac_push ?b (F j) p s0 par X (am F acc)) = _ /\ _ => set (B := b) end.
    set (acc1 := ac_push B j p s0 par X acc).
    assert (EP : ac_push B (F j) p s0 par X (am F acc) = am F acc1). { unfold acc1, ac_push, am. cbn [ac_bodies ac_joints ac_pred ac_succ ac_parent ac_Xt]. now rewrite fixl_snoc. }
    rewrite EP. change (ac_bodies (am F acc1)) with (ac_bodies acc1). assert (N1 : ac_joints acc1 <> []) by (unfold acc1; cbn; intro Q; now apply app_eq_nil in Q as (_ & Q)).
    generalize (Z.of_nat (length (ac_bodies acc1)) - 1)%Z as cur. intro cur. clear EP. clearbody acc1.
    assert (VN : forall e, In e (nArcs nd) -> V (aNext e)) by (intros e He; rewrite EA in He; eapply CL; eauto). revert acc1 N1 VN.
    clear EF EA E1. generalize (x_from (nArcs nd) from Xb) as XF. intro XF. induction (nArcs nd) as [|e l IHl]; intros acc1 N1 VN; cbn [for_each].
    + split; [reflexivity|]. intros r Hr. now injection Hr as <-.
    + replace (is_from from {| aX := aX e; aJoint := F (aJoint e); aNext := aNext e |}) with (is_from from e) by (now destruct from).
      destruct (is_from from e); cbn [bind]; [apply IHl; auto; intros; apply VN; now right|]. change (ac_bodies (am F acc1)) with (ac_bodies acc1).
      destruct (IH (aNext e) (Some a) (aJoint e) cur (Z.of_nat (length (ac_bodies acc1))) cur (ptmul (aX e) (ptinv XF)) ptid acc1 (VN e (or_introl eq_refl)) N1) as (Q1 & Q2).
      rewrite Q1. destruct (makeTree n h (aNext e) (Some a) (aJoint e) cur (Z.of_nat (length (ac_bodies acc1))) cur (ptmul (aX e) (ptinv XF)) ptid acc1) as [r|x| |] eqn:ER; cbn [rmap bind]; try (split; [reflexivity|discriminate]).
      apply IHl; [exact (Q2 r eq_refl)|intros; apply VN; now right].
Qed.
Lemma tree_fix_root fuel a j p s0 par X Xb : V a ->
  makeTree fuel h' a None j p s0 par X Xb acc0 = rmap (am F) (makeTree fuel h a None j p s0 par X Xb acc0) /\
  (forall r, makeTree fuel h a None j p s0 par X Xb acc0 = Ok r -> ac_joints r <> []).
Proof.
  destruct fuel as [|n]; intros Va; cbn [makeTree].
  - split; [reflexivity|discriminate].
  - destruct (get_fix a Va) as [(nd & nd' & E1 & E2 & EA & EB & EF)|(E1 & E2)]; rewrite E1, E2; cbn [bind]; [|split; [reflexivity|discriminate]].
    cbv zeta. rewrite EB, EF, xfrom_fix, for_each_map. cbn [aNext aJoint aX is_from].
    match goal with |- for_each _ _ (ac_push ?b j p s0 par X acc0) = _ /\ _ => set (B := b) end.
    set (acc1 := ac_push B j p s0 par X acc0). assert (EP : acc1 = am F acc1) by reflexivity.
    match goal with |- for_each ?l ?f acc1 = ?r /\ ?q => change (for_each l f (am F acc1) = r /\ q) end. assert (N1 : ac_joints acc1 <> []) by (unfold acc1; cbn; discriminate).
    generalize (Z.of_nat (length (ac_bodies acc1)) - 1)%Z as cur. intro cur. clear EP. clearbody acc1.
    assert (VN : forall e, In e (nArcs nd) -> V (aNext e)) by (intros e He; rewrite EA in He; eapply CL; eauto). revert acc1 N1 VN.
    clear EF EA E1. generalize (x_from (nArcs nd) None Xb) as XF. intro XF. induction (nArcs nd) as [|e l IHl]; intros acc1 N1 VN; cbn [for_each].
    + split; [reflexivity|]. intros r Hr. now injection Hr as <-.
    + change (ac_bodies (am F acc1)) with (ac_bodies acc1).
      destruct (tree_fix n (aNext e) (Some a) (aJoint e) cur (Z.of_nat (length (ac_bodies acc1))) cur (ptmul (aX e) (ptinv XF)) ptid acc1 (VN e (or_introl eq_refl)) N1) as (Q1 & Q2).
      rewrite Q1. destruct (makeTree n h (aNext e) (Some a) (aJoint e) cur (Z.of_nat (length (ac_bodies acc1))) cur (ptmul (aX e) (ptinv XF)) ptid acc1) as [r|x| |] eqn:ER; cbn [rmap bind]; try (split; [reflexivity|discriminate]).
      apply IHl; [exact (Q2 r eq_refl)|intros; apply VN; now right].
Qed.
End Tree.

Lemma tree_len fuel h : forall a from j p s0 par X Xb acc r, length (ac_bodies acc) = length (ac_joints acc) ->
  makeTree fuel h a from j p s0 par X Xb acc = Ok r -> length (ac_bodies r) = length (ac_joints r).
Proof.
  induction fuel as [|n IH]; intros a from j p s0 par X Xb acc r L H; cbn [makeTree] in H; [discriminate|]. apply bind_Ok in H as (nd & _ & H). cbv zeta in H.
  match type of H with for_each _ _ ?x = _ => assert (L1 : length (ac_bodies x) = length (ac_joints x)) by (cbn [ac_push ac_bodies ac_joints]; rewrite !app_length; cbn [length]; lia); set (acc1 := x) in * end.
  revert H. generalize (Z.of_nat (length (ac_bodies acc1)) - 1)%Z as cur. intros cur. clearbody acc1. revert acc1 L1. generalize (x_from (nArcs nd) from Xb) as XF. intro XF.
  induction (nArcs nd) as [|e l IHl]; intros acc1 L1 H; cbn [for_each] in H; [now injection H as <-|].
  apply bind_Ok in H as (acc2 & E & H). destruct (is_from from e); [injection E as <-; exact (IHl _ L1 H)|]. exact (IHl _ (IH _ _ _ _ _ _ _ _ _ _ L1 E) H).
Qed.
(** makeMultiBody on the graph with the joints changed. *)
Lemma make_fix F (h h' : Heap) g g' fuel root t axis X0 Xb : length (hNodes h') = length (hNodes h) -> (forall a, body_at h' a = body_at h a) ->
  (forall a, In a (gNodes g) -> arcs_at h' a = map (fun e => mkArc (aX e) (F (aJoint e)) (aNext e)) (arcs_at h a)) ->
  links_inside (h, g) -> (forall n a, mfind (gBody g) n = Some a -> In a (gNodes g)) -> gBody g' = gBody g -> gRoot g' = gRoot g ->
  forall mb, makeMultiBody fuel root t axis X0 Xb (h, g) = Ok mb ->
  exists mb', makeMultiBody fuel root t axis X0 Xb (h', g') = Ok mb' /\ fixed_mb (fun j j' => j' = F j) mb mb'.
Proof.
  intros LEN BODY ARCS LI GB EB ER mb H. unfold makeMultiBody in *. rewrite EB, ER. apply bind_Ok in H as (a & E1 & H). apply bind_Ok in H as (acc & E2 & H). rewrite E1. cbn [bind].
  unfold mat_ in E1. destruct (mfind (gBody g) root) as [a'|] eqn:EM; [|discriminate]. injection E1 as ->.
  destruct (tree_fix_root h h' F (fun a => In a (gNodes g)) LEN BODY ARCS LI fuel a (mkJ t axis true (gRoot g)) (-1)%Z 0%Z (-1)%Z X0 Xb (GB root a EM)) as (Q1 & Q2).
  rewrite Q1, E2. cbn [rmap bind am ac_bodies ac_joints ac_pred ac_succ ac_parent ac_Xt]. specialize (Q2 _ E2). pose proof (tree_len _ _ _ _ _ _ _ _ _ _ acc0 acc eq_refl E2) as LL.
  destruct (MultiBody_ctor_spec (ac_bodies acc) (ac_joints acc) (ac_pred acc) (ac_succ acc) (ac_parent acc) (ac_Xt acc)) as (m1 & M1 & A1 & A2 & A3 & A4 & A5 & A6 & _); [lia|].
  assert (LF : length (fixl F (ac_joints acc)) = length (ac_joints acc)) by (destruct (ac_joints acc); cbn; [auto|now rewrite map_length]).
  destruct (MultiBody_ctor_spec (ac_bodies acc) (fixl F (ac_joints acc)) (ac_pred acc) (ac_succ acc) (ac_parent acc) (ac_Xt acc)) as (m2 & M2 & B1 & B2 & B3 & B4 & B5 & B6 & _); [lia|].
  rewrite M1 in H. injection H as <-. exists m2. split; [exact M2|]. constructor; try congruence.
  - rewrite B2, A2. now destruct (ac_joints acc).
  - rewrite B2, A2. destruct (ac_joints acc) as [|j l]; cbn [fixl tl]; [constructor|]. clear. induction l; constructor; auto.
Qed.
Lemma fixed_mb_imp (Q1 Q2 : Joint -> Joint -> Prop) mb mb' : (forall j j', Q1 j j' -> Q2 j j') -> fixed_mb Q1 mb mb' -> fixed_mb Q2 mb mb'.
Proof. intros H [A B C D E F G]. constructor; auto. clear -H G. induction G; constructor; auto. Qed.

(** *** The copy. *)
Lemma gsim_inside f s s' : gsim f (fun a => In a (gNodes (snd s))) s s' -> links_inside s -> links_inside s'.
Proof.
  intros [INJ SIM CL RO NO HV BO BV JO JL JN] LI a e Ha He. rewrite NO in Ha. apply in_map_iff in Ha as (b & <- & Hb).
  rewrite (sim_arcs f _ _ _ SIM b Hb) in He. apply in_map_iff in He as (e' & <- & He'). rewrite NO. cbn [arc_to aNext]. apply in_map. exact (LI b e' Hb He').
Qed.
Lemma copy_start (s : GSt) : names_ok_g s -> links_inside s -> exists s1, Graph_copy (snd s) (fst s) = Ok s1 /\ same_view s s1 /\ names_ok_g s1 /\ links_inside s1 /\ (gok s -> gok s1).
Proof.
  destruct s as (h & g). intros NG LI. destruct (copy_run g h "" NG LI) as (s1 & E & GS & _ & _ & _ & NG1). exists s1. split; [exact E|].
  split; [exact (gsim_view _ _ _ _ GS)|]. split; [exact NG1|]. split; [exact (gsim_inside (phi h g) (h, g) s1 GS LI)|].
  intros (G1 & G2). split; [exact (gsim_ok (phi h g) (h, g) s1 GS NG1 G1)|exact (gsim_cf (phi h g) (h, g) s1 GS G2)].
Qed.
Lemma fix_names_run names (s : GSt) : (forall n, In n names -> mfind (gJoint (snd s)) n <> None) -> for_each names fix_name s = Ok s.
Proof.
  induction names as [|n l IH]; intro H; cbn [for_each]; auto. unfold fix_name at 1, mat_. specialize (H n (or_introl eq_refl)) as Hn. destruct (mfind (gJoint (snd s)) n); [|congruence]. cbn [bind]. apply IH. intros; apply H; now right.
Qed.
Lemma fix_names_throw names (s : GSt) : (exists n, In n names /\ mfind (gJoint (snd s)) n = None) -> for_each names fix_name s = Throw OutOfRange.
Proof.
  intros (n & Hn & E). induction names as [|m l IH]; [destruct Hn|]. cbn [for_each]. unfold fix_name at 1, mat_. destruct (mfind (gJoint (snd s)) m) as [p|] eqn:Em; cbn [bind]; auto. apply IH. destruct Hn as [->|Hn]; [congruence|auto].
Qed.
Lemma ng_in_names s n : names_ok_g s -> (In n (joint_names s) <-> mfind (gJoint (snd s)) n <> None).
Proof.
  intro NG. unfold joint_names. rewrite in_map_iff. split.
  - intros (p & <- & Hp). rewrite (proj2 (ng_joint _ NG (jname (joint_at (fst s) p)) p) (conj Hp eq_refl)). discriminate.
  - intro H. destruct (mfind (gJoint (snd s)) n) as [p|] eqn:E; [|congruence]. apply (proj1 (ng_joint _ NG n p)) in E as (E1 & E2). eauto.
Qed.
Lemma fixed_names h h' g : hJoints h' = hJoints h -> length (hNodes h') = length (hNodes h) -> (forall a, body_at h' a = body_at h a) -> names_ok_g (h, g) -> names_ok_g (h', g).
Proof.
  intros EJ EL EB [A B C D E F]. assert (JA : forall p, joint_at h' p = joint_at h p) by (intro p; unfold joint_at; now rewrite EJ). unfold body_names, joint_names in *. cbn [fst snd] in *. constructor; cbn [fst snd].
  - unfold body_names. cbn [fst snd]. erewrite map_ext; [exact A|]. intro a. cbn beta. now rewrite EB.
  - unfold joint_names. cbn [fst snd]. erewrite map_ext; [exact B|]. intro a. cbn beta. now rewrite JA.
  - intros n a. rewrite EB. apply C.
  - intros n p. rewrite JA. apply D.
  - intros a Ha. rewrite EL. auto.
  - intros p Hp. rewrite EJ. auto.
Qed.
Lemma gok_fixed names all h h' g : arcs_fixed (fix_arc names all) (gNodes g) h h' -> gok (h, g) -> gok (h', g).
Proof.
  intros (EJ & EL & EB & EA) ([NG N1 N2 N3 N4 N5] & [C1 C2 C3]). cbn [fst snd] in *.
  set (F := fun e => mkArc (aX e) (fixj names all (aJoint e)) (aNext e)).
  assert (EF : forall l, map (fix_arc names all) l = map F l) by (intro l; apply map_ext; intro e; apply fix_arc_eq).
  assert (A : forall a, In a (gNodes g) -> arcs_at h' a = map F (arcs_at h a)) by (intros a Ha; rewrite EA, (proj2 (inb_iff _ _) Ha); apply EF).
  assert (FN : forall e, ajn (F e) = ajn e) by (intro e; apply fixj_name).
  assert (NG' := fixed_names h h' g EJ EL EB NG).
  assert (JN : joint_names (h', g) = joint_names (h, g)) by (unfold joint_names; cbn [fst snd]; apply map_ext; intro p; unfold joint_at; now rewrite EJ).
  assert (AD : forall a b, In a (gNodes g) -> (adj h' a b <-> adj h a b)).
  { intros a b Ha. unfold adj. rewrite A by auto. split; intros (e & He & E).
    - apply in_map_iff in He as (e0 & <- & He). exists e0. auto.
    - exists (F e). split; [now apply in_map|exact E]. }
  split.
  - constructor; cbn [fst snd]; auto.
    + intros a e Ha He. rewrite A in He by auto. apply in_map_iff in He as (e0 & <- & He). exact (N1 a e0 Ha He).
    + intros a e Ha He. rewrite A in He by auto. apply in_map_iff in He as (e0 & <- & He). rewrite JN, FN. exact (N2 a e0 Ha He).
    + intros a e Ha He. rewrite A in He by auto. apply in_map_iff in He as (e0 & <- & He). destruct (N3 a e0 Ha He) as (e' & H1 & H2 & H3). exists (F e'). cbn [F aNext aJoint].
      rewrite A by (exact (N1 a e0 Ha He)). split; [now apply in_map|]. split; [exact H2|]. rewrite H3, fixj_set, fixj_fwd. reflexivity.
    + intros a Ha. rewrite A, map_map by auto. erewrite map_ext; [exact (N4 a Ha)|]. exact FN.
    + intros a b e e' Ha Hb N He He' E. rewrite A in He, He' by auto. apply in_map_iff in He as (e0 & <- & He). apply in_map_iff in He' as (e1 & <- & He'). rewrite !FN in E. exact (N5 a b e0 e1 Ha Hb N He He' E).
  - constructor; cbn [fst snd].
    + intros a Ha. rewrite AD by auto. auto.
    + intros a Ha. rewrite A, map_map by auto. exact (C2 a Ha).
    + intros c Hc Cy. apply (C3 c Hc). eapply cycle_ext; [|exact Cy]. intros a b Ha _ Hab. apply AD; auto.
Qed.
Theorem fix_list (s : GSt) names : names_ok_g s -> links_inside s -> (forall n, In n names -> In n (joint_names s)) ->
  exists s', fixJoints (snd s) names false (fst s) = Ok s' /\ body_names s' = body_names s /\ joint_names s' = joint_names s /\
    (forall fuel root t axis X0 Xb mb, makeMultiBody fuel root t axis X0 Xb s = Ok mb ->
       exists mb', makeMultiBody fuel root t axis X0 Xb s' = Ok mb' /\ fixed_mb (fixed_in names) mb mb') /\
    (forall n, jointByName n s' = jointByName n s) /\ (gok s -> gok s').
Proof.
  intros NG LI HN. destruct (copy_start s NG LI) as ((h1 & g1) & E1 & SV & NG1 & LI1 & GO). unfold fixJoints. rewrite E1. cbn [bind].
  assert (HN1 : forall n, In n names -> mfind (gJoint g1) n <> None).
  { intros n Hn. apply (ng_in_names (h1, g1) n NG1). rewrite (sv_joints _ _ SV). auto. }
  rewrite fix_names_run by exact HN1. cbn [bind fst snd].
  destruct (fix_nodes_run names false (gNodes g1) h1) as (h3 & E3 & AF). { apply (ng_node _ NG1). } { eapply NoDup_map_inv, (ng_bodies _ NG1). }
  rewrite E3. cbn [bind]. exists (h3, g1). split; [reflexivity|]. pose proof AF as (EJ & EL & EB & EA).
  assert (JA : forall p, joint_at h3 p = joint_at h1 p) by (intro p; unfold joint_at; now rewrite EJ).
  split; [|split; [|split; [|split]]].
  - rewrite <- (sv_bodies _ _ SV). unfold body_names. cbn [fst snd]. apply map_ext. intro a. now rewrite EB.
  - rewrite <- (sv_joints _ _ SV). unfold joint_names. cbn [fst snd]. apply map_ext. intro a. now rewrite JA.
  - intros fuel root t axis X0 Xb mb H. rewrite <- (sv_make _ _ SV) in H.
    destruct (make_fix (fixj names false) h1 h3 g1 g1 fuel root t axis X0 Xb) with (mb := mb) as (mb' & M & FM); auto.
    { intros a Ha. rewrite EA, (proj2 (inb_iff _ _) Ha). apply map_ext. intro e. apply fix_arc_eq. }
    { intros n a Ha. exact (proj1 (proj1 (ng_body _ NG1 n a) Ha)). }
    exists mb'. split; [exact M|]. eapply fixed_mb_imp; [|exact FM]. intros j j' ->. apply fixj_spec.
  - intro n. rewrite <- (sv_joint _ _ SV). unfold jointByName. cbn [fst snd]. unfold get. now rewrite EJ.
  - intro G. exact (gok_fixed names false h1 h3 g1 AF (GO G)).
Qed.
Lemma fix_unknown (s : GSt) names : names_ok_g s -> links_inside s -> (exists n, In n names /\ ~ In n (joint_names s)) -> fixJoints (snd s) names false (fst s) = Throw OutOfRange.
Proof.
  intros NG LI (n & Hn & NN). destruct (copy_start s NG LI) as (s1 & E1 & SV & NG1 & LI1 & _). unfold fixJoints. rewrite E1. cbn [bind]. rewrite fix_names_throw; [reflexivity|].
  exists n. split; auto. destruct (mfind (gJoint (snd s1)) n) eqn:E; auto. exfalso. apply NN. rewrite <- (sv_joints _ _ SV). apply (ng_in_names s1 n NG1). congruence.
Qed.
(** fixAllJoints. *)
Definition jlist (s : GSt) : list Joint := map (joint_at (fst s)) (gJoints (snd s)).
Lemma joint_at_app h l p : p < length (hJoints h) -> joint_at (mkHeap (hNodes h) (hJoints h ++ l)) p = joint_at h p.
Proof. intro L. unfold joint_at. cbn [hJoints]. now apply app_nth1. Qed.
Lemma fix_ptrs_run (s : GSt) : (forall p, In p (gJoints (snd s)) -> p < length (hJoints (fst s))) ->
  exists s', for_up (length (gJoints (snd s))) fix_ptr s = Ok s' /\ hNodes (fst s') = hNodes (fst s) /\ gNodes (snd s') = gNodes (snd s) /\ gBody (snd s') = gBody (snd s) /\ gRoot (snd s') = gRoot (snd s) /\
    jlist s' = map fixed_of (jlist s).
Proof.
  intro LP. set (n := length (gJoints (snd s))).
  destruct (for_up_inv (fun i (s' : GSt) => hNodes (fst s') = hNodes (fst s) /\ gNodes (snd s') = gNodes (snd s) /\ gBody (snd s') = gBody (snd s) /\ gRoot (snd s') = gRoot (snd s) /\
     length (gJoints (snd s')) = n /\ (forall p, In p (gJoints (snd s')) -> p < length (hJoints (fst s'))) /\
     (forall k, k < n -> nth k (jlist s') jd = if k <? i then fixed_of (nth k (jlist s) jd) else nth k (jlist s) jd)) fix_ptr n s) as (s' & E & A1 & A2 & A3 & A4 & A5 & A6 & A7).
  - do 4 (split; [reflexivity|]). split; [reflexivity|]. split; [exact LP|]. intros k _. reflexivity.
  - intros i (h1 & g1) Li (A1 & A2 & A3 & A4 & A5 & A6 & A7). cbn [fst snd] in *. unfold fix_ptr.
    destruct (nth_error (gJoints g1) i) as [p|] eqn:Ep; [|apply nth_error_None in Ep; lia]. assert (Lp : p < length (hJoints h1)) by (apply A6; eapply nth_error_In; eauto).
    unfold get. rewrite Ep. cbn [bind]. destruct (nth_error (hJoints h1) p) as [j|] eqn:Ej; [|apply nth_error_None in Ej; lia]. cbn [bind]. rewrite set_ok by lia. cbn [bind].
    eexists. split; [reflexivity|]. cbn [fst snd hNodes hJoints gNodes gBody gRoot gJoints]. do 4 (split; [assumption|]). split; [now rewrite upd_length|]. split.
    + intros q Hq. rewrite app_length. cbn [length]. apply (In_nth _ _ 0) in Hq as (k & Lk & <-). rewrite upd_length in Lk. destruct (Nat.eq_dec i k) as [<-|N]; [rewrite nth_upd_eq by lia; lia|].
      rewrite nth_upd_neq by auto. assert (nth k (gJoints g1) 0 < length (hJoints h1)) by (apply A6, nth_In; auto). lia.
    + intros k Lk. specialize (A7 k Lk). unfold jlist in *. cbn [fst snd gJoints] in *. rewrite nth_map_lt with (d := 0) by (rewrite upd_length; lia). rewrite nth_map_lt with (d := 0) in A7 by lia.
      destruct (Nat.eq_dec i k) as [<-|N].
      * rewrite nth_upd_eq by lia. rewrite (proj2 (Nat.ltb_lt i (S i))) by lia. rewrite (proj2 (Nat.ltb_ge i i)) in A7 by lia. rewrite <- A7, (nth_error_nth _ _ _ Ep).
        unfold joint_at. cbn [hJoints]. rewrite app_nth2, Nat.sub_diag by lia. cbn [nth]. now rewrite (nth_error_nth _ _ _ Ej).
      * rewrite nth_upd_neq by auto. rewrite joint_at_app by (apply A6, nth_In; lia). rewrite A7. destruct (Nat.ltb_spec k i), (Nat.ltb_spec k (S i)); auto; lia.
  - exists s'. split; [exact E|]. do 4 (split; [assumption|]). apply (list_ext_nth _ _ jd).
    + unfold jlist. rewrite !map_length. exact A5.
    + intros k Lk. assert (Lk' : k < n) by (unfold jlist in Lk; rewrite map_length in Lk; lia). rewrite A7 by auto. rewrite (proj2 (Nat.ltb_lt k n) Lk'). rewrite nth_map_lt with (d := jd); [reflexivity|]. unfold jlist. now rewrite map_length.
Qed.
Theorem fix_all (s : GSt) names : names_ok_g s -> links_inside s -> names <> [] ->
  exists s', fixJoints (snd s) names true (fst s) = Ok s' /\ body_names s' = body_names s /\ joint_names s' = joint_names s /\
    (forall fuel root t axis X0 Xb mb, makeMultiBody fuel root t axis X0 Xb s = Ok mb ->
       exists mb', makeMultiBody fuel root t axis X0 Xb s' = Ok mb' /\ fixed_mb (fun j j' => fixed_in [jname j] j j') mb mb') /\
    (forall p, In p (gJoints (snd s')) -> jtyp (joint_at (fst s') p) = Fixed).
Proof.
  intros NG LI NE. destruct (copy_start s NG LI) as ((h1 & g1) & E1 & SV & NG1 & LI1 & GO). unfold fixJoints. rewrite E1. cbn [bind].
  destruct (fix_ptrs_run (h1, g1) (ng_jnt _ NG1)) as ((h2 & g2) & E2 & H1 & H2 & H3 & H4 & H5). cbn [fst snd] in *. rewrite E2. cbn [bind fst snd].
  assert (BA : forall a, body_at h2 a = body_at h1 a) by (intro a; unfold body_at; now rewrite H1).
  assert (AA : forall a, arcs_at h2 a = arcs_at h1 a) by (intro a; unfold arcs_at; now rewrite H1).
  destruct (fix_nodes_run names true (gNodes g2) h2) as (h3 & E3 & EJ & EL & EB & EA). { rewrite H1, H2. apply (ng_node _ NG1). } { rewrite H2. eapply NoDup_map_inv, (ng_bodies _ NG1). }
  rewrite E3. cbn [bind]. exists (h3, g2). split; [reflexivity|].
  assert (JA : forall p, joint_at h3 p = joint_at h2 p) by (intro p; unfold joint_at; now rewrite EJ).
  split; [|split; [|split]].
  - rewrite <- (sv_bodies _ _ SV). unfold body_names. cbn [fst snd]. rewrite H2. apply map_ext. intro a. now rewrite EB, BA.
  - rewrite <- (sv_joints _ _ SV). unfold joint_names. cbn [fst snd]. rewrite <- (map_map (joint_at h3) jname), <- (map_map (joint_at h1) jname). rewrite (map_ext _ _ JA). unfold jlist in H5. cbn [fst snd] in H5. rewrite H5, !map_map. reflexivity.
  - intros fuel root t axis X0 Xb mb H. rewrite <- (sv_make _ _ SV) in H.
    destruct (make_fix (fixj names true) h1 h3 g1 g2 fuel root t axis X0 Xb) with (mb := mb) as (mb' & M & FM); auto.
    { now rewrite EL, H1. } { intro a. now rewrite EB, BA. }
    { intros a Ha. rewrite EA, H2, (proj2 (inb_iff _ _) Ha), AA. apply map_ext. intro e. apply fix_arc_eq. }
    { intros n a Ha. exact (proj1 (proj1 (ng_body _ NG1 n a) Ha)). }
    exists mb'. split; [exact M|]. eapply fixed_mb_imp; [|exact FM]. cbv beta. intros j j' ->. rewrite fixj_all by auto. split; [cbn; auto|]. intro N. exfalso. apply N. now left.
  - cbn [fst snd]. intros p Hp. rewrite JA. assert (Q : In (joint_at h2 p) (jlist (h2, g2))) by (unfold jlist; cbn [fst snd]; now apply in_map). rewrite H5 in Q. apply in_map_iff in Q as (j & <- & _). reflexivity.
Qed.
