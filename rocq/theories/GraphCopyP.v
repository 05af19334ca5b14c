(** What a copy of a graph contains. *)
From Coq Require Import Reals String ZArith Bool Arith List Lia Relations.
From Verif Require Import Res ResP SMap Vec Mat Sva JointM MultiBodyM KinM GraphM Spec SpecGraph SpecGraphOp GraphP GraphWalkP GraphHistP GraphSimP.
Import ListNotations.
Open Scope R_scope.
Local Open Scope nat_scope.

(** Position in a list. *)
Fixpoint posn (l : list nat) (a : nat) : nat :=
  match l with [] => 0 | x :: l => if x =? a then 0 else S (posn l a) end.
Lemma posn_nth l a : In a l -> posn l a < length l /\ nth (posn l a) l 0 = a.
Proof.
  induction l as [|x l IH]; intros []; cbn [posn length nth].
  - subst x. rewrite Nat.eqb_refl. split; [lia|auto].
  - destruct (Nat.eqb_spec x a) as [E|N]; [split; [lia|auto]|]. destruct (IH H). split; [lia|auto].
Qed.
Lemma posn_at l i : NoDup l -> i < length l -> posn l (nth i l 0) = i.
Proof.
  revert i. induction l as [|x l IH]; intros i ND L; cbn [length] in L; [lia|]. inversion ND; subst. destruct i as [|i]; cbn [nth posn].
  - now rewrite Nat.eqb_refl.
  - destruct (Nat.eqb_spec x (nth i l 0)) as [->|N]; [exfalso; apply H1, nth_In; lia|]. rewrite IH; auto. lia.
Qed.
Lemma NoDup_map_nodup {A B} (f : A -> B) l : NoDup (map f l) -> NoDup l.
Proof. apply NoDup_map_inv. Qed.

(** The names of the elements, looked up. *)
Definition lookup (nm : nat -> string) (l : list nat) (base : nat) (n : string) (d : option nat) : option nat :=
  match find (fun a => String.eqb (nm a) n) l with Some a => Some (base + posn l a) | None => d end.
Lemma lookup_step nm a l base m n : ~ In (nm a) (map nm l) -> ~ In a l ->
  lookup nm l (S base) n (mfind (mset m (nm a) base) n) = lookup nm (a :: l) base n (mfind m n).
Proof.
  intros N1 N2. unfold lookup. cbn [find posn]. destruct (String.eqb_spec (nm a) n) as [E|N].
  - destruct (find _ l) as [b|] eqn:F.
    + apply find_some in F as (F1 & F2). apply String.eqb_eq in F2. exfalso. apply N1. rewrite E, <- F2. now apply in_map.
    + rewrite <- E, mfind_mset_eq, Nat.eqb_refl. now rewrite Nat.add_0_r.
  - destruct (find _ l) as [b|] eqn:F.
    + apply find_some in F as (F1 & F2). destruct (Nat.eqb_spec a b) as [->|]; [contradiction|]. f_equal. lia.
    + apply mfind_mset_neq. congruence.
Qed.
Lemma lookup_in nm l base a d : NoDup (map nm l) -> In a l -> lookup nm l base (nm a) d = Some (base + posn l a).
Proof.
  intros ND Ha. unfold lookup. destruct (find _ l) as [b|] eqn:F.
  - apply find_some in F as (F1 & F2). apply String.eqb_eq in F2. do 2 f_equal. f_equal. 
    revert ND Ha F1 F2. clear. induction l as [|x l IH]; intros ND Ha Hb E; [destruct Ha|]. cbn [map] in ND. inversion ND; subst.
    destruct Ha as [->|Ha], Hb as [->|Hb]; auto; exfalso; apply H1; [rewrite <- E|rewrite E]; now apply in_map.
  - exfalso. eapply find_none in F; [|exact Ha]. cbn in F. now rewrite String.eqb_refl in F.
Qed.
Lemma lookup_notin nm l base n d : ~ In n (map nm l) -> lookup nm l base n d = d.
Proof.
  intro N. unfold lookup. destruct (find _ l) as [b|] eqn:F; auto. apply find_some in F as (F1 & F2). apply String.eqb_eq in F2. exfalso. apply N. rewrite <- F2. now apply in_map.
Qed.

(** *** The three loops. *)
Lemma body_at_app h l J a : a < length (hNodes h) -> body_at (mkHeap (hNodes h ++ l) J) a = body_at h a.
Proof. intro L. unfold body_at. cbn [hNodes]. now rewrite nth_error_app1. Qed.
Lemma copy_nodes_run l : forall h g, (forall a, In a l -> a < length (hNodes h)) -> NoDup (map (fun a => bname (body_at h a)) l) ->
  exists B, for_each l copy_node (h, g) = Ok (mkHeap (hNodes h ++ map (fun a => mkNode (body_at h a) []) l) (hJoints h),
       mkGraph (gRoot g) (gNodes g ++ seq (length (hNodes h)) (length l)) (gJoints g) B (gJoint g)) /\
    forall n, mfind B n = lookup (fun a => bname (body_at h a)) l (length (hNodes h)) n (mfind (gBody g) n).
Proof.
  induction l as [|a l IH]; intros h g L ND.
  - exists (gBody g). cbn. rewrite !app_nil_r. destruct h, g. auto.
  - cbn [for_each]. assert (La : a < length (hNodes h)) by (apply L; now left). destruct (nth_error (hNodes h) a) as [nd|] eqn:E; [|apply nth_error_None in E; lia].
    pose proof (proj1 (node_at _ _ _ E)) as EB. unfold copy_node at 1. unfold get. rewrite E. cbn [bind]. rewrite <- EB.
    cbn [map] in ND. inversion ND as [|x y N1 N2]; subst x y.
    assert (BA : forall b, In b l -> body_at (mkHeap (hNodes h ++ [mkNode (body_at h a) []]) (hJoints h)) b = body_at h b) by (intros; apply body_at_app; apply L; now right).
    edestruct (IH (mkHeap (hNodes h ++ [mkNode (body_at h a) []]) (hJoints h))) as (B & E2 & HB); [| |exists B; split; [rewrite E2|]].
    + intros b Hb. cbn [hNodes]. rewrite app_length. specialize (L b (or_intror Hb)). lia.
    + erewrite map_ext_in; [exact N2|]. intros b Hb. cbn. now rewrite BA.
    + cbn [hNodes hJoints gRoot gNodes gJoints gBody gJoint map length seq]. rewrite app_length. cbn [length]. rewrite <- !app_assoc. cbn [app]. rewrite Nat.add_1_r.
      do 4 f_equal. f_equal. apply map_ext_in. intros b Hb. now rewrite BA.
    + intro n. rewrite HB. cbn [hNodes gBody]. rewrite app_length, Nat.add_1_r. rewrite <- lookup_step; auto.
      * unfold lookup. replace (find _ l) with (find (fun a => String.eqb (bname (body_at h a)) n) l); [reflexivity|].
        clear -BA. induction l as [|x l IH]; cbn [find]; auto. rewrite BA by (now left). destruct (String.eqb _ n); auto. apply IH. intros; apply BA; now right.
      * intro X. apply N1. now apply (in_map (fun a => bname (body_at h a))).
Qed.
Lemma copy_joints_run l : forall h g, (forall a, In a l -> a < length (hJoints h)) -> NoDup (map (fun a => jname (joint_at h a)) l) ->
  exists B, for_each l copy_joint (h, g) = Ok (mkHeap (hNodes h) (hJoints h ++ map (joint_at h) l),
       mkGraph (gRoot g) (gNodes g) (gJoints g ++ seq (length (hJoints h)) (length l)) (gBody g) B) /\
    forall n, mfind B n = lookup (fun a => jname (joint_at h a)) l (length (hJoints h)) n (mfind (gJoint g) n).
Proof.
  induction l as [|a l IH]; intros h g L ND.
  - exists (gJoint g). cbn. rewrite !app_nil_r. destruct h, g. auto.
  - cbn [for_each]. assert (La : a < length (hJoints h)) by (apply L; now left). destruct (nth_error (hJoints h) a) as [j|] eqn:E; [|apply nth_error_None in E; lia].
    assert (EB : joint_at h a = j) by (unfold joint_at; now apply nth_error_nth). unfold copy_joint at 1. unfold get. rewrite E. cbn [bind]. rewrite <- EB.
    cbn [map] in ND. inversion ND as [|x y N1 N2]; subst x y.
    assert (BA : forall b, In b l -> joint_at (mkHeap (hNodes h) (hJoints h ++ [joint_at h a])) b = joint_at h b).
    { intros b Hb. unfold joint_at at 1. cbn [hJoints]. rewrite app_nth1; [reflexivity|]. apply L. now right. }
    edestruct (IH (mkHeap (hNodes h) (hJoints h ++ [joint_at h a]))) as (B & E2 & HB); [| |exists B; split; [rewrite E2|]].
    + intros b Hb. cbn [hJoints]. rewrite app_length. specialize (L b (or_intror Hb)). lia.
    + erewrite map_ext_in; [exact N2|]. intros b Hb. cbv beta. now rewrite BA.
    + cbn [hNodes hJoints gRoot gNodes gJoints gBody gJoint map length seq]. rewrite app_length. cbn [length]. rewrite <- !app_assoc. cbn [app]. rewrite Nat.add_1_r.
      rewrite (map_ext_in _ _ _ BA). reflexivity.
    + intro n. rewrite HB. cbn [hJoints gJoint]. rewrite app_length, Nat.add_1_r. rewrite <- lookup_step; auto.
      * unfold lookup. replace (find _ l) with (find (fun a => String.eqb (jname (joint_at h a)) n) l); [reflexivity|].
        clear -BA. induction l as [|x l IH]; cbn [find]; auto. rewrite BA by (now left). destruct (String.eqb _ n); auto. apply IH. intros; apply BA; now right.
      * intro X. apply N1. now apply (in_map (fun a => jname (joint_at h a))).
Qed.
Lemma push_arc_run b e h nd : nth_error (hNodes h) b = Some nd -> push_arc b e h = Ok (mkHeap (upd (hNodes h) b (with_arcs nd (nArcs nd ++ [e]))) (hJoints h)).
Proof.
  intro E. unfold push_arc, get, set_node. rewrite E. cbn [bind]. rewrite set_ok; [reflexivity|]. apply nth_error_Some. congruence.
Qed.
Lemma upd_upd {A} (l : list A) i x y : upd (upd l i x) i y = upd l i y.
Proof. revert i. induction l as [|a l IH]; intros [|i]; cbn [upd]; auto. now rewrite IH. Qed.
Lemma upd_same {A} (l : list A) i x : nth_error l i = Some x -> upd l i x = l.
Proof. revert i. induction l as [|a l IH]; intros [|i] E; cbn [upd nth_error] in *; auto; [congruence|]. now rewrite IH. Qed.
Lemma copy_arc_run g b f l : forall h nd, nth_error (hNodes h) b = Some nd ->
  (forall e, In e l -> aNext e < length (hNodes h) /\ mfind (gBody g) (bname (body_at h (aNext e))) = Some (f (aNext e))) ->
  for_each l (copy_arc g b) h = Ok (mkHeap (upd (hNodes h) b (with_arcs nd (nArcs nd ++ map (arc_to f) l))) (hJoints h)).
Proof.
  induction l as [|e l IH]; intros h nd E HL; cbn [for_each].
  - cbn [map]. rewrite app_nil_r. rewrite upd_same; [destruct h; auto|]. destruct nd; exact E.
  - destruct (HL e (or_introl eq_refl)) as (L1 & L2). destruct (nth_error (hNodes h) (aNext e)) as [nx|] eqn:EN; [|apply nth_error_None in EN; lia].
    pose proof (proj1 (node_at _ _ _ EN)) as EB. unfold copy_arc at 1. unfold get. rewrite EN. cbn [bind]. unfold mfind_deref. rewrite <- EB, L2. cbn [bind].
    rewrite (push_arc_run _ _ _ _ E). cbn [bind]. assert (Lb : b < length (hNodes h)) by (apply nth_error_Some; congruence).
    rewrite (IH _ (with_arcs nd (nArcs nd ++ [arc_to f e]))).
    + cbn [hNodes hJoints with_arcs nArcs nBody map]. rewrite upd_upd, <- app_assoc. reflexivity.
    + cbn [hNodes]. now apply nth_error_upd_eq.
    + intros e' He'. cbn [hNodes]. rewrite upd_length. destruct (HL e' (or_intror He')) as (H1 & H2). split; auto. rewrite body_at_upd. cbn [with_arcs nBody].
      destruct (Nat.eqb_spec b (aNext e')) as [->|]; cbn [andb]; auto. rewrite (proj2 (Nat.ltb_lt _ _) H1). rewrite <- H2. do 2 f_equal. symmetry. now apply node_at.
Qed.

(** *** The copy. *)
Definition phi (h : Heap) (src : Graph) (a : nat) : nat := length (hNodes h) + posn (gNodes src) a.
Definition arc_state (h : Heap) (src : Graph) (k : nat) : list Node :=
  map (fun i => mkNode (body_at h (nth i (gNodes src) 0)) (if i <? k then map (arc_to (phi h src)) (arcs_at h (nth i (gNodes src) 0)) else [])) (seq 0 (length (gNodes src))).
Lemma arc_state_nth h src k i : i < length (gNodes src) -> nth_error (arc_state h src k) i =
  Some (mkNode (body_at h (nth i (gNodes src) 0)) (if i <? k then map (arc_to (phi h src)) (arcs_at h (nth i (gNodes src) 0)) else [])).
Proof. intro L. unfold arc_state. rewrite nth_error_map, (nth_error_nth' _ 0) by (now rewrite seq_length). now rewrite seq_nth. Qed.
Lemma arc_state_len h src k : length (arc_state h src k) = length (gNodes src).
Proof. unfold arc_state. now rewrite map_length, seq_length. Qed.
Lemma upd_app_r {A} (l1 l2 : list A) i x : upd (l1 ++ l2) (length l1 + i) x = l1 ++ upd l2 i x.
Proof. induction l1 as [|a l1 IH]; cbn [app length Nat.add upd]; auto. now rewrite IH. Qed.
Lemma list_ext_error {A} (l l' : list A) : (forall i, nth_error l i = nth_error l' i) -> l = l'.
Proof.
  revert l'. induction l as [|a l IH]; intros [|b l'] H; auto; try (specialize (H 0); discriminate).
  f_equal; [specialize (H 0); cbn in H; congruence|]. apply IH. intro i. exact (H (S i)).
Qed.
Lemma copy_run src h r : names_ok_g (h, src) -> (forall a e, In a (gNodes src) -> In e (arcs_at h a) -> In (aNext e) (gNodes src)) ->
  exists s', copy src (h, mkGraph r [] [] [] []) = Ok s' /\ gsim (phi h src) (fun a => In a (gNodes src)) (h, src) s' /\
    (forall a, a < length (hNodes h) -> nth_error (hNodes (fst s')) a = nth_error (hNodes h) a) /\
    (exists l, hJoints (fst s') = hJoints h ++ l) /\ length (hNodes (fst s')) = length (hNodes h) + length (gNodes src) /\
    names_ok_g s'.
Proof.
  intros NG CL. set (N := gNodes src) in *. set (nm := fun a => bname (body_at h a)).
  assert (NDN : NoDup (map nm N)) by (apply (ng_bodies _ NG)). assert (ND : NoDup N) by (eapply NoDup_map_inv; eauto).
  destruct (copy_nodes_run N h (mkGraph (gRoot src) [] [] [] [])) as (B & E1 & HB); auto. { apply (ng_node _ NG). }
  cbn [gRoot gNodes gJoints gBody gJoint app mfind] in E1, HB. set (n := length N) in *. set (L := length (hNodes h)) in *.
  set (h1 := mkHeap (hNodes h ++ map (fun a => mkNode (body_at h a) []) N) (hJoints h)) in *.
  set (g1 := mkGraph (gRoot src) (seq L n) [] B []) in *.
  assert (LJ : forall p, In p (gJoints src) -> p < length (hJoints h)) by (apply (ng_jnt _ NG)).
  assert (JA : forall p, joint_at h1 p = joint_at h p) by reflexivity.
  destruct (copy_joints_run (gJoints src) h1 g1) as (BJ & E2 & HBJ); auto. { apply (ng_joints _ NG). }
  set (h2 := mkHeap (hNodes h1) (hJoints h1 ++ map (joint_at h1) (gJoints src))) in *.
  set (g2 := mkGraph (gRoot g1) (gNodes g1) (gJoints g1 ++ seq (length (hJoints h1)) (length (gJoints src))) (gBody g1) BJ) in *.
  assert (LA : forall a, In a N -> a < L) by (apply (ng_node _ NG)).
  assert (LK : forall a, In a N -> mfind B (nm a) = Some (phi h src a)).
  { intros a Ha. rewrite HB. fold nm. apply lookup_in; auto. }
  destruct (for_up_inv (fun k hh => hNodes hh = hNodes h ++ arc_state h src k /\ hJoints hh = hJoints h2) (copy_arcs src g2) n h2) as (h3 & E3 & Q1 & Q2).
  { split; [|reflexivity]. cbn [h2 h1 hNodes]. f_equal. unfold arc_state. fold N n. apply list_ext_error. intro i. rewrite !nth_error_map.
    destruct (Nat.lt_ge_cases i n) as [Li|Li].
    - rewrite !(nth_error_nth' _ 0) by (rewrite ?seq_length; auto). rewrite seq_nth by auto. cbn. reflexivity.
    - rewrite !(proj2 (nth_error_None _ _)); auto. now rewrite seq_length. }
  { intros i hh Li (H1 & H2). set (a := nth i N 0). assert (Ha : In a N) by (apply nth_In; auto).
    assert (EA : forall b, b < L -> nth_error (hNodes hh) b = nth_error (hNodes h) b) by (intros b Hb; rewrite H1; now apply nth_error_app1).
    destruct (nth_error (hNodes h) a) as [nd|] eqn:End; [|apply nth_error_None in End; specialize (LA a Ha); unfold L in LA; lia].
    destruct (node_at _ _ _ End) as (EB & EArc & _).
    exists (mkHeap (upd (hNodes hh) (L + i) (with_arcs (mkNode (body_at h a) []) (map (arc_to (phi h src)) (arcs_at h a)))) (hJoints hh)). split.
    - unfold copy_arcs. fold N. unfold get at 1. rewrite (nth_error_nth' _ 0 Li). cbn [bind]. fold a. unfold get at 1. cbn [g2 g1 gNodes].
      rewrite (nth_error_nth' _ 0) by (now rewrite seq_length). cbn [bind]. rewrite seq_nth by auto. unfold get at 1. rewrite EA, End by (auto). cbn [bind].
      rewrite <- EArc. rewrite (copy_arc_run _ _ (phi h src) (arcs_at h a) hh (mkNode (body_at h a) [])); [reflexivity| |].
      + rewrite H1, nth_error_app2 by (fold L; lia). fold L. replace (L + i - L) with i by lia. rewrite arc_state_nth by auto. rewrite Nat.ltb_irrefl. reflexivity.
      + intros e He. pose proof (CL a e Ha He) as Hn. pose proof (LA _ Hn) as Ln. split.
        * rewrite H1, app_length. fold L. lia.
        * cbn [g2 g1 gBody]. rewrite <- (LK _ Hn). f_equal. unfold nm, body_at. now rewrite EA.
    - cbn [hNodes hJoints]. split; auto. rewrite H1. unfold L. rewrite upd_app_r. f_equal. apply list_ext_error. intro k.
      destruct (Nat.lt_ge_cases k n) as [Lk|Lk].
      + rewrite arc_state_nth by auto. destruct (Nat.eq_dec i k) as [<-|Nk].
        * rewrite nth_error_upd_eq by (now rewrite arc_state_len). rewrite (proj2 (Nat.ltb_lt _ _) (Nat.lt_succ_diag_r i)). reflexivity.
        * rewrite nth_error_upd_neq, arc_state_nth by auto. destruct (Nat.ltb_spec k i), (Nat.ltb_spec k (S i)); auto; lia.
      + rewrite !(proj2 (nth_error_None _ _)); auto; rewrite ?upd_length, arc_state_len; auto. }
  assert (OLD : forall b, b < L -> nth_error (hNodes h3) b = nth_error (hNodes h) b) by (intros b Hb; rewrite Q1; now apply nth_error_app1).
  assert (EN : for_up (length (gNodes g2)) (copy_arcs src g2) h2 = Ok h3) by (cbn [g2 g1 gNodes]; rewrite seq_length; exact E3).
  exists (h3, g2). split.
  { unfold copy. cbn [fst snd gNodes gJoints gBody gJoint]. fold N. rewrite E1. cbn [bind]. rewrite E2. cbn [bind fst snd]. rewrite EN. reflexivity. }
  assert (SIM : gsim (phi h src) (fun a => In a N) (h, src) (h3, g2)).
  { constructor; cbn [fst snd]; auto.
    - intros a b Ha Hb E. unfold phi in E. fold N in E. apply posn_nth in Ha as (_ & Ha), Hb as (_ & Hb). rewrite <- Ha, <- Hb. f_equal. lia.
    - intros a Ha. destruct (nth_error (hNodes h) a) as [nd|] eqn:E; [|apply nth_error_None in E; specialize (LA a Ha); unfold L in LA; lia].
      exists nd. split; auto. destruct (node_at _ _ _ E) as (EB & EArc & _). destruct (posn_nth N a Ha) as (P1 & P2). rewrite Q1. unfold phi. fold N L.
      rewrite nth_error_app2 by (fold L; lia). fold L. replace (L + posn N a - L) with (posn N a) by lia. rewrite arc_state_nth by auto. fold N. rewrite P2.
      replace (posn N a <? n) with true by (symmetry; apply Nat.ltb_lt; exact P1). unfold node_to. now rewrite EB, EArc.
    - cbn [g2 g1 gNodes]. fold N. apply list_ext_error. intro i. rewrite nth_error_map. destruct (Nat.lt_ge_cases i n) as [Li|Li].
      + rewrite !(nth_error_nth' _ 0) by (rewrite ?seq_length; auto). rewrite seq_nth by auto. cbn [option_map]. unfold phi. fold N L. now rewrite posn_at.
      + rewrite !(proj2 (nth_error_None _ _)); auto. now rewrite seq_length.
    - intro x. cbn [g2 g1 gBody]. destruct (mfind (gBody src) x) as [a|] eqn:E; cbn [option_map].
      + apply (ng_body _ NG) in E as (Ea & <-). cbn [fst snd] in *. exact (LK a Ea).
      + rewrite HB. apply lookup_notin. intro H. apply in_map_iff in H as (a & H1 & H2). assert (X : mfind (gBody src) x = Some a) by (apply (ng_body _ NG); auto). congruence.
    - intros x a E. apply (ng_body _ NG) in E. apply E.
    - cbn [g2 g1 gJoints app]. apply list_ext_error. intro i. rewrite !nth_error_map. destruct (Nat.lt_ge_cases i (length (gJoints src))) as [Li|Li].
      + rewrite !(nth_error_nth' _ 0) by (rewrite ?seq_length; auto). rewrite seq_nth by auto. cbn [option_map]. f_equal. unfold joint_at at 1. rewrite Q2. cbn [h2 hJoints].
        rewrite app_nth2_plus. rewrite (nth_indep _ jd (joint_at h1 0)) by (now rewrite map_length). rewrite (map_nth (joint_at h1)). reflexivity.
      + rewrite !(proj2 (nth_error_None _ _)); auto. now rewrite seq_length.
    - intros p Hp. cbn [g2 g1 gJoints app] in Hp. apply in_seq in Hp. rewrite Q2. cbn [h2 hJoints]. rewrite app_length, map_length. lia.
    - intro x. unfold jointByName, mat_. cbn [fst snd g2 gJoint]. rewrite HBJ. cbn [g1 gJoint mfind]. destruct (mfind (gJoint src) x) as [p|] eqn:E; cbn [bind].
      + apply (ng_joint _ NG) in E as (Ep & <-). cbn [fst snd] in *. change (jname (joint_at h p)) with ((fun a => jname (joint_at h1 a)) p).
        rewrite lookup_in; auto; [|apply (ng_joints _ NG)]. cbn [bind]. unfold get. rewrite Q2. cbn [h2 hJoints]. rewrite nth_error_app2 by lia.
        replace (length (hJoints h1) + posn (gJoints src) p - length (hJoints h1)) with (posn (gJoints src) p) by lia. rewrite nth_error_map.
        destruct (posn_nth _ _ Ep) as (P1 & P2). rewrite (nth_error_nth' _ 0 P1), P2. cbn [option_map]. rewrite (nth_error_nth' _ jd (LJ p Ep)). reflexivity.
      + rewrite lookup_notin; [reflexivity|]. intro H. apply in_map_iff in H as (p & H1 & H2). assert (X : mfind (gJoint src) x = Some p) by (apply (ng_joint _ NG); auto). congruence. }
  split; [exact SIM|]. cbn [fst]. split; [exact OLD|]. split; [rewrite Q2; cbn [h2 h1 hJoints]; eauto|]. split.
  { rewrite Q1, app_length, arc_state_len. reflexivity. }
  pose proof (gsim_view _ _ _ _ SIM) as SV.
  assert (SB : forall b, In b N -> body_at h3 (phi h src b) = body_at h b) by (exact (sim_body _ _ _ _ (gs_sim _ _ _ _ SIM))). constructor.
  - rewrite (sv_bodies _ _ SV). apply (ng_bodies _ NG).
  - rewrite (sv_joints _ _ SV). apply (ng_joints _ NG).
  - intros x a. rewrite (gs_body _ _ _ _ SIM), (gs_nodes _ _ _ _ SIM). cbn [fst snd]. split.
    + destruct (mfind (gBody src) x) as [b|] eqn:E; cbn [option_map]; [|discriminate]. intro H. injection H as <-. apply (ng_body _ NG) in E as (E & E'). cbn [fst snd] in *.
      split; [now apply in_map|]. now rewrite SB.
    + intros (H1 & H2). apply in_map_iff in H1 as (b & <- & Hb). rewrite SB in H2 by auto.
      assert (X : mfind (gBody src) x = Some b) by (apply (ng_body _ NG); auto). now rewrite X.
  - cbn [fst snd]. intros x p. cbn [g2 gJoint gJoints g1 app]. rewrite HBJ. cbn [g1 gJoint mfind].
    assert (JJ : forall i, i < length (gJoints src) -> joint_at h3 (length (hJoints h1) + i) = joint_at h (nth i (gJoints src) 0)).
    { intros i Li. unfold joint_at at 1. rewrite Q2. cbn [h2 hJoints]. rewrite app_nth2_plus. rewrite (nth_indep _ jd (joint_at h1 0)) by (now rewrite map_length). rewrite (map_nth (joint_at h1)). reflexivity. }
    split.
    + destruct (in_dec string_dec x (joint_names (h, src))) as [Hx|Hx].
      * unfold joint_names in Hx. apply in_map_iff in Hx as (p0 & <- & Hp). cbn [fst snd] in *. change (jname (joint_at h p0)) with ((fun a => jname (joint_at h1 a)) p0).
        rewrite lookup_in; auto; [|apply (ng_joints _ NG)]. intro H. injection H as <-. destruct (posn_nth _ _ Hp) as (P1 & P2). rewrite JJ by auto. rewrite P2. split; auto. apply in_seq. cbn [h1 hJoints] in *. lia.
      * rewrite lookup_notin; [discriminate|exact Hx].
    + intros (H1 & H2). apply in_seq in H1. replace p with (length (hJoints h1) + (p - length (hJoints h1))) in * by lia. set (i := p - length (hJoints h1)) in *.
      rewrite JJ in H2 by lia. rewrite <- H2. change (jname (joint_at h (nth i (gJoints src) 0))) with ((fun a => jname (joint_at h1 a)) (nth i (gJoints src) 0)).
      rewrite lookup_in; [|apply (ng_joints _ NG)|apply nth_In; lia]. rewrite posn_at; [reflexivity| |lia]. eapply NoDup_map_inv. apply (ng_joints _ NG).
  - intros a Ha. rewrite (gs_nodes _ _ _ _ SIM) in Ha. apply in_map_iff in Ha as (b & <- & Hb). cbn [fst snd] in *. destruct (gs_sim _ _ _ _ SIM b Hb) as (nd & _ & E). apply nth_error_Some. cbn [fst] in E. congruence.
  - apply (gs_jlive _ _ _ _ SIM).
Qed.
