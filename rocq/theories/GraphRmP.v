(** What removeJoint and mergeSubBodies take away. *)
From Coq Require Import Reals String ZArith Bool Arith List Lia Relations.
From Verif Require Import Res ResP SMap Vec Mat Sva JointM MultiBodyM KinM GraphM Spec SpecGraph GraphP GraphWalkP GraphTreeP GraphHistP.
Import ListNotations.
Open Scope R_scope.
Local Open Scope nat_scope.

Definition inb (l : list nat) (a : nat) : bool := existsb (Nat.eqb a) l.
Definition insb (l : list string) (a : string) : bool := existsb (String.eqb a) l.
Lemma inb_iff l a : inb l a = true <-> In a l.
Proof. unfold inb. rewrite existsb_exists. split; [intros (x & H & E); apply Nat.eqb_eq in E; now subst|intro H; exists a; split; auto; apply Nat.eqb_refl]. Qed.
Lemma insb_iff l a : insb l a = true <-> In a l.
Proof. unfold insb. rewrite existsb_exists. split; [intros (x & H & E); apply String.eqb_eq in E; now subst|intro H; exists a; split; auto; apply String.eqb_refl]. Qed.
Lemma inb_false l a : inb l a = false <-> ~ In a l.
Proof. rewrite <- inb_iff. destruct (inb l a); split; congruence. Qed.
Lemma insb_false l a : insb l a = false <-> ~ In a l.
Proof. rewrite <- insb_iff. destruct (insb l a); split; congruence. Qed.

(** [s'] is [s] without the bodies of [D] and the joints named in [J]. *)
Record taken (D : list nat) (J : list string) (s s' : GSt) : Prop := {
  tk_jnts : hJoints (fst s') = hJoints (fst s);
  tk_len : length (hNodes (fst s')) = length (hNodes (fst s));
  tk_root : gRoot (snd s') = gRoot (snd s);
  tk_nodes : gNodes (snd s') = filter (fun a => negb (inb D a)) (gNodes (snd s));
  tk_joints : gJoints (snd s') = filter (fun p => negb (insb J (jname (joint_at (fst s) p)))) (gJoints (snd s));
  tk_body : forall n, mfind (gBody (snd s')) n = match mfind (gBody (snd s)) n with Some a => if inb D a then None else Some a | None => None end;
  tk_joint : forall n, mfind (gJoint (snd s')) n = if insb J n then None else mfind (gJoint (snd s)) n;
  tk_arcs : forall a, arcs_at (fst s') a = if inb D a then [] else arcs_at (fst s) a;
  tk_bodyat : forall a, body_at (fst s') a = body_at (fst s) a
}.
Lemma filter_true {A} (f : A -> bool) l : (forall a, In a l -> f a = true) -> filter f l = l.
Proof. induction l as [|a l IH]; cbn; auto. intro H. rewrite (H a) by auto. f_equal. apply IH. auto. Qed.
Lemma taken_refl s : taken [] [] s s.
Proof.
  constructor; auto; cbn.
  - induction (gNodes (snd s)) as [|a l IH]; cbn; congruence.
  - induction (gJoints (snd s)) as [|a l IH]; cbn; congruence.
  - intro n. now destruct (mfind (gBody (snd s)) n).
Qed.
Lemma filter_filter {A} (f g : A -> bool) l : filter f (filter g l) = filter (fun a => g a && f a) l.
Proof. induction l as [|a l IH]; cbn; auto. destruct (g a); cbn; [destruct (f a); congruence|auto]. Qed.
Lemma inb_app l l' a : inb (l ++ l') a = inb l a || inb l' a.
Proof. apply existsb_app. Qed.
Lemma insb_app l l' a : insb (l ++ l') a = insb l a || insb l' a.
Proof. apply existsb_app. Qed.
Lemma taken_trans D1 J1 D2 J2 s s1 s2 : taken D1 J1 s s1 -> taken D2 J2 s1 s2 -> taken (D1 ++ D2) (J1 ++ J2) s s2.
Proof.
  intros [A1 A2 A3 A4 A5 A6 A7 A8 A9] [B1 B2 B3 B4 B5 B6 B7 B8 B9]. constructor; try congruence.
  - rewrite B4, A4, filter_filter. apply filter_ext. intro a. rewrite inb_app. now destruct (inb D1 a), (inb D2 a).
  - rewrite B5, A5, filter_filter. apply filter_ext. intro p. rewrite insb_app. unfold joint_at. rewrite A1. now destruct (insb J1 _), (insb J2 _).
  - intro n. rewrite B6, A6. destruct (mfind (gBody (snd s)) n) as [a|]; auto. rewrite inb_app. destruct (inb D1 a); cbn; auto.
  - intro n. rewrite B7, A7, insb_app. destruct (insb J1 n), (insb J2 n); auto.
  - intro a. rewrite B8, A8, inb_app. destruct (inb D1 a), (inb D2 a); auto.
Qed.
Lemma names_sub D J s s' : names_ok_g s ->
  hJoints (fst s') = hJoints (fst s) -> length (hNodes (fst s')) = length (hNodes (fst s)) ->
  gNodes (snd s') = filter (fun a => negb (inb D a)) (gNodes (snd s)) ->
  gJoints (snd s') = filter (fun p => negb (insb J (jname (joint_at (fst s) p)))) (gJoints (snd s)) ->
  (forall n, mfind (gBody (snd s')) n = match mfind (gBody (snd s)) n with Some a => if inb D a then None else Some a | None => None end) ->
  (forall n, mfind (gJoint (snd s')) n = if insb J n then None else mfind (gJoint (snd s)) n) ->
  (forall a, bname (body_at (fst s') a) = bname (body_at (fst s) a)) -> names_ok_g s'.
Proof.
  intros [A B C E F G] tk1 tk2 tk3 tk4 tk5 tk6 tk7.
  assert (JA : forall p, joint_at (fst s') p = joint_at (fst s) p) by (intro p; unfold joint_at; now rewrite tk1).
  constructor.
  - unfold body_names in *. rewrite tk3. rewrite (map_ext _ _ tk7).
    clear -A. induction (gNodes (snd s)) as [|a l IH]; [constructor|]. cbn in *. apply NoDup_cons_iff in A as (A1 & A2). destruct (inb D a); cbn; auto.
    constructor; auto. intro H. apply A1. apply in_map_iff in H as (x & H1 & H2). apply filter_In in H2 as (H2 & _). apply in_map_iff. eauto.
  - unfold joint_names in *. rewrite tk4. rewrite (map_ext _ _ (fun a => f_equal jname (JA a))).
    clear -B. induction (gJoints (snd s)) as [|a l IH]; [constructor|]. cbn in *. apply NoDup_cons_iff in B as (A1 & A2). destruct (insb J _); cbn; auto.
    constructor; auto. intro H. apply A1. apply in_map_iff in H as (x & H1 & H2). apply filter_In in H2 as (H2 & _). apply in_map_iff. eauto.
  - intros n a. rewrite tk5, tk3, tk7, filter_In. destruct (mfind (gBody (snd s)) n) as [b|] eqn:E1.
    + pose proof (proj1 (C n b) E1) as (E2 & E3). destruct (inb D b) eqn:IB; split; try discriminate.
      * intros ((H1 & H2) & H3). exfalso. assert (X : mfind (gBody (snd s)) n = Some a) by (apply C; auto). rewrite E1 in X. injection X as <-. now rewrite IB in H2.
      * intro H. injection H as <-. rewrite IB. auto.
      * intros ((H1 & H2) & H3). assert (X : mfind (gBody (snd s)) n = Some a) by (apply C; auto). congruence.
    + split; [discriminate|]. intros ((H1 & _) & H3). assert (X : mfind (gBody (snd s)) n = Some a) by (apply C; auto). congruence.
  - intros n p. rewrite tk6, tk4, JA, filter_In. destruct (insb J n) eqn:IJ; split; try discriminate.
    + intros ((H1 & H2) & <-). now rewrite IJ in H2.
    + intro H. apply E in H as (H1 & H2). split; auto. split; auto. rewrite H2, IJ. reflexivity.
    + intros ((H1 & H2) & H3). apply E. auto.
  - intros a Ha. rewrite tk3 in Ha. apply filter_In in Ha as (Ha & _). rewrite tk2. auto.
  - intros a Ha. rewrite tk4 in Ha. apply filter_In in Ha as (Ha & _). rewrite tk1. auto.
Qed.
Lemma taken_names D J s s' : names_ok_g s -> taken D J s s' -> names_ok_g s'.
Proof. intros N []. apply (names_sub D J s s'); auto. intro a. now rewrite tk_bodyat0. Qed.

(** *** The elementary steps. *)
Lemma erase_filter l p : NoDup l -> In p l -> erase_find l p = Ok (filter (fun x => negb (x =? p)) l).
Proof.
  induction l as [|x l IH]; intros N H; [destruct H|]. cbn [erase_find filter]. apply NoDup_cons_iff in N as (N1 & N2). destruct (Nat.eqb_spec x p) as [->|Ne]; cbn [negb].
  - f_equal. symmetry. clear -N1. induction l as [|y l IH]; auto. cbn. destruct (Nat.eqb_spec y p) as [->|]; [exfalso; apply N1; now left|]. cbn. f_equal. apply IH. intro; apply N1; now right.
  - destruct H as [->|H]; [contradiction|]. rewrite IH by auto. reflexivity.
Qed.
Lemma filter_ext_in' {A} (f g : A -> bool) l : (forall a, In a l -> f a = g a) -> filter f l = filter g l.
Proof. apply filter_ext_in. Qed.
Lemma rm_joint_step e s : names_ok_g s -> In (ajn e) (joint_names s) ->
  exists s', gmod (fun s =>
    let (h, g) := s in
    p <- mat_ (gJoint g) (ajn e) ;;
    js <- erase_find (gJoints g) p ;;
    Ok (h, mkGraph (gRoot g) (gNodes g) js (gBody g) (mdel (gJoint g) (ajn e)))) s = GRet tt s' /\ taken [] [ajn e] s s'.
Proof.
  destruct s as (h & g). intros N H. apply in_map_iff in H as (p & E & Hp). cbn [fst snd] in *.
  assert (F : mfind (gJoint g) (ajn e) = Some p) by (apply (ng_joint _ N); auto).
  assert (ND : NoDup (gJoints g)) by (eapply NoDup_map_inv; apply (ng_joints _ N)).
  unfold gmod, mat_. rewrite F. cbn [bind]. rewrite erase_filter by auto. cbn [bind]. eexists. split; [reflexivity|]. constructor; auto; cbn [fst snd gNodes gJoints gBody gJoint].
  - symmetry. now apply filter_true.
  - apply filter_ext_in'. intros x Hx. cbn [insb existsb]. rewrite orb_false_r. f_equal. destruct (Nat.eqb_spec x p) as [->|Ne].
    + symmetry. rewrite E. apply String.eqb_refl.
    + symmetry. apply String.eqb_neq. intro E2. apply Ne. assert (X : mfind (gJoint g) (ajn e) = Some x) by (apply (ng_joint _ N); auto). congruence.
  - intro n. cbn. now destruct (mfind (gBody g) n).
  - intro n. cbn [insb existsb]. rewrite orb_false_r. destruct (String.eqb_spec n (ajn e)) as [->|Ne]; [apply mfind_mdel_eq|now apply mfind_mdel_neq].
Qed.
Lemma drop_step a s : names_ok_g s -> In a (gNodes (snd s)) -> exists s', drop_node a s = GRet tt s' /\ taken [a] [] s s'.
Proof.
  destruct s as (h & g). intros N H. cbn [fst snd] in *. pose proof (ng_node _ N a H) as L. cbn [fst] in L.
  destruct (nth_error (hNodes h) a) as [nd|] eqn:E; [|apply nth_error_None in E; lia]. destruct (node_at _ _ _ E) as (E1 & E2 & _).
  assert (ND : NoDup (gNodes g)) by (eapply NoDup_map_inv; apply (ng_bodies _ N)).
  unfold drop_node, gmod. rewrite (proj2 (get_Ok _ _ _) E). cbn [bind]. unfold set_node. rewrite set_ok by auto. cbn [bind]. rewrite erase_filter by auto. cbn [bind].
  eexists. split; [reflexivity|]. assert (F : mfind (gBody g) (bname (nBody nd)) = Some a) by (apply (ng_body _ N); cbn; rewrite E1; auto).
  constructor; auto; cbn [fst snd gNodes gJoints gBody gJoint hNodes hJoints].
  - apply upd_length.
  - apply filter_ext. intro x. cbn [inb existsb]. now rewrite orb_false_r.
  - symmetry. now apply filter_true.
  - intro n. destruct (String.eqb_spec n (bname (nBody nd))) as [->|Ne].
    + rewrite mfind_mdel_eq, F. cbn [inb existsb]. now rewrite Nat.eqb_refl.
    + rewrite mfind_mdel_neq by auto. destruct (mfind (gBody g) n) as [b|] eqn:Fb; auto. cbn [inb existsb]. rewrite orb_false_r.
      destruct (Nat.eqb_spec b a) as [->|]; auto. apply (ng_body _ N) in Fb as (_ & Fb). cbn in Fb. rewrite E1 in Fb. congruence.
  - intro b. rewrite arcs_at_upd. cbn [with_arcs nArcs inb existsb]. rewrite orb_false_r, (proj2 (Nat.ltb_lt _ _) L), andb_true_r, (Nat.eqb_sym b a). reflexivity.
  - intro b. rewrite body_at_upd. cbn [with_arcs nBody]. destruct (Nat.eqb_spec a b) as [<-|]; cbn [andb]; auto. now rewrite (proj2 (Nat.ltb_lt _ _) L), E1.
Qed.


Lemma filter_split {A} (f : A -> bool) l1 x l2 : f x = false -> (forall y, In y l1 -> f y = true) -> (forall y, In y l2 -> f y = true) ->
  filter f (l1 ++ x :: l2) = l1 ++ l2.
Proof. intros F1 F2 F3. rewrite filter_app. cbn [filter]. rewrite F1, !filter_true; auto. Qed.
Lemma remove_nth_app {A} (l1 : list A) x l2 : remove_nth (length l1) (l1 ++ x :: l2) = l1 ++ l2.
Proof. induction l1; cbn; congruence. Qed.
Lemma taken_equiv D J D' J' s s' : (forall a, In a D <-> In a D') -> (forall a, In a J <-> In a J') -> taken D J s s' -> taken D' J' s s'.
Proof.
  intros ED EJ. assert (X : forall a, inb D' a = inb D a).
  { intro a. destruct (inb D a) eqn:E; [apply inb_iff in E; apply inb_iff; now apply ED|apply inb_false in E; apply inb_false; intro; apply E; now apply ED]. }
  assert (Y : forall a, insb J' a = insb J a).
  { intro a. destruct (insb J a) eqn:E; [apply insb_iff in E; apply insb_iff; now apply EJ|apply insb_false in E; apply insb_false; intro; apply E; now apply EJ]. }
  intros [A1 A2 A3 A4 A5 A6 A7 A8 A9]. constructor; auto.
  - rewrite A4. apply filter_ext. intro a. now rewrite X.
  - rewrite A5. apply filter_ext. intro a. now rewrite Y.
  - intro n. rewrite A6. destruct (mfind (gBody (snd s)) n); auto. now rewrite X.
  - intro n. now rewrite A7, Y.
  - intro a. now rewrite A8, X.
Qed.

(** *** The links of a tree. *)
Fixpoint gjoints (t : gtree) : list string := match t with GT _ ks => flat_map (fun k => ajn (fst k) :: gjoints (snd k)) ks end.
(** [tedge t a e t1]: in the tree [t] the link [e] of the body [a] leads to the subtree [t1]. *)
Inductive tedge : gtree -> nat -> Arc -> gtree -> Prop :=
| te_here a ks e t1 : In (e, t1) ks -> tedge (GT a ks) a e t1
| te_deep a ks e t b e1 t1 : In (e, t) ks -> tedge t b e1 t1 -> tedge (GT a ks) b e1 t1.
Lemma gjoints_edge t n : In n (gjoints t) <-> exists a e t1, tedge t a e t1 /\ ajn e = n.
Proof.
  revert n. induction t as [a ks IH] using gtree_rect'. intro n. cbn [gjoints]. rewrite in_flat_map. split.
  - intros ((e, t) & H & [E|E]); cbn [fst snd] in *; [exists a, e, t; split; auto; now constructor|].
    apply (IH e t H) in E as (b & e1 & t1 & E1 & E2). exists b, e1, t1. split; auto. eapply te_deep; eauto.
  - intros (b & e1 & t1 & E & <-). inversion E as [? ? ? ? H|? ? e t ? ? ? H1 H2]; subst.
    + exists (e1, t1). split; auto. now left.
    + exists (e, t). split; auto. right. cbn [snd]. apply (IH e t H1). eauto.
Qed.
Lemma tedge_unf h t : forall from, unf h from t -> forall a e t1, tedge t a e t1 ->
  In a (gnodes t) /\ In e (arcs_at h a) /\ aNext e = groot t1 /\ unf h (Some a) t1 /\ (forall x, In x (gnodes t1) -> In x (gnodes t)) /\ gheight t1 < gheight t.
Proof.
  induction t as [a ks IH] using gtree_rect'. intros from U b e1 t1 E. apply unf_iff in U as (L & K & U).
  inversion E as [? ? ? ? H|? ? e t ? ? ? H1 H2]; subst.
  - destruct (U e1 t1 H) as (U1 & U2). split; [now left|]. split.
    + assert (Hi : In e1 (out_arcs h from b)) by (rewrite <- K; change e1 with (fst (e1, t1)); now apply in_map). apply filter_In in Hi. tauto.
    + split; auto. split; auto. split; [|eapply gheight_kid; eauto]. intros x Hx. right. apply in_flat_map. exists (e1, t1). auto.
  - destruct (U e t H1) as (U1 & U2). destruct (IH e t H1 _ U2 b e1 t1 H2) as (A & B & C & F & G & I). split; [right; apply in_flat_map; exists (e, t); auto|].
    do 3 (split; auto). split; [|pose proof (gheight_kid e t ks a H1); lia]. intros x Hx. right. apply in_flat_map. exists (e, t). auto.
Qed.
Lemma kid_nodup a ks e t : NoDup (gnodes (GT a ks)) -> In (e, t) ks -> NoDup (gnodes t) /\ ~ In a (gnodes t).
Proof.
  cbn [gnodes]. intros N H. apply NoDup_cons_iff in N as (N1 & N2). split.
  - apply in_split in H as (l1 & l2 & ->). rewrite flat_map_app in N2. apply NoDup_app_right in N2. cbn in N2. now apply NoDup_app_left in N2.
  - intro H2. apply N1. apply in_flat_map. exists (e, t). auto.
Qed.
Lemma kids_disj a l1 e1 t1 l2 e2 t2 x : NoDup (gnodes (GT a (l1 ++ (e1, t1) :: l2))) -> In (e2, t2) l2 -> In x (gnodes t1) -> In x (gnodes t2) -> False.
Proof.
  cbn [gnodes]. intros N H X1 X2. apply NoDup_cons_iff in N as (_ & N). rewrite flat_map_app in N. apply NoDup_app_right in N. cbn in N.
  apply (NoDup_app_disj _ _ N x X1). apply in_flat_map. exists (e2, t2). auto.
Qed.
Lemma tedge_nodup t : NoDup (gnodes t) -> forall a e t1, tedge t a e t1 -> NoDup (gnodes t1) /\ ~ In a (gnodes t1).
Proof.
  induction t as [a ks IH] using gtree_rect'. intros N b e1 t1 E. inversion E as [? ? ? ? H|? ? e t ? ? ? H1 H2]; subst.
  - eapply kid_nodup; eauto.
  - destruct (kid_nodup _ _ _ _ N H1). eapply IH; eauto.
Qed.
Lemma tedge_sub t a e t1 : tedge t a e t1 -> forall x, In x (gnodes t1) -> In x (gnodes t).
Proof.
  intro E. induction E as [a ks e t1 H|a ks e2 t b e1 t1 H E IH]; intros x Hx; cbn [gnodes]; right; apply in_flat_map; [exists (e, t1)|exists (e2, t)]; auto.
Qed.
Lemma tedge_root t : NoDup (gnodes t) -> forall a e t1, tedge t a e t1 -> ~ In (groot t) (gnodes t1).
Proof.
  intros N a e t1 E H. inversion E as [b ks ? ? H1|b ks e2 t2 ? ? ? H1 H2]; subst.
  - apply (proj2 (kid_nodup _ _ _ _ N H1)). exact H.
  - apply (proj2 (kid_nodup _ _ _ _ N H1)). eapply tedge_sub; eauto.
Qed.
Lemma NoDup_map_eq {A B} (f : A -> B) l x y : NoDup (map f l) -> In x l -> In y l -> f x = f y -> x = y.
Proof.
  induction l as [|z l IH]; cbn; [intros _ []|]. intros N. apply NoDup_cons_iff in N as (N1 & N2). intros [->|Hx] [->|Hy] E; auto.
  - exfalso. apply N1. rewrite E. now apply in_map.
  - exfalso. apply N1. rewrite <- E. now apply in_map.
Qed.

Section Remove.
Variable s0 : GSt.
Hypothesis G0 : graph_ok s0.
Hypothesis CF0 : cycle_free (fst s0) (snd s0).
Notation V := (gNodes (snd s0)).
Notation h0 := (fst s0).

(** The links named as the one the walk came by are the links back. *)
Definition skip_ok (from : option nat) (pj : string) (a : nat) : Prop :=
  forall e, In e (arcs_at h0 a) -> is_from from e = String.eqb (ajn e) pj.
Lemma skip_child p e : In p V -> In e (arcs_at h0 p) -> skip_ok (Some p) (ajn e) (aNext e).
Proof.
  intros Hp He e1 H1. pose proof (gk_next _ G0 p e Hp He) as Hn. destruct (gk_pair _ G0 p e Hp He) as (e' & A & B & C).
  assert (Nm : ajn e' = ajn e) by (unfold ajn; rewrite C; reflexivity). cbn [is_from]. destruct (Nat.eqb_spec (aNext e1) p) as [E|E].
  - symmetry. apply String.eqb_eq. rewrite <- Nm. f_equal. apply (NoDup_map_eq aNext (arcs_at h0 (aNext e))); auto; [apply (cf_single _ _ CF0); auto|congruence].
  - symmetry. apply String.eqb_neq. intro E2. apply E. assert (X : e1 = e'); [|congruence].
    apply (NoDup_map_eq ajn (arcs_at h0 (aNext e))); auto; [apply (gk_once _ G0); auto|congruence].
Qed.
Lemma skip_out from pj a : skip_ok from pj a -> filter (fun e => negb (String.eqb (ajn e) pj)) (arcs_at h0 a) = out_arcs h0 from a.
Proof. intro H. unfold out_arcs. apply filter_ext_in. intros e He. now rewrite H. Qed.

Lemma gjoints_nodup t : forall from, unf h0 from t -> NoDup (gnodes t) -> (forall x, In x (gnodes t) -> In x V) -> NoDup (gjoints t).
Proof.
  induction t as [a ks IH] using gtree_rect'. intros from U N InV. assert (Ua := U). apply unf_iff in U as (L & K & U).
  assert (NK : NoDup (map ajn (map fst ks))).
  { rewrite K. unfold out_arcs. assert (X := gk_once _ G0 a (InV a (or_introl eq_refl))). clear -X. induction (arcs_at h0 a) as [|e l IHl]; [constructor|].
    cbn in *. apply NoDup_cons_iff in X as (X1 & X2). destruct (is_from from e); cbn; auto. constructor; auto. intro H. apply X1.
    apply in_map_iff in H as (e' & H1 & H2). apply filter_In in H2 as (H2 & _). apply in_map_iff. eauto. }
  (* a name used in a subtree is used between two bodies of the subtree *)
  assert (ED : forall e t n, In (e, t) ks -> In n (gjoints t) -> exists x e1, In x (gnodes t) /\ In e1 (arcs_at h0 x) /\ ajn e1 = n /\ In (aNext e1) (gnodes t)).
  { intros e t n H Hn. apply gjoints_edge in Hn as (x & e1 & t1 & E & <-). destruct (U e t H) as (_ & Ut). destruct (tedge_unf _ _ _ Ut _ _ _ E) as (A & B & C & _ & F & _).
    exists x, e1. do 3 (split; auto). rewrite C. apply F, groot_in. }
  assert (VK : forall e t x, In (e, t) ks -> In x (gnodes t) -> In x V). { intros e t x H Hx. apply InV. right. apply in_flat_map. exists (e, t). auto. }
  assert (EA : forall e t, In (e, t) ks -> In e (arcs_at h0 a)).
  { intros e t H. destruct (tedge_unf _ _ _ Ua a e t (te_here _ _ _ _ H)) as (_ & X & _). exact X. }
  cbn [gjoints]. assert (NKs : forall l1, (exists l0, ks = l0 ++ l1) -> NoDup (flat_map (fun k => ajn (fst k) :: gjoints (snd k)) l1)); [|apply NKs; exists []; reflexivity].
  induction l1 as [|(e, t) l IHl]; intros (l0 & Ek); [constructor|]. cbn [flat_map fst snd].
  assert (Hk : In (e, t) ks) by (rewrite Ek; apply in_or_app; right; now left).
  assert (Sub : forall k, In k l -> In k ks) by (intros k Hkl; rewrite Ek; apply in_or_app; right; now right).
  destruct (kid_nodup _ _ _ _ N Hk) as (Nt & Na).
  assert (NoE : forall e1 t1 e2 t2, In (e1, t1) ks -> In (e2, t2) ks -> ~ In (ajn e1) (gjoints t2)).
  { intros e1 t1 e2 t2 H1 H2 H3. destruct (ED _ _ _ H2 H3) as (x & e3 & X1 & X2 & X3 & X4). destruct (kid_nodup _ _ _ _ N H2) as (_ & Na2).
    assert (a <> x) by (intro; subst; auto). destruct (gk_link _ G0 a x e1 e3) as (_ & Y); auto; [apply InV; now left|eapply VK; eauto|eapply EA; eauto|]. rewrite Y in X4. auto. }
  change ((ajn e :: gjoints t) ++ flat_map (fun k => ajn (fst k) :: gjoints (snd k)) l) with ([ajn e] ++ (gjoints t ++ flat_map (fun k => ajn (fst k) :: gjoints (snd k)) l)).
  apply NoDup_app_intro; [constructor; [intros []|constructor]| |].
  - apply NoDup_app_intro; [apply (IH e t Hk (Some a)); auto; [exact (proj2 (U e t Hk))|intros x; eapply VK; eauto]|apply IHl; exists (l0 ++ [(e, t)]); now rewrite <- app_assoc|].
    intros n H1 H2. apply in_flat_map in H2 as ((e2, t2) & H2 & [H3|H3]); cbn [fst snd] in *.
    + subst n. exact (NoE e2 t2 e t (Sub _ H2) Hk H1).
    + destruct (ED _ _ _ Hk H1) as (x & e3 & X1 & X2 & X3 & X4). destruct (ED _ _ _ (Sub _ H2) H3) as (y & e4 & Y1 & Y2 & Y3 & Y4).
      assert (Dj : forall z, In z (gnodes t) -> In z (gnodes t2) -> False). { intros z Z1 Z2. rewrite Ek in N. eapply (kids_disj a l0 e t l e2 t2 z); eauto. }
      assert (x <> y) by (intro Q; apply (Dj x X1); rewrite Q; exact Y1). destruct (gk_link _ G0 x y e3 e4) as (Z & _); auto; [eapply VK; eauto|eapply (VK e2 t2); eauto|congruence|].
      rewrite Z in X4. exact (Dj _ X4 Y1).
  - intros n [<-|[]] H. apply in_app_or in H as [H|H]; [exact (NoE e t e t Hk Hk H)|]. apply in_flat_map in H as ((e2, t2) & H2 & [H3|H3]); cbn [fst snd] in *.
    + rewrite Ek, !map_app in NK. cbn in NK. apply NoDup_app_right in NK. apply NoDup_cons_iff in NK as (NK & _). apply NK. rewrite <- H3.
      apply in_map. change e2 with (fst (e2, t2)). now apply in_map.
    + exact (NoE e t e2 t2 Hk (Sub _ H2) H3).
Qed.
Lemma gjoints_names t from : unf h0 from t -> (forall x, In x (gnodes t) -> In x V) -> forall n, In n (gjoints t) -> In n (joint_names s0).
Proof.
  intros U InV n Hn. apply gjoints_edge in Hn as (a & e & t1 & E & <-). destruct (tedge_unf _ _ _ U _ _ _ E) as (A & B & _). eapply gk_joint; eauto.
Qed.

Lemma gfor_filter {A} (p : A -> bool) (f : A -> GM unit) l : forall s, gfor l (fun e => if p e then gret tt else f e) s = gfor (filter (fun e => negb (p e)) l) f s.
Proof.
  induction l as [|e l IH]; intro s; [reflexivity|]. cbn [gfor filter]. unfold gbind at 1. destruct (p e); cbn [negb].
  - unfold gret. apply IH.
  - cbn [gfor]. unfold gbind. destruct (f e s); auto.
Qed.
Lemma taken_joint_names D J s n : taken D J s0 s -> In n (joint_names s) <-> In n (joint_names s0) /\ ~ In n J.
Proof.
  intro T. unfold joint_names, joint_at. rewrite (tk_joints _ _ _ _ T), (tk_jnts _ _ _ _ T). rewrite !in_map_iff. split.
  - intros (p & <- & H). apply filter_In in H as (H1 & H2). split; [eauto|]. apply negb_true_iff in H2. now apply insb_false in H2.
  - intros ((p & <- & H1) & H2). exists p. split; auto. apply filter_In. split; auto. apply negb_true_iff. now apply insb_false.
Qed.
Lemma still_ok D J s a n : taken D J s0 s -> ~ In a D -> a < length (hNodes h0) -> n = length (arcs_at h0 a) -> still a n s = GRet tt s.
Proof.
  intros T H L ->. unfold still, arcs_len. pose proof (tk_arcs _ _ _ _ T a) as A. rewrite (proj2 (inb_false _ _) H) in A. unfold arcs_at in A at 1.
  destruct (nth_error (hNodes (fst s)) a); rewrite <- A; now rewrite Nat.eqb_refl.
Qed.

(** What rmNodeFromMbg does on the subtree [t] behind the link [pj]. *)
Lemma rmNode_takes t : forall from pj fuel D J s, unf h0 from t -> skip_ok from pj (groot t) -> gheight t <= fuel -> NoDup (gnodes t) -> (forall x, In x (gnodes t) -> In x V) ->
  taken D J s0 s -> (forall x, In x (gnodes t) -> ~ In x D) -> (forall n, In n (gjoints t) -> ~ In n J) ->
  exists s', rmNodeFromMbg fuel pj (groot t) s = GRet tt s' /\ taken (D ++ gnodes t) (J ++ gjoints t) s0 s'.
Proof.
  induction t as [a ks IH] using gtree_rect'. intros from pj fuel D J s U SK Hf N InV T HD HJ. assert (Ua := U). apply unf_iff in U as (L & K & U).
  destruct fuel as [|f]; [cbn in Hf; lia|]. cbn [groot rmNodeFromMbg] in *. unfold gbind at 1, glift.
  destruct (nth_error (hNodes (fst s)) a) as [nd|] eqn:En; [|apply nth_error_None in En; rewrite (tk_len _ _ _ _ T) in En; lia].
  rewrite (proj2 (get_Ok _ _ _) En). destruct (node_at _ _ _ En) as (_ & Ea & _).
  assert (Aa : nArcs nd = arcs_at h0 a). { rewrite <- Ea, (tk_arcs _ _ _ _ T), (proj2 (inb_false _ _)); auto. apply HD. now left. }
  assert (Va : In a V) by (apply InV; now left).
  assert (ND := gjoints_nodup _ _ Ua N InV).
  unfold gbind at 1. rewrite gfor_filter, Aa, (skip_out _ _ _ SK), <- K.
  assert (LOOP : forall l0 l s1, ks = l0 ++ l -> taken (D ++ flat_map (fun k => gnodes (snd k)) l0) (J ++ flat_map (fun k => ajn (fst k) :: gjoints (snd k)) l0) s0 s1 ->
    exists s', gfor (map fst l) (fun e => gbind (rmArcFromMbg (rmNodeFromMbg f) e) (fun _ => still a (length (arcs_at h0 a)))) s1 = GRet tt s' /\
      taken (D ++ flat_map (fun k => gnodes (snd k)) ks) (J ++ flat_map (fun k => ajn (fst k) :: gjoints (snd k)) ks) s0 s').
  { intros l0 l. revert l0. induction l as [|(e, t) l IHl]; intros l0 s1 Ek T1.
    - exists s1. split; [reflexivity|]. rewrite Ek, app_nil_r. exact T1.
    - assert (Hk : In (e, t) ks) by (rewrite Ek; apply in_or_app; right; now left). destruct (U e t Hk) as (Re & Ut).
      destruct (kid_nodup _ _ _ _ N Hk) as (Nt & Na).
      assert (He : In e (arcs_at h0 a)). { destruct (tedge_unf _ _ _ Ua a e t (te_here _ _ _ _ Hk)) as (_ & X & _). exact X. }
      cbn [map fst gfor]. unfold gbind at 1 2. unfold rmArcFromMbg at 1.
      assert (N1 := taken_names _ _ _ _ (gk_names _ G0) T1).
      cbn [gjoints] in ND, HJ. rewrite Ek, flat_map_app in ND. cbn [flat_map fst snd] in ND.
      assert (HnJ : ~ In (ajn e) (J ++ flat_map (fun k => ajn (fst k) :: gjoints (snd k)) l0)).
      { intro H. apply in_app_or in H as [H|H]; [apply (HJ (ajn e)); auto; apply in_flat_map; exists (e, t); split; auto; now left|].
        apply (NoDup_app_disj _ _ ND (ajn e) H). now left. }
      destruct (rm_joint_step e s1 N1) as (s2 & E2 & T2). { apply (taken_joint_names _ _ _ _ T1). split; auto. eapply gk_joint; eauto. }
      unfold gbind at 1. rewrite E2. pose proof (taken_trans _ _ _ _ _ _ _ T1 T2) as T12. rewrite app_nil_r in T12.
      rewrite <- Re. edestruct (IH e t Hk (Some a) (ajn e) f) as (s3 & E3 & T3); [exact Ut| | |exact Nt| |exact T12| | |].
      + rewrite Re. now apply skip_child.
      + pose proof (gheight_kid e t ks a Hk). lia.
      + intros x Hx. apply InV. right. apply in_flat_map. exists (e, t). auto.
      + intros x Hx H. apply in_app_or in H as [H|H]; [apply (HD x); auto; right; apply in_flat_map; exists (e, t); auto|].
        apply in_flat_map in H as ((e2, t2) & H2 & H3). apply in_split in H2 as (m1 & m2 & ->). rewrite Ek in N. rewrite <- app_assoc in N.
        cbn [app] in N. refine (kids_disj a m1 e2 t2 (m2 ++ (e, t) :: l) e t x N _ H3 Hx). apply in_or_app. right. now left.
      + intros n Hn H. apply in_app_or in H as [H|[H|[]]].
        * apply in_app_or in H as [H|H]; [apply (HJ n); auto; apply in_flat_map; exists (e, t); split; auto; now right|].
          apply (NoDup_app_disj _ _ ND n H). right. apply in_or_app. now left.
        * subst n. apply NoDup_app_right in ND. apply NoDup_cons_iff in ND as (ND & _). apply ND. apply in_or_app. now left.
      + rewrite E3. rewrite (still_ok _ _ _ _ _ T3); auto.
        * apply (IHl (l0 ++ [(e, t)])); [now rewrite <- app_assoc|]. eapply taken_equiv; [| |exact T3].
          -- intro x. rewrite flat_map_app. cbn [flat_map fst snd]. rewrite app_nil_r, app_assoc. reflexivity.
          -- intro x. rewrite flat_map_app. cbn [flat_map fst snd]. rewrite app_nil_r, !in_app_iff. cbn [In]. tauto.
        * intro H. apply in_app_or in H as [H|H]; [|now apply Na]. apply in_app_or in H as [H|H]; [apply (HD a); auto; now left|].
          cbn [gnodes] in N. apply NoDup_cons_iff in N as (N & _). apply N. rewrite Ek, flat_map_app. apply in_or_app. now left. }
  destruct (LOOP [] ks s eq_refl) as (s1 & E1 & T1); [cbn; now rewrite !app_nil_r|]. rewrite E1.
  destruct (drop_step a s1 (taken_names _ _ _ _ (gk_names _ G0) T1)) as (s2 & E2 & T2).
  { rewrite (tk_nodes _ _ _ _ T1). apply filter_In. split; auto. apply negb_true_iff, inb_false. intro H. apply in_app_or in H as [H|H]; [apply (HD a); auto; now left|].
    cbn [gnodes] in N. apply NoDup_cons_iff in N as (N & _). auto. }
  exists s2. split; [exact E2|]. pose proof (taken_trans _ _ _ _ _ _ _ T1 T2) as T12. eapply taken_equiv; [| |exact T12].
  - intro x. cbn [gnodes]. rewrite !in_app_iff. cbn [In]. tauto.
  - intro x. cbn [gjoints]. rewrite app_nil_r. reflexivity.
Qed.

(** The exploration shared by rmArc and findMergeSubNodes. *)
Section Explore.
Variable hit : nat -> nat -> nat -> Arc -> GM unit.
Variable jn : string.
Fixpoint gexpl (fuel a : nat) (pj : string) : GM bool :=
  match fuel with
  | O => fun _ => GDiv
  | S f => gbind (glift (fun s => get (hNodes (fst s)) a)) (fun nd => explore (hit a (length (nArcs nd))) (fun a pj => gexpl f a pj) pj jn 0 (nArcs nd))
  end.
Lemma gexpl_runs t : forall from pj fuel, unf h0 from t -> skip_ok from pj (groot t) -> gheight t <= fuel -> (forall x, In x (gnodes t) -> In x V) ->
  (~ In jn (gjoints t) /\ gexpl fuel (groot t) pj s0 = GRet false s0) \/
  exists a e t1 l1 l2, tedge t a e t1 /\ ajn e = jn /\ arcs_at h0 a = l1 ++ e :: l2 /\
    gexpl fuel (groot t) pj s0 = gbind (hit a (length (arcs_at h0 a)) (length l1) e) (fun _ => gret true) s0.
Proof.
  induction t as [a ks IH] using gtree_rect'. intros from pj fuel U SK Hf InV. assert (Ua := U). apply unf_iff in U as (L & K & U).
  destruct fuel as [|f]; [cbn in Hf; lia|]. cbn [groot gexpl] in *. unfold gbind at 1 2, glift.
  destruct (nth_error (hNodes h0) a) as [nd|] eqn:En; [|apply nth_error_None in En; lia].
  rewrite (proj2 (get_Ok _ _ _) En). destruct (node_at _ _ _ En) as (_ & Ea & _). rewrite <- Ea. rewrite <- (skip_out _ _ _ SK) in K.
  assert (Va : In a V) by (apply InV; now left).
  assert (LOOP : forall l l0 ks1, arcs_at h0 a = l0 ++ l -> map fst ks1 = filter (fun e => negb (String.eqb (ajn e) pj)) l -> (forall k, In k ks1 -> In k ks) ->
    (~ In jn (flat_map (fun k => ajn (fst k) :: gjoints (snd k)) ks1) /\ explore (hit a (length (arcs_at h0 a))) (fun a pj => gexpl f a pj) pj jn (length l0) l s0 = GRet false s0) \/
    exists b e t1 l1 l2, tedge (GT a ks) b e t1 /\ ajn e = jn /\ arcs_at h0 b = l1 ++ e :: l2 /\
      explore (hit a (length (arcs_at h0 a))) (fun a pj => gexpl f a pj) pj jn (length l0) l s0 = gbind (hit b (length (arcs_at h0 b)) (length l1) e) (fun _ => gret true) s0).
  { induction l as [|e l IHl]; intros l0 ks1 Eq Km Sub.
    - left. destruct ks1; [|discriminate]. split; [intros []|reflexivity].
    - cbn [explore filter] in *. destruct (String.eqb (ajn e) pj) eqn:Ep; cbn [negb] in Km.
      + specialize (IHl (l0 ++ [e]) ks1). rewrite app_length, <- app_assoc, Nat.add_1_r in IHl. apply IHl; auto.
      + destruct ks1 as [|(e', t) ks1]; [discriminate|]. injection Km as -> Km.
        assert (Hk : In (e, t) ks) by (apply Sub; now left). destruct (U e t Hk) as (Re & Ut).
        destruct (String.eqb_spec (ajn e) jn) as [Ej|Ej].
        * right. exists a, e, t, l0, l. split; [now constructor|]. split; auto.
        * assert (He : In e (arcs_at h0 a)) by (rewrite Eq; apply in_or_app; right; now left).
          unfold gbind at 1. rewrite <- Re. destruct (IH e t Hk (Some a) (ajn e) f Ut) as [(M1 & M2)|(b & e1 & t1 & l1 & l2 & M1 & M2 & M3 & M4)].
          -- rewrite Re. now apply skip_child.
          -- pose proof (gheight_kid e t ks a Hk). lia.
          -- intros x Hx. apply InV. right. apply in_flat_map. exists (e, t). auto.
          -- rewrite M2. specialize (IHl (l0 ++ [e]) ks1). rewrite app_length, <- app_assoc, Nat.add_1_r in IHl.
             destruct IHl as [(Q1 & Q2)|Q]; auto; [intros k Hkk; apply Sub; now right| |].
             ++ left. split; auto. cbn [flat_map fst snd]. intros [X|X]; [auto|]. apply in_app_or in X as [X|X]; auto.
             ++ right. destruct Q as (b & e1 & t1 & l1 & l2 & Q1 & Q2 & Q3 & Q4). exists b, e1, t1, l1, l2. do 3 (split; [assumption|]). unfold gbind at 1. rewrite M2. exact Q4.
          -- right. exists b, e1, t1, l1, l2. split; [eapply te_deep; eauto|]. split; auto. split; auto. unfold gbind at 1. rewrite M4. unfold gbind.
             destruct (hit b _ _ _ s0); auto. }
  destruct (LOOP (arcs_at h0 a) [] ks eq_refl K (fun k Hk => Hk)) as [(Q1 & Q2)|Q]; [left|right; exact Q]. split; auto.
Qed.
End Explore.
Lemma explore_ext hit1 hit2 rec1 rec2 pj jn l : (forall k e s, hit1 k e s = hit2 k e s) -> (forall a p s, rec1 a p s = rec2 a p s) ->
  forall k s, explore hit1 rec1 pj jn k l s = explore hit2 rec2 pj jn k l s.
Proof.
  intros H1 H2. induction l as [|e l IH]; intros k s; [reflexivity|]. cbn [explore]. destruct (String.eqb (ajn e) pj); [apply IH|]. destruct (String.eqb (ajn e) jn).
  - unfold gbind. now rewrite H1.
  - unfold gbind. rewrite H2. destruct (rec2 (aNext e) (ajn e) s) as [b s1| | |]; auto. destruct b; auto.
Qed.
Definition rm_hit (F a n k : nat) (e : Arc) : GM unit :=
  gbind (rmArcFromMbg (rmNodeFromMbg F) e) (fun _ => gbind (still a n) (fun _ => erase_arc a k)).
Lemma rmArc_expl F jn fuel : forall a pj s, rmArc F fuel a pj jn s = gexpl (rm_hit F) jn fuel a pj s.
Proof.
  induction fuel as [|f IH]; intros a pj s; [reflexivity|]. cbn [rmArc gexpl]. unfold gbind at 1 4. destruct (glift _ s) as [nd s1| | |]; auto.
  apply explore_ext; auto.
Qed.
Lemma merge_expl F jn pos fuel : forall a pj s, findMergeSubNodes F fuel a pj jn pos s = gexpl (fun a n k e => merge_hit F a n jn pos k e) jn fuel a pj s.
Proof.
  induction fuel as [|f IH]; intros a pj s; [reflexivity|]. cbn [findMergeSubNodes gexpl]. unfold gbind at 1 2. destruct (glift _ s) as [nd s1| | |]; auto.
  apply explore_ext; auto.
Qed.

(** What is taken away and the link erased. *)
Record cutt (D : list nat) (J : list string) (a : nat) (jn : string) (s s' : GSt) : Prop := {
  ct_jnts : hJoints (fst s') = hJoints (fst s);
  ct_len : length (hNodes (fst s')) = length (hNodes (fst s));
  ct_root : gRoot (snd s') = gRoot (snd s);
  ct_nodes : gNodes (snd s') = filter (fun a => negb (inb D a)) (gNodes (snd s));
  ct_joints : gJoints (snd s') = filter (fun p => negb (insb J (jname (joint_at (fst s) p)))) (gJoints (snd s));
  ct_body : forall n, mfind (gBody (snd s')) n = match mfind (gBody (snd s)) n with Some a => if inb D a then None else Some a | None => None end;
  ct_joint : forall n, mfind (gJoint (snd s')) n = if insb J n then None else mfind (gJoint (snd s)) n;
  ct_arcs : forall b, arcs_at (fst s') b = if inb D b then [] else if b =? a then filter (fun e => negb (String.eqb (ajn e) jn)) (arcs_at (fst s) a) else arcs_at (fst s) b;
  ct_bodyat : forall a, body_at (fst s') a = body_at (fst s) a
}.
Lemma rm_hit_cuts F t a e t1 l1 l2 : unf h0 None t -> gheight t <= F -> NoDup (gnodes t) -> (forall x, In x (gnodes t) -> In x V) ->
  tedge t a e t1 -> arcs_at h0 a = l1 ++ e :: l2 ->
  exists s', rm_hit F a (length (arcs_at h0 a)) (length l1) e s0 = GRet tt s' /\ cutt (gnodes t1) (ajn e :: gjoints t1) a (ajn e) s0 s'.
Proof.
  intros U Hf N InV E Ea. destruct (tedge_unf _ _ _ U _ _ _ E) as (A & B & C & Ut & Sub & Ht). destruct (tedge_nodup _ N _ _ _ E) as (N1 & Na).
  assert (Va := InV a A). assert (La := ng_node _ (gk_names _ G0) a Va).
  unfold rm_hit, gbind at 1, rmArcFromMbg, gbind at 1.
  destruct (rm_joint_step e s0 (gk_names _ G0)) as (s1 & E1 & T1); [eapply gk_joint; eauto|]. rewrite E1.
  edestruct (rmNode_takes t1 (Some a) (ajn e) F) as (s2 & E2 & T2); [exact Ut| | |exact N1| |exact T1| | |].
  - rewrite <- C. now apply skip_child.
  - lia.
  - auto.
  - intros x _ [].
  - intros n Hn [<-|[]]. apply gjoints_edge in Hn as (x & e1 & t2 & Ee & En). destruct (tedge_unf _ _ _ Ut _ _ _ Ee) as (X1 & X2 & X3 & _ & X4 & _).
    assert (a <> x) by (intro; subst; auto). destruct (gk_link _ G0 a x e e1) as (_ & Y); auto. apply Na. rewrite <- Y, X3. apply X4, groot_in.
  - rewrite C, E2. unfold gbind. rewrite (still_ok _ _ _ _ _ T2); auto. unfold erase_arc, gmod. destruct s2 as (h2 & g2).
    pose proof (tk_arcs _ _ _ _ T2 a) as A2. cbn [fst snd app] in A2. rewrite (proj2 (inb_false _ _) Na) in A2.
    pose proof (tk_len _ _ _ _ T2) as L2. cbn [fst] in L2.
    destruct (nth_error (hNodes h2) a) as [nd|] eqn:En; [|apply nth_error_None in En; lia].
    rewrite (proj2 (get_Ok _ _ _) En). cbn [bind]. destruct (node_at _ _ _ En) as (Eb & Eb2 & Lt). unfold set_node. rewrite set_ok by auto. cbn [bind].
    eexists. split; [reflexivity|]. destruct T2 as [K1 K2 K3 K4 K5 K6 K7 K8 K9]. cbn [app fst snd] in *. constructor; auto; cbn [fst snd hNodes hJoints].
    + now rewrite upd_length.
    + intro b. rewrite arcs_at_upd. cbn [with_arcs nArcs]. rewrite (proj2 (Nat.ltb_lt _ _) Lt), andb_true_r. destruct (Nat.eqb_spec b a) as [->|Nb].
      * rewrite Nat.eqb_refl, (proj2 (inb_false _ _) Na). rewrite <- Eb2, A2, Ea, remove_nth_app. symmetry.
        pose proof (gk_once _ G0 a Va) as O1. rewrite Ea, map_app in O1. cbn in O1. apply filter_split.
        -- now rewrite String.eqb_refl.
        -- intros y Hy. apply negb_true_iff, String.eqb_neq. intro Q. apply (NoDup_app_disj _ _ O1 (ajn e)); [rewrite <- Q; now apply in_map|now left].
        -- intros y Hy. apply negb_true_iff, String.eqb_neq. intro Q. apply NoDup_app_right in O1. apply NoDup_cons_iff in O1 as (O1 & _). apply O1. rewrite <- Q. now apply in_map.
      * rewrite (proj2 (Nat.eqb_neq a b)) by auto. apply K8.
    + intro b. rewrite body_at_upd. cbn [with_arcs nBody]. destruct (Nat.eqb_spec a b) as [<-|]; cbn [andb]; auto. rewrite (proj2 (Nat.ltb_lt _ _) Lt), <- Eb. apply K9.
Qed.
End Remove.
