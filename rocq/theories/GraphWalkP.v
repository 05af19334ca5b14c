(** Graph theory for the graphs of bodies: simple paths, and the finite tree that a
    cycle-free graph unfolds to from any of its bodies. *)
From Coq Require Import Reals String ZArith Bool Arith List Lia Relations.
From Verif Require Import Res ResP SMap Vec Sva JointM MultiBodyM GraphM Spec SpecGraph GraphP.
Import ListNotations.
Open Scope R_scope.
Local Open Scope nat_scope.

(** ** Simple paths. *)
Lemma NoDup_app_left {A} (l l' : list A) : NoDup (l ++ l') -> NoDup l.
Proof. induction l as [|a l IH]; intro H; [constructor|]. inversion H; subst. constructor; auto. intro. apply H2. apply in_app_iff. auto. Qed.
Lemma NoDup_app_right {A} (l l' : list A) : NoDup (l ++ l') -> NoDup l'.
Proof. induction l as [|a l IH]; intro H; [auto|]. inversion H; auto. Qed.
Lemma NoDup_app_intro {A} (l l' : list A) : NoDup l -> NoDup l' -> (forall x, In x l -> In x l' -> False) -> NoDup (l ++ l').
Proof.
  induction l as [|a l IH]; intros H1 H2 H3; [auto|]. inversion H1; subst. cbn. constructor.
  - intro H. apply in_app_iff in H as [H|H]; [auto|]. apply (H3 a); [now left|auto].
  - apply IH; auto. intros x Hx. apply H3. now right.
Qed.
Lemma NoDup_app_disj {A} (l l' : list A) : NoDup (l ++ l') -> forall x, In x l -> In x l' -> False.
Proof.
  induction l as [|a l IH]; intros H x H1 H2; [destruct H1|]. inversion H; subst. destruct H1 as [->|H1]; [apply H4, in_app_iff; auto|eauto].
Qed.
Lemma gwalk_app R w1 x w2 : gwalk R (w1 ++ x :: w2) -> gwalk R (w1 ++ [x]) /\ gwalk R (x :: w2).
Proof.
  induction w1 as [|a w1 IH]; intro H.
  - split; [exact I|exact H].
  - destruct w1 as [|b w1]; cbn [app gwalk] in *.
    + destruct H. split; auto.
    + destruct H as (H1 & H2). destruct (IH H2) as (H3 & H4). split; auto.
Qed.
Lemma gwalk_weaken (R Q : nat -> nat -> Prop) w : (forall a b, R a b -> Q a b) -> gwalk R w -> gwalk Q w.
Proof.
  intro W. induction w as [|a w IH]; intro H; [exact I|]. destruct w as [|b w]; [exact I|]. destruct H. split; auto.
Qed.
Lemma gwalk_cons R a w : gwalk R (a :: w) -> gwalk R w.
Proof. destruct w; cbn; tauto. Qed.
Lemma last_indep {A} (l : list A) d d' : l <> [] -> last l d = last l d'.
Proof. induction l as [|a l IH]; intro N; [contradiction|]. destruct l; [reflexivity|]. apply IH. discriminate. Qed.
Lemma last_app_cons {A} (l : list A) x l2 d d' : last (l ++ x :: l2) d = last (x :: l2) d'.
Proof.
  induction l as [|a l IH]; cbn [app]; [apply last_indep; discriminate|]. rewrite <- IH. cbn [last]. destruct (l ++ x :: l2) eqn:F; [destruct l; discriminate|reflexivity].
Qed.
(** Loop erasure: what is joined is joined by a simple path. *)
Lemma simple_path (R : nat -> nat -> Prop) x y : clos_refl_trans nat R x y ->
  exists w, NoDup (x :: w) /\ gwalk R (x :: w) /\ last (x :: w) x = y.
Proof.
  intro H. apply clos_rt_rt1n in H. induction H as [x|x z y H1 H2 (w & N & W & L)].
  - exists []. split; [constructor; [intros []|constructor]|]. split; [exact I|reflexivity].
  - destruct (in_dec Nat.eq_dec x (z :: w)) as [Hi|Hi].
    + apply in_split in Hi as (l1 & l2 & E). exists l2. rewrite E in *. split; [|split].
      * clear -N. induction l1; auto. inversion N; auto.
      * apply gwalk_app in W. apply W.
      * rewrite <- L. symmetry. apply last_app_cons.
    + exists (z :: w). split; [constructor; auto|]. split; [split; auto|].
      rewrite <- L. apply (last_app_cons [x]).
Qed.

Section Walk.
Variable h : Heap.
Variable V : list nat.
Hypothesis sym : forall a b, In a V -> adj h a b -> In b V /\ adj h b a.
Hypothesis noself : forall a, In a V -> ~ adj h a a.
Hypothesis nocycle : forall c, (forall a, In a c -> In a V) -> ~ cycle (adj h) c.

(** One more step that does not go back leads to a new body. *)
Lemma path_new b a P : In a V -> (forall x, In x P -> In x V) -> NoDup (a :: P) -> gwalk (adj h) (a :: P) ->
  adj h a b -> (forall p, hd_error P = Some p -> b <> p) -> ~ In b (a :: P).
Proof.
  intros Va VP N W Ab Nb [<-|Hi]; [exact (noself _ Va Ab)|].
  apply in_split in Hi as (l1 & l2 & ->). destruct l1 as [|p l1]; [apply (Nb b); reflexivity|].
  apply (nocycle (a :: (p :: l1) ++ [b])).
  - intros x Hx. destruct Hx as [<-|Hx]; auto. apply VP. apply in_app_iff in Hx. apply in_app_iff. destruct Hx as [Hx|[<-|[]]]; auto. right. now left.
  - split; [cbn [length]; rewrite app_length; cbn; lia|]. split; [|split].
    + rewrite app_comm_cons in N |- *. apply NoDup_app_left with (l' := l2).
      rewrite <- app_assoc. exact N.
    + change (gwalk (adj h) ((a :: p :: l1) ++ [b])). change (gwalk (adj h) ((a :: p :: l1) ++ b :: l2)) in W. now apply gwalk_app in W.
    + rewrite app_comm_cons, last_last. cbn [hd]. now apply sym.
Qed.
(** Two different neighbours of a body are not joined around it. *)
Definition adj_av (S : list nat) (a b : nat) : Prop := adj h a b /\ ~ In a S /\ ~ In b S.
Lemma two_ways a b1 b2 : In a V -> adj h a b1 -> adj h a b2 -> clos_refl_trans nat (adj_av [a]) b1 b2 -> b1 = b2.
Proof.
  intros Va A1 A2 H. destruct (Nat.eq_dec b1 b2) as [|N]; auto. exfalso.
  assert (Nb1 : b1 <> a) by (intros ->; exact (noself _ Va A1)).
  destruct (simple_path _ _ _ H) as (w & ND & W & L).
  assert (AV : forall x, In x (b1 :: w) -> x <> a /\ In x V).
  { assert (V1 : In b1 V) by (apply (sym a); auto). clear L N A1 H ND. revert b1 Nb1 V1 W.
    induction w as [|c w IH]; intros b1 Nb1 V1 W x Hx.
    - destruct Hx as [<-|[]]. auto.
    - destruct Hx as [<-|Hx]; auto. destruct W as ((W1 & W2 & W3) & W4). apply (IH c); auto.
      + intros ->. apply W3. now left.
      + apply (sym b1); auto. }
  apply (nocycle (a :: b1 :: w)).
  - intros x [<-|Hx]; auto. apply AV; auto.
  - split; [destruct w as [|c w]; [exfalso; apply N; exact L|cbn; lia]|]. split; [|split].
    + constructor; auto. intro Hx. now apply (AV a).
    + split; auto. eapply gwalk_weaken; [|exact W]. intros x y Hxy. apply Hxy.
    + assert (E : last (a :: b1 :: w) 0 = b2).
      { rewrite <- L. change (last (a :: b1 :: w) 0) with (last (b1 :: w) 0). apply last_indep. discriminate. }
      rewrite E. cbn [hd]. now apply sym.
Qed.

(** ** The unfolding. *)
End Walk.

Inductive gtree := GT (a : nat) (ks : list (Arc * gtree)).
Definition groot (t : gtree) : nat := match t with GT a _ => a end.
Definition gkids (t : gtree) : list (Arc * gtree) := match t with GT _ ks => ks end.
Fixpoint gtree_rect' (P : gtree -> Prop) (F : forall a ks, (forall e t, In (e, t) ks -> P t) -> P (GT a ks)) (t : gtree) : P t :=
  match t with
  | GT a ks => F a ks ((fix go ks : forall e t, In (e, t) ks -> P t :=
      match ks with
      | [] => fun e t (H : In (e, t) []) => match H with end
      | (e0, t0) :: ks => fun e t (H : In (e, t) ((e0, t0) :: ks)) =>
          match H with
          | or_introl E => eq_ind t0 P (gtree_rect' P F t0) t (f_equal snd E)
          | or_intror H => go ks e t H
          end
      end) ks)
  end.
(** The bodies in the order they are reached. *)
Fixpoint gnodes (t : gtree) : list nat := match t with GT a ks => a :: flat_map (fun k => gnodes (snd k)) ks end.
Fixpoint gheight (t : gtree) : nat := match t with GT _ ks => S (list_max (map (fun k => gheight (snd k)) ks)) end.
(** The arcs followed from a body reached from another one. *)
Definition out_arcs (h : Heap) (from : option nat) (a : nat) : list Arc := filter (fun e => negb (is_from from e)) (arcs_at h a).
Fixpoint unf (h : Heap) (from : option nat) (t : gtree) : Prop :=
  match t with
  | GT a ks => a < length (hNodes h) /\ map fst ks = out_arcs h from a /\
      (fix all ks := match ks with [] => True | (e, t) :: ks => (groot t = aNext e /\ unf h (Some a) t) /\ all ks end) ks
  end.
Lemma unf_iff h from a ks : unf h from (GT a ks) <-> a < length (hNodes h) /\ map fst ks = out_arcs h from a /\
  forall e t, In (e, t) ks -> groot t = aNext e /\ unf h (Some a) t.
Proof.
  cbn [unf]. split; intros (H1 & H2 & H3); do 2 (split; [assumption|]).
  - clear -H3. induction ks as [|(e0, t0) ks IH]; intros e t H; [destruct H|]. destruct H3 as (H3 & H4).
    destruct H as [E|H]; [injection E as <- <-; auto|auto].
  - clear -H3. induction ks as [|(e0, t0) ks IH]; [exact I|]. split; [apply H3; now left|]. apply IH. intros. apply H3. now right.
Qed.
Lemma unf_len h from t : unf h from t -> groot t < length (hNodes h).
Proof. destruct t. intros (H & _). exact H. Qed.
Lemma gheight_kid e t ks a : In (e, t) ks -> gheight t < gheight (GT a ks).
Proof.
  intro H. cbn [gheight]. apply Nat.lt_succ_r.
  assert (F := proj1 (list_max_le (map (fun k => gheight (snd k)) ks) _) (le_n _)).
  rewrite Forall_forall in F. apply F. change (gheight t) with ((fun k => gheight (snd k)) (e, t)). now apply (in_map (fun k => gheight (snd k))).
Qed.

Section Unf.
Variable h : Heap.
Variable V : list nat.
Hypothesis inh : forall a, In a V -> a < length (hNodes h).
Hypothesis sym : forall a b, In a V -> adj h a b -> In b V /\ adj h b a.
Hypothesis noself : forall a, In a V -> ~ adj h a a.
Hypothesis nocycle : forall c, (forall a, In a c -> In a V) -> ~ cycle (adj h) c.
Hypothesis single : forall a, In a V -> NoDup (map aNext (arcs_at h a)).

Definition gpath (a : nat) (P : list nat) : Prop :=
  In a V /\ (forall x, In x P -> In x V) /\ NoDup (a :: P) /\ gwalk (adj h) (a :: P).
Lemma out_arcs_iff from a e : In e (out_arcs h from a) <-> In e (arcs_at h a) /\ forall p, from = Some p -> aNext e <> p.
Proof.
  unfold out_arcs. rewrite filter_In. split; intros (H1 & H2); split; auto.
  - intros p ->. cbn [is_from] in H2. destruct (Nat.eqb_spec (aNext e) p); [discriminate|auto].
  - destruct from as [p|]; cbn [is_from]; auto. specialize (H2 p eq_refl). apply Nat.eqb_neq in H2. now rewrite H2.
Qed.
Lemma gpath_step a P e : gpath a P -> In e (out_arcs h (hd_error P) a) -> gpath (aNext e) (a :: P).
Proof.
  intros (Va & VP & N & W) He. apply out_arcs_iff in He as (H1 & H2).
  assert (A : adj h a (aNext e)) by (exists e; auto). destruct (sym a _ Va A) as (Vb & Ab).
  split; [auto|]. split; [intros x [<-|Hx]; auto|]. split.
  - constructor; auto. apply (path_new h V sym noself nocycle); auto.
  - split; auto.
Qed.
Lemma gpath_len a P : gpath a P -> S (length P) <= length V.
Proof.
  intros (Va & VP & N & _). change (length (a :: P) <= length V). apply NoDup_incl_length; auto.
  intros x [<-|Hx]; auto.
Qed.
Lemma unf_exists n : forall a P, gpath a P -> length V - S (length P) <= n ->
  exists t, groot t = a /\ unf h (hd_error P) t /\ gheight t <= S n.
Proof.
  induction n as [|n IH]; intros a P G L.
  - assert (E : out_arcs h (hd_error P) a = []).
    { destruct (out_arcs h (hd_error P) a) as [|e l] eqn:E; auto. exfalso.
      assert (G2 := gpath_step a P e G). rewrite E in G2. specialize (G2 (or_introl eq_refl)). apply gpath_len in G2. cbn in G2. lia. }
    exists (GT a []). split; auto. split; [apply unf_iff; rewrite E; split; [exact (inh a (proj1 G))|split; [auto|intros ? ? []]]|].
    cbn. lia.
  - assert (K : forall l, (forall e, In e l -> In e (out_arcs h (hd_error P) a)) ->
       exists ks, map fst ks = l /\ forall e t, In (e, t) ks -> groot t = aNext e /\ unf h (Some a) t /\ gheight t <= S n).
    { induction l as [|e l IHl]; intro Hl.
      - exists []. split; auto. intros ? ? [].
      - destruct IHl as (ks & K1 & K2); [intros; apply Hl; now right|].
        pose proof (gpath_step a P e G (Hl e (or_introl eq_refl))) as G2.
        destruct (IH _ _ G2) as (t & T1 & T2 & T3); [cbn [length]; lia|].
        exists ((e, t) :: ks). split; [cbn; now rewrite K1|]. intros e' t' [E|H]; [injection E as <- <-; auto|auto]. }
    destruct (K _ (fun e H => H)) as (ks & K1 & K2). exists (GT a ks). split; auto. split.
    + apply unf_iff. split; [exact (inh a (proj1 G))|]. split; auto. intros e t H. destruct (K2 e t H) as (Q1 & Q2 & _). auto.
    + cbn [gheight]. apply le_n_S. apply list_max_le. rewrite Forall_forall. intros x Hx. apply in_map_iff in Hx as ((e, t) & <- & Hx).
      apply (K2 e t Hx).
Qed.
(** Bodies reached below keep clear of the path that leads there. *)
Lemma unf_avoid t : forall P, unf h (hd_error P) t -> gpath (groot t) P ->
  forall x, In x (gnodes t) -> In x V /\ ~ In x P /\ clos_refl_trans nat (adj_av h P) (groot t) x.
Proof.
  induction t as [a ks IH] using gtree_rect'. intros P U G x Hx. cbn [groot] in *.
  apply unf_iff in U as (L & K & U). cbn [gnodes] in Hx. destruct Hx as [<-|Hx].
  - destruct G as (Va & VP & N & W). split; auto. split; [inversion N; auto|apply rt_refl].
  - apply in_flat_map in Hx as ((e, t) & H1 & H2). cbn [snd] in H2. destruct (U e t H1) as (R & Ut).
    assert (He : In e (out_arcs h (hd_error P) a)) by (rewrite <- K; apply (in_map fst _ _ H1)).
    pose proof (gpath_step a P e G He) as G2. rewrite <- R in G2.
    destruct (IH e t H1 (a :: P) Ut G2 x H2) as (Vx & Nx & C). split; auto. split; [intro; apply Nx; now right|].
    apply rt_trans with (groot t).
    + apply rt_step. split; [exists e; apply out_arcs_iff in He; destruct He; auto|].
      destruct G as (_ & _ & N & _). destruct G2 as (_ & _ & N2 & _). split; [inversion N; auto|].
      inversion N2 as [|? ? Q1 Q2]. intro Q. apply Q1. now right.
    + clear -C. induction C as [y z (A & B & D)|y|y z w C1 IH1 C2 IH2].
      * apply rt_step. split; auto. split; intro; [apply B|apply D]; now right.
      * apply rt_refl.
      * eapply rt_trans; eauto.
Qed.
Lemma unf_nodup t : forall P, unf h (hd_error P) t -> gpath (groot t) P -> NoDup (gnodes t).
Proof.
  induction t as [a ks IH] using gtree_rect'. intros P U G. cbn [groot] in *.
  apply unf_iff in U as (L & K & U).
  assert (Kid : forall e t, In (e, t) ks -> gpath (groot t) (a :: P) /\ In e (out_arcs h (hd_error P) a) /\ unf h (Some a) t /\ groot t = aNext e).
  { intros e t H1. destruct (U e t H1) as (R & Ut).
    assert (He : In e (out_arcs h (hd_error P) a)) by (rewrite <- K; apply (in_map fst _ _ H1)).
    rewrite R. split; [apply gpath_step; auto|auto]. }
  cbn [gnodes]. constructor.
  - intro Hx. apply in_flat_map in Hx as ((e, t) & H1 & H2). destruct (Kid e t H1) as (G2 & _ & Ut & _).
    destruct (unf_avoid t (a :: P) Ut G2 a H2) as (_ & N & _). apply N. now left.
  - assert (ND : NoDup (map (fun k => aNext (fst k)) ks)).
    { rewrite <- (map_map fst aNext), K. unfold out_arcs. pose proof (single a (proj1 G)) as S1. clear -S1.
      induction (arcs_at h a) as [|e l IHl]; [constructor|]. inversion S1 as [|? ? Q1 Q2]; subst. cbn [filter].
      destruct (negb _); auto. cbn [map]. constructor; auto. intro H. apply Q1. apply in_map_iff in H as (x & E & H). apply filter_In in H.
      apply in_map_iff. exists x. tauto. }
    clear K U. induction ks as [|(e, t) ks IHk]; [constructor|]. cbn [flat_map snd].
    cbn [map fst] in ND. inversion ND as [|? ? Q1 Q2]; subst.
    destruct (Kid e t (or_introl eq_refl)) as (G2 & He & Ut & R).
    apply NoDup_app_intro.
    + apply (IH e t (or_introl eq_refl) (a :: P)); auto.
    + apply IHk; [intros e1 t1 H1; exact (IH e1 t1 (or_intror H1))|intros e1 t1 H1; exact (Kid e1 t1 (or_intror H1))|exact Q2].
    + intros x Hx Hy. apply in_flat_map in Hy as ((e2, t2) & H3 & H4). cbn [snd] in H4.
      destruct (Kid e2 t2 (or_intror H3)) as (G3 & He2 & Ut2 & R2).
      destruct (unf_avoid t (a :: P) Ut G2 x Hx) as (Vx & _ & C1).
      destruct (unf_avoid t2 (a :: P) Ut2 G3 x H4) as (_ & _ & C2).
      apply Q1. apply in_map_iff. exists (e2, t2). cbn [fst]. split; auto. rewrite <- R2, <- R. symmetry.
      apply (two_ways h V sym noself nocycle a).
      * exact (proj1 G).
      * rewrite R. exists e. apply out_arcs_iff in He. split; [tauto|reflexivity].
      * rewrite R2. exists e2. apply out_arcs_iff in He2. split; [tauto|reflexivity].
      * assert (W : forall u v, clos_refl_trans nat (adj_av h (a :: P)) u v -> In u V -> clos_refl_trans nat (adj_av h [a]) u v /\ clos_refl_trans nat (adj_av h [a]) v u /\ In v V).
        { intros u v C. induction C as [y z (A & B & D)|y|y z w D1 I1 D2 I2]; intro Vu.
          - destruct (sym y z Vu A) as (Vz & A'). split; [|split; auto]; apply rt_step; (split; [assumption|]); split; intros [<-|[]]; [apply B|apply D|apply D|apply B]; now left.
          - split; [apply rt_refl|split; [apply rt_refl|auto]].
          - destruct (I1 Vu) as (J1 & J2 & J3). destruct (I2 J3) as (K1 & K2 & K3). split; [|split; auto]; eapply rt_trans; eauto. }
        apply rt_trans with x; [apply (W _ _ C1), (proj1 G2)|apply (W _ _ C2), (proj1 G3)].
Qed.
(** Nothing linked to a reached body is left out. *)
Lemma unf_closed t : forall from, unf h from t -> forall x y, In x (gnodes t) -> adj h x y ->
  In y (gnodes t) \/ from = Some y.
Proof.
  induction t as [a ks IH] using gtree_rect'. intros from U x y Hx A. apply unf_iff in U as (L & K & U). cbn [gnodes] in Hx. destruct Hx as [<-|Hx].
  - destruct A as (e & He & <-). destruct (in_dec Nat.eq_dec (aNext e) (match from with Some p => [p] | None => [] end)) as [Hp|Hp].
    + right. destruct from; [destruct Hp as [->|[]]; auto|destruct Hp].
    + left. assert (Ho : In e (out_arcs h from a)). { apply out_arcs_iff. split; auto. intros p -> Q. apply Hp. now left. }
      rewrite <- K in Ho. apply in_map_iff in Ho as ((e2, t2) & E & Ho). cbn in E. subst e2. right. apply in_flat_map. exists (e, t2). split; auto.
      cbn [snd]. destruct (U e t2 Ho) as (R & _). rewrite <- R. destruct t2. now left.
  - apply in_flat_map in Hx as ((e, t) & H1 & H2). destruct (U e t H1) as (R & Ut).
    destruct (IH e t H1 (Some a) Ut x y H2 A) as [Hy|Hy].
    + left. right. apply in_flat_map. eauto.
    + injection Hy as <-. left. now left.
Qed.
Lemma groot_in t : In (groot t) (gnodes t).
Proof. destruct t. now left. Qed.
Theorem unfolding r : In r V -> exists t, groot t = r /\ unf h None t /\ gheight t <= length V /\
  NoDup (gnodes t) /\ (forall x, In x (gnodes t) <-> conn h r x) /\ (forall x, In x (gnodes t) -> In x V).
Proof.
  intro Vr. assert (G : gpath r []). { split; auto. split; [intros x []|]. split; [constructor; [intros []|constructor]|exact I]. }
  destruct (unf_exists (length V - 1) r [] G) as (t & T1 & T2 & T3); [cbn; lia|]. exists t. split; auto. split; auto.
  pose proof (gpath_len _ _ G) as Lv. cbn in Lv. split; [lia|]. subst r.
  assert (AV := unf_avoid t [] T2 G). split; [apply (unf_nodup t []); auto|]. split; [|intros x Hx; apply AV; auto].
  intro x. split.
  - intro Hx. destruct (AV x Hx) as (_ & _ & C). clear -C. induction C as [y z (A & _)|y|]; [now apply rt_step|apply rt_refl|eapply rt_trans; eauto].
  - intro C. apply clos_rt_rtn1 in C. induction C as [|y z A C IHC]; [apply groot_in|].
    destruct (unf_closed t None T2 y z IHC A) as [|E]; [auto|discriminate].
Qed.
End Unf.

(** The consistent cycle-free graphs meet the conditions. *)
Lemma graph_sym s : graph_ok s -> forall a b, In a (gNodes (snd s)) -> adj (fst s) a b -> In b (gNodes (snd s)) /\ adj (fst s) b a.
Proof.
  intros G a b Ha (e & He & <-). split; [eapply gk_next; eauto|]. destruct (gk_pair _ G a e Ha He) as (e' & H1 & H2 & _). exists e'. auto.
Qed.
Lemma graph_nodup s : graph_ok s -> NoDup (gNodes (snd s)).
Proof. intro G. eapply NoDup_map_inv. apply (ng_bodies _ (gk_names _ G)). Qed.
Lemma graph_unfolding s r : graph_ok s -> cycle_free (fst s) (snd s) -> In r (gNodes (snd s)) ->
  exists t, groot t = r /\ unf (fst s) None t /\ gheight t <= length (gNodes (snd s)) /\
    NoDup (gnodes t) /\ (forall x, In x (gnodes t) <-> conn (fst s) r x) /\ (forall x, In x (gnodes t) -> In x (gNodes (snd s))).
Proof.
  intros G CF Hr. apply (unfolding (fst s) (gNodes (snd s))); auto.
  - apply (ng_node _ (gk_names _ G)).
  - now apply graph_sym.
  - apply (cf_self _ _ CF).
  - apply (cf_cycle _ _ CF).
  - apply (cf_single _ _ CF).
Qed.
