(** removeJoint takes away what lies behind the joint, and nothing else. *)
From Coq Require Import Reals String ZArith Bool Arith List Lia Relations.
From Verif Require Import Res ResP SMap Vec Mat Sva JointM MultiBodyM KinM GraphM Spec SpecGraph SpecGraphOp GraphP GraphWalkP GraphTreeP GraphHistP GraphRmP.
Import ListNotations.
Open Scope R_scope.
Local Open Scope nat_scope.

Lemma conn_no_conn h jn a b : conn_no h jn a b -> conn h a b.
Proof. intro C. induction C as [x y (e & A & B & _)|x|]; [apply rt_step; exists e; auto|apply rt_refl|eapply rt_trans; eauto]. Qed.
Lemma tree_conn_no h jn t : forall from, unf h from t -> forall x, In x (gnodes t) ->
  (forall a e t1, tedge t a e t1 -> ajn e = jn -> ~ In x (gnodes t1)) -> conn_no h jn (groot t) x.
Proof.
  induction t as [a ks IH] using gtree_rect'. intros from U x Hx Hn. assert (Ua := U). apply unf_iff in U as (L & K & U). cbn [gnodes] in Hx. destruct Hx as [<-|Hx]; [apply rt_refl|].
  apply in_flat_map in Hx as ((e, t) & Hk & Hx). cbn [snd] in Hx. destruct (U e t Hk) as (Re & Ut). cbn [groot].
  destruct (tedge_unf _ _ _ Ua a e t (te_here _ _ _ _ Hk)) as (_ & He & _).
  apply rt_trans with (groot t).
  - apply rt_step. exists e. split; auto. split; auto. intro Q. apply (Hn a e t (te_here _ _ _ _ Hk) Q Hx).
  - apply (IH e t Hk (Some a) Ut x Hx). intros b e1 t1 E Q. apply (Hn b e1 t1); auto. eapply te_deep; eauto.
Qed.
Lemma tree_edge_in h0 (s0 : GSt) t : h0 = fst s0 -> graph_ok s0 -> cycle_free (fst s0) (snd s0) -> forall from, unf h0 from t -> (forall x, In x (gnodes t) -> In x (gNodes (snd s0))) ->
  forall x e, In x (gnodes t) -> In e (arcs_at h0 x) -> In (ajn e) (gjoints t) \/ (x = groot t /\ is_from from e = true).
Proof.
  intros -> G CF. induction t as [a ks IH] using gtree_rect'. intros from U InV x e Hx He. assert (Ua := U). apply unf_iff in U as (L & K & U). cbn [gnodes] in Hx. destruct Hx as [<-|Hx].
  - destruct (is_from from e) eqn:F; [right; auto|left]. assert (Ho : In e (out_arcs (fst s0) from a)) by (apply filter_In; split; auto; now rewrite F).
    rewrite <- K in Ho. apply in_map_iff in Ho as ((e', t) & E & Hk). cbn in E. subst e'. cbn [gjoints]. apply in_flat_map. exists (e, t). split; auto. now left.
  - left. apply in_flat_map in Hx as ((e1, t) & Hk & Hx). cbn [snd] in Hx. destruct (U e1 t Hk) as (Re & Ut). cbn [gjoints]. apply in_flat_map. exists (e1, t). split; auto. cbn [fst snd].
    destruct (IH e1 t Hk (Some a) Ut) with (x := x) (e := e) as [Q|(-> & Q)]; auto.
    + intros y Hy. apply InV. right. apply in_flat_map. exists (e1, t). auto.
    + now right.
    + left. destruct (tedge_unf _ _ _ Ua a e1 t (te_here _ _ _ _ Hk)) as (_ & He1 & _). rewrite Re in He.
      assert (S := skip_child s0 G CF a e1 (InV a (or_introl eq_refl)) He1 e He). rewrite Q in S. symmetry in S. apply String.eqb_eq in S. auto.
Qed.

Lemma unf_closed_root h t : forall from, unf h from t -> forall x y, In x (gnodes t) -> adj h x y -> In y (gnodes t) \/ (x = groot t /\ from = Some y).
Proof.
  destruct t as [a ks]. intros from U x y Hx A. destruct (unf_closed h (GT a ks) from U x y Hx A) as [|E]; auto.
  apply unf_iff in U as (L & K & U). cbn [gnodes] in Hx. destruct Hx as [<-|Hx]; [right; auto|]. left.
  apply in_flat_map in Hx as ((e, t) & H1 & H2). destruct (U e t H1) as (_ & Ut). destruct (unf_closed h t (Some a) Ut x y H2 A) as [Hy|Hy].
  - right. apply in_flat_map. eauto.
  - injection Hy as <-. now left.
Qed.
Lemma flat_map_nodup_eq {A B} (f : A -> list B) l x y n : NoDup (flat_map f l) -> In x l -> In y l -> In n (f x) -> In n (f y) -> x = y.
Proof.
  induction l as [|z l IH]; cbn; [intros _ []|]. intros N Hx Hy Nx Ny. destruct Hx as [<-|Hx], Hy as [<-|Hy]; auto.
  - exfalso. apply (NoDup_app_disj _ _ N n); auto. apply in_flat_map. eauto.
  - exfalso. apply (NoDup_app_disj _ _ N n); auto. apply in_flat_map. eauto.
  - apply NoDup_app_right in N. auto.
Qed.
Lemma flat_map_nodup_in {A B} (f : A -> list B) l x : NoDup (flat_map f l) -> In x l -> NoDup (f x).
Proof.
  induction l as [|z l IH]; cbn; [intros _ []|]. intros N [<-|Hx]; [now apply NoDup_app_left in N|apply NoDup_app_right in N; auto].
Qed.
Lemma edge_unique t : NoDup (gjoints t) -> forall a e t1 a' e' t1', tedge t a e t1 -> tedge t a' e' t1' -> ajn e = ajn e' -> a = a' /\ e = e' /\ t1 = t1'.
Proof.
  induction t as [b ks IH] using gtree_rect'. intros N a e t1 a' e' t1' E E' Q. cbn [gjoints] in N.
  assert (K : forall a0 e0 t0, tedge (GT b ks) a0 e0 t0 -> exists k, In k ks /\ ((a0 = b /\ k = (e0, t0)) \/ tedge (snd k) a0 e0 t0) /\ In (ajn e0) (ajn (fst k) :: gjoints (snd k))).
  { intros a0 e0 t0 E0. inversion E0 as [? ? ? ? H|? ? e2 t2 ? ? ? H1 H2]; subst.
    - exists (e0, t0). split; auto. split; auto. now left.
    - exists (e2, t2). split; auto. split; auto. right. apply gjoints_edge. cbn [snd]. eauto. }
  destruct (K _ _ _ E) as (k & Hk & D1 & I1). destruct (K _ _ _ E') as (k' & Hk' & D2 & I2). rewrite <- Q in I2.
  assert (k = k') by (eapply (flat_map_nodup_eq _ ks k k' (ajn e) N); eauto). subst k'.
  assert (Nk := flat_map_nodup_in _ _ _ N Hk). cbn beta in Nk. apply NoDup_cons_iff in Nk as (Nk1 & Nk2). destruct k as (e2, t2). cbn [fst snd] in *.
  destruct D1 as [(-> & D1)|D1], D2 as [(-> & D2)|D2].
  - injection D1 as -> ->. injection D2 as -> ->. auto.
  - injection D1 as -> ->. exfalso. apply Nk1. rewrite Q. apply gjoints_edge. eauto.
  - injection D2 as -> ->. exfalso. apply Nk1. rewrite <- Q. apply gjoints_edge. eauto.
  - eapply (IH e2 t2 Hk Nk2); eauto.
Qed.

Section Cut.
Variable s : GSt.
Hypothesis GK : gok s.
Notation V := (gNodes (snd s)).
Notation h := (fst s).
Let G : graph_ok s := proj1 GK.
Let CF : cycle_free h (snd s) := proj2 GK.

Variable r : nat.
Variable t : gtree.
Hypothesis Tr : groot t = r.
Hypothesis Tu : unf h None t.
Hypothesis Tn : NoDup (gnodes t).
Hypothesis Tc : forall x, In x (gnodes t) <-> conn h r x.
Hypothesis Tv : forall x, In x (gnodes t) -> In x V.

Lemma behind_none jn x : ~ In jn (gjoints t) -> ~ behind h r jn x.
Proof.
  intros H (C & Nc). apply Nc. rewrite <- Tr. apply (tree_conn_no h jn t None Tu); [now apply Tc|]. intros a e t1 E <- _. apply H. apply gjoints_edge. eauto.
Qed.
Lemma behind_tree jn a e t1 x : tedge t a e t1 -> ajn e = jn -> (behind h r jn x <-> In x (gnodes t1)).
Proof.
  intros E Q. destruct (tedge_unf _ _ _ Tu _ _ _ E) as (A1 & A2 & A3 & A4 & A5 & _). split.
  - intros (C & Nc). destruct (in_dec Nat.eq_dec x (gnodes t1)) as [|Hn]; auto. exfalso. apply Nc. rewrite <- Tr. apply (tree_conn_no h jn t None Tu); [now apply Tc|].
    intros a' e' t1' E' Q'. destruct (edge_unique t (gjoints_nodup s G t None Tu Tn Tv) a' e' t1' a e t1 E' E) as (_ & _ & ->); [congruence|auto].
  - intro Hx. split; [apply Tc; auto|]. intro C. assert (Hr : ~ In r (gnodes t1)) by (rewrite <- Tr; eapply tedge_root; eauto).
    assert (Nx : ~ In x (gnodes t1)); [|auto]. apply clos_rt_rtn1 in C. assert (CC : conn h r x) by (apply conn_no_conn with jn; now apply clos_rtn1_rt). clear Hx.
    induction C as [|y z (e1 & B1 & B2 & B3) C IH]; auto. intro Hz. assert (Cy : conn h r y) by (apply conn_no_conn with jn; now apply clos_rtn1_rt).
    specialize (IH Cy). assert (Vy : In y V) by (apply Tv, Tc; auto).
    assert (Ayz : adj h y z) by (exists e1; auto). destruct (graph_sym s G y z Vy Ayz) as (Vz & Azy).
    destruct (unf_closed_root h t1 (Some a) A4 z y Hz Azy) as [|(Q2 & Q3)]; auto. injection Q3 as <-.
    apply B3. rewrite <- Q. f_equal. apply (NoDup_map_eq aNext (arcs_at h a)); auto; [apply (cf_single _ _ CF); auto|congruence].
Qed.
Lemma joint_behind_tree jn a e t1 n : tedge t a e t1 -> ajn e = jn -> (joint_behind h r jn n <-> In n (jn :: gjoints t1)).
Proof.
  intros E Q. destruct (tedge_unf _ _ _ Tu _ _ _ E) as (A1 & A2 & A3 & A4 & A5 & _). unfold joint_behind. split.
  - intros (x & e1 & B & H1 & <-). apply (behind_tree jn a e t1 x E Q) in B.
    destruct (tree_edge_in h s t1 eq_refl G CF (Some a) A4 (fun x Hx => Tv x (A5 x Hx)) x e1 B H1) as [X|(-> & X)]; [now right|]. left.
    rewrite <- A3 in H1. assert (S := skip_child s G CF a e (Tv a A1) A2 e1 H1). rewrite X in S. symmetry in S. apply String.eqb_eq in S. congruence.
  - intros [<-|Hn].
    + destruct (gk_pair _ G a e (Tv a A1) A2) as (e' & B1 & B2 & B3). exists (groot t1), e'. rewrite <- A3. split; [apply (behind_tree jn a e t1 _ E Q); rewrite A3; apply groot_in|]. split; auto.
      rewrite <- Q. unfold ajn. rewrite B3. reflexivity.
    + apply gjoints_edge in Hn as (x & e1 & t2 & E1 & E2). destruct (tedge_unf _ _ _ A4 _ _ _ E1) as (B1 & B2 & _). exists x, e1. split; auto. apply (behind_tree jn a e t1 _ E Q). auto.
Qed.
Lemma names_cut D J a jn s' : cutt D J a jn s s' -> names_ok_g s'.
Proof. intros []. apply (names_sub D J s s'); auto; [apply (gk_names _ G)|]. intro b. now rewrite ct_bodyat. Qed.
(** The elementary description of the result is the one of the specification. *)
Lemma cutt_cut jn a e t1 s' : tedge t a e t1 -> ajn e = jn -> cutt (gnodes t1) (jn :: gjoints t1) a jn s s' -> cut r jn s s' /\ bodies_same s s'.
Proof.
  intros E Q C. destruct (tedge_unf _ _ _ Tu _ _ _ E) as (A1 & A2 & A3 & A4 & A5 & _). destruct (tedge_nodup _ Tn _ _ _ E) as (N1 & Na).
  assert (BT := behind_tree jn a e t1). assert (K : forall x, negb (inb (gnodes t1) x) = true <-> ~ behind h r jn x).
  { intro x. rewrite negb_true_iff, inb_false. rewrite (BT x E Q). reflexivity. }
  split; [|intros x _; apply (ct_bodyat _ _ _ _ _ _ C)]. constructor.
  - apply (ct_root _ _ _ _ _ _ C).
  - exists (fun x => negb (inb (gnodes t1) x)). split; [intros x _; apply K|]. split; [apply (ct_nodes _ _ _ _ _ _ C)|].
    intros x Hx. rewrite (ct_nodes _ _ _ _ _ _ C) in Hx. apply filter_In in Hx as (Vx & Kx). rewrite (ct_arcs _ _ _ _ _ _ C). apply negb_true_iff in Kx. rewrite Kx. apply inb_false in Kx.
    destruct (Nat.eqb_spec x a) as [Exa|Nxa].
    + subst x. apply filter_ext_in. intros e1 H1. f_equal. destruct (String.eqb_spec (ajn e1) jn) as [Q1|Q1].
      * assert (e1 = e) by (apply (NoDup_map_eq ajn (arcs_at h a)); auto; [apply (gk_once _ G); auto|congruence]). subst e1. symmetry. apply inb_iff. rewrite A3. apply groot_in.
      * symmetry. apply inb_false. intro H2. apply (BT _ E Q) in H2. apply H2. apply rt_trans with a; [|apply rt_step; exists e1; auto].
        assert (Nb : ~ behind h r jn a) by (intro X; apply (BT _ E Q) in X; auto). destruct (in_dec Nat.eq_dec a (gnodes t1)); [contradiction|].
        rewrite <- Tr. apply (tree_conn_no h jn t None Tu a A1). intros a' e' t1' E' Q'. destruct (edge_unique t (gjoints_nodup s G t None Tu Tn Tv) a' e' t1' a e t1 E' E) as (_ & _ & ->); [congruence|auto].
    + symmetry. apply filter_true. intros e1 H1. apply negb_true_iff, inb_false. intro H2.
      destruct (graph_sym s G x (aNext e1) Vx (ex_intro _ e1 (conj H1 eq_refl))) as (V1 & Ad). destruct (unf_closed_root h t1 (Some a) A4 (aNext e1) x H2 Ad) as [|(_ & Z)]; auto. congruence.
  - exists (fun p => negb (insb (jn :: gjoints t1) (jname (joint_at h p)))). split; [|apply (ct_joints _ _ _ _ _ _ C)]. intros p _. rewrite negb_true_iff, insb_false.
    rewrite (joint_behind_tree jn a e t1 _ E Q). reflexivity.
  - intros p _. unfold joint_at. now rewrite (ct_jnts _ _ _ _ _ _ C).
Qed.
Lemma cut_refl jn : ~ In jn (gjoints t) -> cut r jn s s /\ bodies_same s s.
Proof.
  intro H. split; [|intros x _; reflexivity]. constructor; auto.
  - exists (fun _ => true). split; [intros x _; split; auto; intros _; now apply behind_none|]. split; [now rewrite filter_true|]. intros x _. now rewrite filter_true.
  - exists (fun _ => true). split; [intros x _; split; auto; intros _ (b & e & B & _); eapply behind_none; eauto|]. now rewrite filter_true.
Qed.
End Cut.
(** What is left is consistent and has no cycle. *)
Lemma gok_cut s s' r jn : gok s -> In r (gNodes (snd s)) -> names_ok_g s' -> cut r jn s s' -> gok s'.
Proof.
  intros (G & CF) Hr N [C1 (keep & C2 & C3 & C4) (keepj & C5 & C6) C7].
  assert (IN : forall a, In a (gNodes (snd s')) <-> In a (gNodes (snd s)) /\ keep a = true) by (intro a; rewrite C3; apply filter_In).
  assert (AR : forall a e, In a (gNodes (snd s')) -> (In e (arcs_at (fst s') a) <-> In e (arcs_at (fst s) a) /\ keep (aNext e) = true)) by (intros a e Ha; rewrite C4 by auto; apply filter_In).
  assert (JN : forall n, In n (joint_names s') <-> In n (joint_names s) /\ ~ joint_behind (fst s) r jn n).
  { intro n. unfold joint_names. rewrite !in_map_iff. split.
    - intros (p & <- & H). assert (H' := H). rewrite C6 in H. apply filter_In in H as (H1 & H2). rewrite C7 by auto. apply C5 in H2; auto. split; auto. eauto.
    - intros ((p & <- & H1) & H2). assert (In p (gJoints (snd s'))) by (rewrite C6; apply filter_In; split; auto; apply C5; auto). exists p. rewrite C7 by auto. auto. }
  assert (AJ : forall a b, In a (gNodes (snd s')) -> adj (fst s') a b -> adj (fst s) a b). { intros a b Ha (e & He & <-). apply AR in He; auto. exists e. tauto. }
  split; constructor; auto.
  - intros a e Ha He. apply AR in He as (H1 & H2); auto. apply IN. apply IN in Ha as (Ha & _). split; auto. eapply gk_next; eauto.
  - intros a e Ha He. apply AR in He as (H1 & H2); auto. apply IN in Ha as (Ha & Ka). apply JN. split; [eapply gk_joint; eauto|].
    intros (x & e1 & B & X1 & X2). apply C2 in Ka; auto. assert (Kn := H2). apply C2 in Kn; [|eapply gk_next; eauto].
    assert (Vx : In x (gNodes (snd s))) by (exact (proj2 (conn_sym' s r x G Hr (proj1 B)))).
    destruct (Nat.eq_dec a x) as [<-|Nx]; [auto|]. destruct (gk_link _ G a x e e1) as (Y & _); auto. rewrite Y in Kn. auto.
  - intros a e Ha He. apply AR in He as (H1 & H2); auto. assert (Ha' := Ha). apply IN in Ha' as (Va & Ka). destruct (gk_pair _ G a e Va H1) as (e' & P1 & P2 & P3).
    exists e'. split; auto. apply AR; [apply IN; split; auto; eapply gk_next; eauto|]. split; auto. now rewrite P2.
  - intros a Ha. rewrite C4 by auto. apply IN in Ha as (Ha & _). assert (X := gk_once _ G a Ha). clear -X. induction (arcs_at (fst s) a) as [|e l IHl]; [constructor|].
    cbn in *. apply NoDup_cons_iff in X as (X1 & X2). destruct (keep (aNext e)); cbn; auto. constructor; auto. intro H. apply X1.
    apply in_map_iff in H as (e' & H1 & H2). apply filter_In in H2 as (H2 & _). apply in_map_iff. eauto.
  - intros a b e e' Ha Hb Nab He He' Q. apply AR in He as (H1 & _); auto. apply AR in He' as (H2 & _); auto. apply IN in Ha as (Ha & _). apply IN in Hb as (Hb & _).
    apply (gk_link _ G a b); auto.
  - intros a Ha A. apply (cf_self _ _ CF a); [apply IN in Ha; tauto|apply AJ; auto].
  - intros a Ha. rewrite C4 by auto. apply IN in Ha as (Ha & _). assert (X := cf_single _ _ CF a Ha). clear -X. induction (arcs_at (fst s) a) as [|e l IHl]; [constructor|].
    cbn in *. apply NoDup_cons_iff in X as (X1 & X2). destruct (keep (aNext e)); cbn; auto. constructor; auto. intro H. apply X1.
    apply in_map_iff in H as (e' & H1 & H2). apply filter_In in H2 as (H2 & _). apply in_map_iff. eauto.
  - intros c Hc Cy. apply (cf_cycle _ _ CF c); [intros a Ha; apply IN; auto|]. eapply cycle_ext; [|exact Cy]. intros a b Ha Hb. apply AJ. auto.
Qed.
Lemma cut_not_behind_root (s : GSt) r jn : ~ behind (fst s) r jn r.
Proof. intros (_ & H). apply H. apply rt_refl. Qed.

(** removeJoint. *)
Lemma skip_root s r : root_name_free s r -> skip_ok s None (gRoot (snd s)) r.
Proof. intros H e He. cbn [is_from]. symmetry. apply String.eqb_neq. now apply H. Qed.
(** Cells that are not of this graph are left alone. *)
Definition others_same (s s' : GSt) : Prop :=
  hJoints (fst s') = hJoints (fst s) /\ length (hNodes (fst s')) = length (hNodes (fst s)) /\
  forall a, ~ In a (gNodes (snd s)) -> arcs_at (fst s') a = arcs_at (fst s) a /\ body_at (fst s') a = body_at (fst s) a.
Lemma rmArc_cuts s r jn F fuel : gok s -> In r (gNodes (snd s)) -> root_name_free s r -> length (gNodes (snd s)) <= fuel -> length (gNodes (snd s)) <= F ->
  exists b s', rmArc F fuel r (gRoot (snd s)) jn s = GRet b s' /\ cut r jn s s' /\ bodies_same s s' /\ gok s' /\ others_same s s' /\
    (b = false -> s' = s).
Proof.
  intros (G & CF) Hr RN Hf HF. destruct (graph_unfolding s r G CF Hr) as (t & Tr & Tu & Th & Tn & Tc & Tv).
  rewrite rmArc_expl. rewrite <- Tr. destruct (gexpl_runs s G CF (rm_hit F) jn t None (gRoot (snd s)) fuel Tu) as [(M & E)|(a & e & t1 & l1 & l2 & Te & Ej & Ea & E)]; auto.
  - rewrite Tr. now apply skip_root.
  - lia.
  - rewrite E. exists false, s. split; auto. rewrite Tr. destruct (cut_refl s r t Tr Tu Tc jn M). do 2 (split; auto). split; [now split|]. split; [do 2 (split; auto)|auto].
  - rewrite E. unfold gbind. destruct (rm_hit_cuts s G CF F t a e t1 l1 l2 Tu) as (s' & E' & C); auto; [lia|]. rewrite E'. exists true, s'. split; [reflexivity|].
    rewrite Tr. rewrite Ej in C. destruct (cutt_cut s (conj G CF) r t Tr Tu Tn Tc Tv jn a e t1 s' Te Ej C) as (C1 & C2). split; auto. split; auto.
    split; [apply (gok_cut s s' r jn); auto; [now split|eapply names_cut; eauto; now split]|]. split; [|discriminate].
    destruct (tedge_unf _ _ _ Tu _ _ _ Te) as (A1 & _ & _ & _ & A5 & _).
    split; [apply (ct_jnts _ _ _ _ _ _ C)|]. split; [apply (ct_len _ _ _ _ _ _ C)|]. intros x Hx. split; [|apply (ct_bodyat _ _ _ _ _ _ C)].
    rewrite (ct_arcs _ _ _ _ _ _ C). rewrite (proj2 (inb_false _ _)); [|intro Z; apply Hx; auto]. destruct (Nat.eqb_spec x a) as [Q|]; auto. exfalso. apply Hx. rewrite Q. auto.
Qed.
Theorem removeJoint_cuts s root r jn fuel : gok s -> mfind (gBody (snd s)) root = Some r -> root_name_free s r -> length (gNodes (snd s)) <= fuel ->
  exists s', removeJoint fuel root jn s = GRet tt s' /\ cut r jn s s' /\ bodies_same s s' /\ gok s' /\ others_same s s' /\ (~ In jn (joint_names s) -> s' = s).
Proof.
  intros GK Fr RN Hf. assert (Hr : In r (gNodes (snd s))) by (apply (ng_body _ (gk_names _ (proj1 GK))) in Fr; tauto).
  unfold removeJoint, gbind at 1, glift, mat_. rewrite Fr. unfold gbind at 1. destruct (mfind (gJoint (snd s)) jn) as [p|] eqn:Fj.
  - destruct (rmArc_cuts s r jn fuel fuel GK Hr RN Hf Hf) as (b & s' & E & C & B & K & O & _). unfold gbind. rewrite E. exists s'. split; auto. do 4 (split; auto).
    intro N. exfalso. apply N. apply (ng_joint _ (gk_names _ (proj1 GK))) in Fj as (H1 & <-). apply (in_map (fun p => jname (joint_at (fst s) p))). auto.
  - exists s. split; auto. destruct GK as (G & CF). destruct (graph_unfolding s r G CF Hr) as (t & Tr & Tu & Th & Tn & Tc & Tv).
    destruct (cut_refl s r t Tr Tu Tc jn) as (C & B).
    { intro H. apply (gjoints_names s G t None Tu Tv) in H. apply in_map_iff in H as (p & H1 & H2).
      assert (X : mfind (gJoint (snd s)) jn = Some p) by (apply (ng_joint _ (gk_names _ G)); auto). congruence. }
    split; auto. split; auto. split; [now split|]. split; auto. split; auto.
Qed.
Lemma cut_keeps_root s s' r jn : cut r jn s s' -> In r (gNodes (snd s)) -> In r (gNodes (snd s')).
Proof. intros [_ (keep & C2 & C3 & _) _ _] H. rewrite C3. apply filter_In. split; auto. apply C2; auto. apply cut_not_behind_root. Qed.
Lemma cut_free s s' r jn : cut r jn s s' -> In r (gNodes (snd s)) -> root_name_free s r -> root_name_free s' r.
Proof.
  intros C H R e He. assert (Hr := cut_keeps_root _ _ _ _ C H). destruct C as [C1 (keep & C2 & C3 & C4) _ _]. rewrite C4 in He by auto. apply filter_In in He as (He & _). rewrite C1. auto.
Qed.
Lemma cut_len s s' r jn : cut r jn s s' -> length (gNodes (snd s')) <= length (gNodes (snd s)).
Proof. intros [_ (keep & _ & C3 & _) _ _]. rewrite C3. clear. induction (gNodes (snd s)) as [|a l IH]; cbn; auto. destruct (keep a); cbn; lia. Qed.
Lemma others_same_trans s s1 s2 : others_same s s1 -> others_same s1 s2 -> (forall a, In a (gNodes (snd s1)) -> In a (gNodes (snd s))) -> others_same s s2.
Proof.
  intros (A1 & A2 & A3) (B1 & B2 & B3) Sub. split; [congruence|]. split; [congruence|]. intros a Ha. destruct (A3 a Ha). destruct (B3 a); [auto|]. split; congruence.
Qed.
Lemma cut_sub s s' r jn : cut r jn s s' -> forall a, In a (gNodes (snd s')) -> In a (gNodes (snd s)).
Proof. intros [_ (keep & _ & C3 & _) _ _] a. rewrite C3. intro H. apply filter_In in H. tauto. Qed.
Theorem removeJoints_cuts root r fuel js : forall s, gok s -> mfind (gBody (snd s)) root = Some r -> root_name_free s r -> length (gNodes (snd s)) <= fuel ->
  exists s', removeJoints fuel root js s = GRet tt s' /\ cuts r js s s' /\ gok s' /\ others_same s s' /\ (forall a, In a (gNodes (snd s')) -> In a (gNodes (snd s))).
Proof.
  intros s GK Fr RN Hf. unfold removeJoints, gbind at 1, glift, mat_. rewrite Fr. revert s GK Fr RN Hf. induction js as [|jn js IH]; intros s GK Fr RN Hf.
  - exists s. split; [reflexivity|]. split; [constructor|]. split; auto. split; [repeat split; auto|auto].
  - cbn [gfor]. unfold gbind at 1. unfold gbind at 1. assert (Hr : In r (gNodes (snd s)) /\ bname (body_at (fst s) r) = root) by (now apply (ng_body _ (gk_names _ (proj1 GK)))).
    destruct (removeJoint_cuts s root r jn fuel GK Fr RN Hf) as (s1 & E & C & B & K & O & U).
    assert (X : match mfind (gJoint (snd s)) jn with Some _ => removeJoint fuel root jn | None => gret tt end s = GRet tt s1).
    { destruct (mfind (gJoint (snd s)) jn) as [p|] eqn:Fj; auto. rewrite U; [reflexivity|]. intro H. apply in_map_iff in H as (p & H1 & H2).
      assert (X : mfind (gJoint (snd s)) jn = Some p) by (apply (ng_joint _ (gk_names _ (proj1 GK))); auto). congruence. }
    rewrite X. assert (Hr1 := cut_keeps_root _ _ _ _ C (proj1 Hr)).
    destruct (IH s1) as (s2 & E2 & C2 & K2 & O2 & S2); auto.
    + apply (ng_body _ (gk_names _ (proj1 K))). split; auto. rewrite B by auto. tauto.
    + apply (cut_free s s1 r jn); tauto.
    + pose proof (cut_len _ _ _ _ C). lia.
    + exists s2. split; [exact E2|]. split; [econstructor; eauto|]. split; auto. split; [eapply others_same_trans; eauto; eapply cut_sub; eauto|]. intros a Ha. eapply cut_sub; eauto.
Qed.
(** A reachable joint is really taken away. *)
Lemma cut_removes s s' r jn : gok s -> gok s' -> cut r jn s s' -> joint_behind (fst s) r jn jn -> ~ In jn (joint_names s').
Proof.
  intros GK GK' [_ _ (keep & C5 & C6) C7] J H. unfold joint_names in H. apply in_map_iff in H as (p & H1 & H2). rewrite C7 in H1 by auto. rewrite C6 in H2. apply filter_In in H2 as (H2 & H3).
  apply C5 in H3; auto. apply H3. now rewrite H1.
Qed.
Lemma reachable_behind s r jn a e : gok s -> In r (gNodes (snd s)) -> conn (fst s) r a -> In e (arcs_at (fst s) a) -> ajn e = jn -> joint_behind (fst s) r jn jn.
Proof.
  intros (G & CF) Hr C He Ej. destruct (graph_unfolding s r G CF Hr) as (t & Tr & Tu & Th & Tn & Tc & Tv).
  destruct (tree_edge_in (fst s) s t eq_refl G CF None Tu Tv a e) as [X|(_ & X)]; [apply Tc; auto|auto| |discriminate].
  apply gjoints_edge in X as (a1 & e1 & t1 & E & Q). rewrite Ej in Q. apply (joint_behind_tree s (conj G CF) r t Tr Tu Tn Tc Tv jn a1 e1 t1 jn E Q). now left.
Qed.
