(** Non-termination on cycles, the joint maps, mass, well-formedness of the multibody. *)
From Coq Require Import Reals String ZArith Bool Arith List Lia Lra Relations Permutation.
From Verif Require Import Res ResP SMap Vec Mat Sva SvaP JointM MultiBodyM GraphM Spec SpecCoM SpecGraph GraphP GraphWalkP GraphTreeP MbP CoMCtorP TreeP.
Import ListNotations.
Open Scope R_scope.
Local Open Scope nat_scope.

(** ** Endless walks. *)
Definition live (h : Heap) (a : nat) (f : nat -> nat) : Prop :=
  f 0 = a /\ (forall k, adj h (f k) (f (S k))) /\ forall k, f (S (S k)) <> f k.
Lemma live_step h a x f : adj h a x -> live h x f -> exists g, live h a g.
Proof.
  intros A (F0 & F1 & F2). destruct (Nat.eq_dec (f 1) a) as [E|N].
  - exists (fun k => f (S k)). split; [exact E|]. split; intro k; [apply F1|apply F2].
  - exists (fun k => match k with 0 => a | S k => f k end). split; [reflexivity|]. split.
    + intros [|k]; [rewrite F0; exact A|apply F1].
    + intros [|k]; [exact N|apply F2].
Qed.
Lemma live_conn h a x : conn h a x -> (exists f, live h x f) -> exists f, live h a f.
Proof.
  intros C L. apply clos_rt_rt1n in C. induction C as [|a y x A C IH]; auto. destruct (IH L) as (f & Hf). eapply live_step; eauto.
Qed.
Lemma gwalk_nth R c : gwalk R c -> forall k, S k < length c -> R (nth k c 0) (nth (S k) c 0).
Proof.
  induction c as [|a c IH]; intros W k L; [cbn in L; lia|]. destruct c as [|b c]; [cbn in L; lia|]. destruct W as (W1 & W2).
  destruct k as [|k]; [exact W1|]. apply (IH W2). cbn in *. lia.
Qed.
Lemma last_nth {A} (l : list A) d : last l d = nth (length l - 1) l d.
Proof.
  induction l as [|a l IH]; [reflexivity|]. destruct l as [|b l]; [reflexivity|]. change (last (a :: b :: l) d) with (last (b :: l) d). rewrite IH.
  cbn [length Nat.sub nth]. rewrite Nat.sub_0_r. reflexivity.
Qed.
Lemma cycle_live h c : cycle (adj h) c -> live h (hd 0 c) (fun k => nth (k mod length c) c 0).
Proof.
  intros (L & N & W & C). set (m := length c) in *. assert (M0 : m <> 0) by lia.
  split; [rewrite Nat.mod_0_l by auto; destruct c; reflexivity|].
  assert (SM : forall k, (S (k mod m) < m /\ S k mod m = S (k mod m)) \/ (k mod m = m - 1 /\ S k mod m = 0)).
  { intro k. pose proof (Nat.mod_upper_bound k m M0). pose proof (Nat.div_mod k m M0) as DM. destruct (Nat.lt_ge_cases (S (k mod m)) m) as [Q|Q].
    - left. split; auto. replace (S k) with (S (k mod m) + (k / m) * m) by nia.
      rewrite Nat.mod_add by auto. now apply Nat.mod_small.
    - right. split; [lia|]. replace (S k) with ((S (k / m)) * m) by nia. now apply Nat.mod_mul. }
  split.
  - intro k. destruct (SM k) as [(Q1 & Q2)|(Q1 & Q2)]; rewrite Q2.
    + now apply gwalk_nth.
    + rewrite Q1. rewrite last_nth in C. fold m in C. destruct c; [cbn in m; lia|]. exact C.
  - intro k. pose proof (Nat.mod_upper_bound k m M0) as B0. pose proof (Nat.mod_upper_bound (S (S k)) m M0) as B2.
    intro E. apply (proj1 (NoDup_nth c 0) N) in E; auto.
    destruct (SM k) as [(Q1 & Q2)|(Q1 & Q2)], (SM (S k)) as [(Q3 & Q4)|(Q3 & Q4)]; lia.
Qed.

Section Div.
Variable s : GSt.
Hypothesis G : graph_ok s.
Let h := fst s.
Lemma node_get a : In a (gNodes (snd s)) -> exists nd, get (hNodes h) a = Ok nd /\ nArcs nd = arcs_at h a /\ nBody nd = body_at h a.
Proof.
  intro Ha. pose proof (ng_node _ (gk_names _ G) a Ha) as L. destruct (nth_error (hNodes h) a) as [nd|] eqn:E; [|apply nth_error_None in E; unfold h in E; lia].
  exists nd. split; [now apply get_Ok|]. destruct (node_at _ _ _ E) as (E1 & E2 & _). auto.
Qed.
Lemma for_each_od {A S} (f : A -> S -> res S) l : (forall a, In a l -> forall s, (exists s', f a s = Ok s') \/ f a s = Diverge) ->
  forall s, (exists s', for_each l f s = Ok s') \/ for_each l f s = Diverge.
Proof.
  induction l as [|a l IH]; intros H s1; cbn [for_each]; [eauto|]. destruct (H a (or_introl eq_refl) s1) as [(s' & ->)| ->]; cbn [bind]; auto.
  apply IH. intros. apply H. now right.
Qed.
Lemma for_each_dv {A S} (f : A -> S -> res S) l x : (forall a, In a l -> forall s, (exists s', f a s = Ok s') \/ f a s = Diverge) ->
  In x l -> (forall s, f x s = Diverge) -> forall s, for_each l f s = Diverge.
Proof.
  induction l as [|a l IH]; intros H Hx D s1; [destruct Hx|]. cbn [for_each]. destruct Hx as [->|Hx]; [now rewrite D|].
  destruct (H a (or_introl eq_refl) s1) as [(s' & ->)| ->]; cbn [bind]; auto. apply IH; auto. intros. apply H. now right.
Qed.
Lemma makeTree_od fuel : forall a from joint p sc par Xti Xb acc, In a (gNodes (snd s)) ->
  (exists acc', makeTree fuel h a from joint p sc par Xti Xb acc = Ok acc') \/ makeTree fuel h a from joint p sc par Xti Xb acc = Diverge.
Proof.
  induction fuel as [|f IH]; intros; [now right|]. cbn [makeTree]. destruct (node_get a H) as (nd & E & EA & _). rewrite E. cbn [bind]. rewrite EA.
  apply for_each_od. intros e He acc'. destruct (is_from from e); [eauto|]. apply IH. eapply gk_next; eauto.
Qed.
Lemma makeTree_live fuel : forall a from joint p sc par Xti Xb acc w, In a (gNodes (snd s)) -> live h a w -> (forall b, from = Some b -> w 1 <> b) ->
  makeTree fuel h a from joint p sc par Xti Xb acc = Diverge.
Proof.
  induction fuel as [|f IH]; intros a from joint p sc par Xti Xb acc w Ha (W0 & W1 & W2) Wf; [reflexivity|].
  cbn [makeTree]. destruct (node_get a Ha) as (nd & E & EA & _). rewrite E. cbn [bind]. rewrite EA.
  destruct (W1 0) as (e & He & Ee). rewrite W0 in He. apply (for_each_dv _ _ e).
  - intros e' He' acc'. destruct (is_from from e'); [eauto|]. apply makeTree_od. eapply gk_next; eauto.
  - exact He.
  - intros acc'. assert (NF : is_from from e = false).
    { destruct from as [b|]; [|reflexivity]. cbn [is_from]. apply Nat.eqb_neq. rewrite Ee. now apply Wf. }
    rewrite NF. apply IH with (w := fun k => w (S k)).
    + eapply gk_next; eauto.
    + split; [auto|]. split; intro k; [apply W1|apply W2].
    + intros b Hb. injection Hb as <-. rewrite <- W0. apply W2.
Qed.
Lemma makeMultiBody_cycle fuel root r t axis X0 Xb c : mfind (gBody (snd s)) root = Some r -> cycle (adj h) c -> conn h r (hd 0 c) ->
  makeMultiBody fuel root t axis X0 Xb s = Diverge.
Proof.
  intros Hr C K. destruct (live_conn h r _ K) as (w & Hw); [eexists; now apply cycle_live|].
  assert (E := fun joint => makeTree_live fuel r None joint (-1)%Z 0%Z (-1)%Z X0 Xb acc0 w (proj1 (proj1 (ng_body _ (gk_names _ G) _ _) Hr)) Hw ltac:(discriminate)).
  unfold makeMultiBody. revert E Hr. unfold h. destruct s as (h' & g). cbn [fst snd]. intros E Hr. unfold mat_. rewrite Hr. cbn [bind]. now rewrite E.
Qed.
End Div.

(** ** The maps. *)
Definition msets {A} (h : Heap) (v : ent -> A) (L : list ent) (m : smap A) : smap A :=
  fold_left (fun m en => mset m (bname (body_at h (n_a en))) (v en)) L m.
Lemma msets_app {A} h (v : ent -> A) L M m : msets h v (L ++ M) m = msets h v M (msets h v L m).
Proof. apply fold_left_app. Qed.
Lemma msets_find {A} h (v : ent -> A) L m : NoDup (map (fun en => bname (body_at h (n_a en))) L) ->
  (forall n, ~ In n (map (fun en => bname (body_at h (n_a en))) L) -> mfind (msets h v L m) n = mfind m n) /\
  (forall en, In en L -> mfind (msets h v L m) (bname (body_at h (n_a en))) = Some (v en)).
Proof.
  induction L as [|en L IH] using rev_ind; intro ND; [split; [auto|intros ? []]|].
  rewrite map_app in ND. cbn [map] in ND. pose proof (NoDup_app_left _ _ ND) as ND1. destruct (IH ND1) as (I1 & I2).
  assert (NI : ~ In (bname (body_at h (n_a en))) (map (fun en => bname (body_at h (n_a en))) L)).
  { intro H. apply (NoDup_app_disj _ _ ND _ H). now left. }
  rewrite msets_app. unfold msets at 1 3. cbn [fold_left]. split.
  - intros n Hn. rewrite map_app, in_app_iff in Hn. rewrite mfind_mset_neq.
    + apply I1. tauto.
    + intros ->. apply Hn. right. now left.
  - intros en1 H1. apply in_app_iff in H1 as [H1|[<-|[]]].
    + rewrite mfind_mset_neq; auto. intro E. apply NI. rewrite <- E. now apply (in_map (fun en => bname (body_at h (n_a en)))).
    + apply mfind_mset_eq.
Qed.
Lemma transform_pre h t : forall fuel from par joint X Xb n m, unf h from t -> gheight t <= fuel ->
  computeTransform fuel h (groot t) from Xb m = Ok (msets h (fun en => ptinv (n_base en)) (pre h from par joint X Xb n t) m).
Proof.
  induction t as [a ks IH] using gtree_rect'. intros fuel from par joint X Xb n m U HF. destruct fuel as [|f]; [cbn in HF; lia|].
  cbn [computeTransform]. destruct (unf_get h from _ U) as (nd & E & EA & EB). cbn [groot] in *. rewrite E. cbn [bind]. rewrite EA, EB.
  apply unf_iff in U as (La & K & U). cbv zeta. cbn [pre]. set (XF := x_from (arcs_at h a) from Xb).
  rewrite for_each_filter. change (filter _ (arcs_at h a)) with (out_arcs h from a). rewrite <- K. unfold msets. cbn [fold_left n_a n_base].
  assert (HK : forall e t, In (e, t) ks -> gheight t <= f) by (intros e t H; pose proof (gheight_kid e t ks a H); lia).
  clear K HF. generalize (mset m (bname (body_at h a)) (ptinv XF)) as m1. generalize (S n) as k.
  induction ks as [|(e, t) ks IHk]; intros k m1; cbn [map fst for_each kpre]; [reflexivity|].
  destruct (U e t (or_introl eq_refl)) as (R & Ut). rewrite <- R.
  rewrite (IH e t (or_introl eq_refl) f (Some a) (Z.of_nat n) (aJoint e) (ptmul (aX e) (ptinv XF)) ptid k m1 Ut (HK e t (or_introl eq_refl))). cbn [bind snd].
  rewrite fold_left_app. apply (IHk (fun e t H => IH e t (or_intror H)) (fun e t H => U e t (or_intror H)) (fun e t H => HK e t (or_intror H))).
Qed.
Lemma predecessor_pre h t : forall fuel from par joint X Xb n m, unf h from t -> gheight t <= fuel ->
  computePredecessor fuel h (groot t) from (jname joint) m = Ok (msets h (fun en => jname (n_joint en)) (pre h from par joint X Xb n t) m).
Proof.
  induction t as [a ks IH] using gtree_rect'. intros fuel from par joint X Xb n m U HF. destruct fuel as [|f]; [cbn in HF; lia|].
  cbn [computePredecessor]. destruct (unf_get h from _ U) as (nd & E & EA & EB). cbn [groot] in *. rewrite E. cbn [bind]. rewrite EA, EB.
  apply unf_iff in U as (La & K & U). cbn [pre]. set (XF := x_from (arcs_at h a) from Xb).
  rewrite for_each_filter. change (filter _ (arcs_at h a)) with (out_arcs h from a). rewrite <- K. unfold msets. cbn [fold_left n_a n_joint].
  assert (HK : forall e t, In (e, t) ks -> gheight t <= f) by (intros e t H; pose proof (gheight_kid e t ks a H); lia).
  clear K HF. generalize (mset m (bname (body_at h a)) (jname joint)) as m1. generalize (S n) as k.
  induction ks as [|(e, t) ks IHk]; intros k m1; cbn [map fst for_each kpre]; [reflexivity|].
  destruct (U e t (or_introl eq_refl)) as (R & Ut). rewrite <- R. unfold ajn at 1.
  rewrite (IH e t (or_introl eq_refl) f (Some a) (Z.of_nat n) (aJoint e) (ptmul (aX e) (ptinv XF)) ptid k m1 Ut (HK e t (or_introl eq_refl))). cbn [bind snd].
  rewrite fold_left_app. apply (IHk (fun e t H => IH e t (or_intror H)) (fun e t H => U e t (or_intror H)) (fun e t H => HK e t (or_intror H))).
Qed.
Definition names_of (h : Heap) (l : list nat) : list string := map (fun a => bname (body_at h a)) l.
Lemma mpush_find m k x n : mfind (mpush m k x) n = if String.eqb n k then Some (match mfind m k with Some l => l ++ [x] | None => [x] end) else mfind m n.
Proof.
  unfold mpush. destruct (String.eqb_spec n k) as [->|N]; [apply mfind_mset_eq|now apply mfind_mset_neq].
Qed.
Lemma successors_pre h t : forall fuel from par joint X Xb n m, unf h from t -> gheight t <= fuel -> NoDup (names_of h (gnodes t)) ->
  exists m', computeSuccessors fuel h (groot t) from m = Ok m' /\
   (forall k, ~ In k (names_of h (gnodes t)) -> mfind m' k = mfind m k) /\
   (forall en, In en (pre h from par joint X Xb n t) -> mfind m' (bname (body_at h (n_a en))) = Some (map ajn (out_arcs h (n_from en) (n_a en)))).
Proof.
  induction t as [a ks IH] using gtree_rect'. intros fuel from par joint X Xb n m U HF ND. destruct fuel as [|f]; [cbn in HF; lia|].
  cbn [computeSuccessors]. destruct (unf_get h from _ U) as (nd & E & EA & EB). cbn [groot] in *. rewrite E. cbn [bind]. rewrite EA, EB.
  apply unf_iff in U as (La & K & U). cbn [pre]. set (XF := x_from (arcs_at h a) from Xb).
  rewrite for_each_filter. change (filter _ (arcs_at h a)) with (out_arcs h from a). rewrite <- K.
  assert (HK : forall e t, In (e, t) ks -> gheight t <= f) by (intros e t H; pose proof (gheight_kid e t ks a H); lia).
  unfold names_of in ND. cbn [gnodes map] in ND. apply NoDup_cons_iff in ND as (NA & ND). set (na := bname (body_at h a)) in *.
  assert (G : forall ks m k l0, incl ks ks -> (forall e t, In (e, t) ks -> forall fuel from par joint X Xb n m, unf h from t -> gheight t <= fuel -> NoDup (names_of h (gnodes t)) ->
      exists m', computeSuccessors fuel h (groot t) from m = Ok m' /\
      (forall k, ~ In k (names_of h (gnodes t)) -> mfind m' k = mfind m k) /\
      (forall en, In en (pre h from par joint X Xb n t) -> mfind m' (bname (body_at h (n_a en))) = Some (map ajn (out_arcs h (n_from en) (n_a en))))) ->
    (forall e t, In (e, t) ks -> groot t = aNext e /\ unf h (Some a) t) -> (forall e t, In (e, t) ks -> gheight t <= f) ->
    NoDup (map (fun a => bname (body_at h a)) (flat_map (fun k => gnodes (snd k)) ks)) ->
    ~ In na (map (fun a => bname (body_at h a)) (flat_map (fun k => gnodes (snd k)) ks)) ->
    mfind m na = Some l0 ->
    exists m', for_each (map fst ks) (fun e m => computeSuccessors f h (aNext e) (Some a) (mpush m na (ajn e))) m = Ok m' /\
     mfind m' na = Some (l0 ++ map ajn (map fst ks)) /\
     (forall k, k <> na -> ~ In k (map (fun a => bname (body_at h a)) (flat_map (fun k => gnodes (snd k)) ks)) -> mfind m' k = mfind m k) /\
     (forall en, In en (kpre (fun n' k => pre h (Some a) (Z.of_nat n) (aJoint (fst k)) (ptmul (aX (fst k)) (ptinv XF)) ptid n' (snd k)) k ks) ->
        mfind m' (bname (body_at h (n_a en))) = Some (map ajn (out_arcs h (n_from en) (n_a en))))).
  { clear. induction ks as [|(e, t) ks IHk]; intros m k l0 _ IH U HK ND NA M; cbn [map fst for_each kpre].
    - exists m. rewrite app_nil_r. split; [auto|]. split; [auto|]. split; [auto|]. intros en [].
    - destruct (U e t (or_introl eq_refl)) as (R & Ut). rewrite <- R.
      cbn [flat_map snd] in ND, NA. rewrite map_app in ND, NA. rewrite in_app_iff in NA.
      destruct (IH e t (or_introl eq_refl) f (Some a) (Z.of_nat n) (aJoint e) (ptmul (aX e) (ptinv XF)) ptid k (mpush m na (ajn e)) Ut (HK e t (or_introl eq_refl)) (NoDup_app_left _ _ ND)) as (m1 & E1 & F1 & V1).
      rewrite E1. cbn [bind].
      destruct (IHk m1 (k + length (pre h (Some a) (Z.of_nat n) (aJoint e) (ptmul (aX e) (ptinv XF)) ptid k t)) (l0 ++ [ajn e]) (incl_refl _) (fun e t H => IH e t (or_intror H)) (fun e t H => U e t (or_intror H)) (fun e t H => HK e t (or_intror H)) (NoDup_app_right _ _ ND))
        as (m2 & E2 & A2 & F2 & V2).
      { tauto. }
      { rewrite F1 by (unfold names_of; tauto). rewrite mpush_find, String.eqb_refl, M. reflexivity. }
      exists m2. split; [exact E2|]. split; [rewrite A2, <- app_assoc; reflexivity|]. split.
      + intros x Nx Hx. cbn [flat_map snd] in Hx. rewrite map_app, in_app_iff in Hx. rewrite F2 by tauto. rewrite F1 by (unfold names_of; tauto).
        rewrite mpush_find. apply String.eqb_neq in Nx. now rewrite Nx.
      + intros en H. cbn [fst snd] in H. apply in_app_iff in H as [H|H]; [|now apply V2].
        assert (HI : In (bname (body_at h (n_a en))) (map (fun a => bname (body_at h a)) (gnodes t))).
        { apply (in_map (fun a => bname (body_at h a))). rewrite <- (pre_nodes h t (Some a) (Z.of_nat n) (aJoint e) (ptmul (aX e) (ptinv XF)) ptid k). now apply in_map. }
        rewrite F2; [now apply V1| |].
        * intro Q. rewrite Q in HI. tauto.
        * intro Q. exact (NoDup_app_disj _ _ ND _ HI Q). }
  destruct (G ks (mset m na []) (S n) [] (incl_refl _) (fun e t H => IH e t H) U HK ND NA (mfind_mset_eq _ _ _)) as (m' & E1 & A1 & F1 & V1).
  exists m'. split; [exact E1|]. split.
  - intros x Hx. unfold names_of in Hx. cbn [gnodes map In] in Hx. fold na in Hx.
    assert (Nx : x <> na) by (intros ->; apply Hx; now left). rewrite F1 by (auto; tauto). now apply mfind_mset_neq.
  - intros en [<-|H]; [|now apply V1]. cbn [n_a n_from]. rewrite <- K. exact A1.
Qed.
