(** makeMultiBody lays out the unfolding of the graph. *)
From Coq Require Import Reals String ZArith Bool Arith List Lia Relations.
From Verif Require Import Res ResP SMap Vec Sva JointM MultiBodyM GraphM Spec SpecGraph GraphP GraphWalkP MbP.
Import ListNotations.
Open Scope R_scope.
Local Open Scope nat_scope.

Record ent := mkEnt { n_a : nat; n_par : Z; n_joint : Joint; n_X : PT; n_base : PT; n_from : option nat }.
Definition ent_body (h : Heap) (en : ent) : Body :=
  mkBody (ptdualI (n_base en) (binertia (body_at h (n_a en)))) (bname (body_at h (n_a en))).
Definition acc_of (h : Heap) (L : list ent) : Acc :=
  mkAcc (map (ent_body h) L) (map n_joint L) (map n_par L) (map Z.of_nat (seq 0 (length L))) (map n_par L) (map n_X L).
Definition kpre {A} (f : nat -> A -> list ent) : nat -> list A -> list ent :=
  fix go n ks := match ks with [] => [] | k :: ks => f n k ++ go (n + length (f n k)) ks end.
Fixpoint pre (h : Heap) (from : option nat) (par : Z) (joint : Joint) (X Xbase : PT) (n : nat) (t : gtree) : list ent :=
  match t with
  | GT a ks =>
      let XF := x_from (arcs_at h a) from Xbase in
      mkEnt a par joint X XF from ::
      kpre (fun n' k => pre h (Some a) (Z.of_nat n) (aJoint (fst k)) (ptmul (aX (fst k)) (ptinv XF)) ptid n' (snd k)) (S n) ks
  end.

Lemma acc_of_push h L en :
  ac_push (ent_body h en) (n_joint en) (n_par en) (Z.of_nat (length L)) (n_par en) (n_X en) (acc_of h L) = acc_of h (L ++ [en]).
Proof.
  unfold ac_push, acc_of. cbn [ac_bodies ac_joints ac_pred ac_succ ac_parent ac_Xt]. rewrite !map_app. cbn [map].
  f_equal. rewrite app_length. cbn [length]. rewrite seq_app, map_app. reflexivity.
Qed.
Lemma for_each_filter {A S} (p : A -> bool) (g : A -> S -> res S) l : forall s,
  for_each l (fun e s => if p e then Ok s else g e s) s = for_each (filter (fun e => negb (p e)) l) g s.
Proof.
  induction l as [|a l IH]; intro s; cbn [for_each filter]; [reflexivity|].
  destruct (p a); cbn [negb bind]; [apply IH|]. cbn [for_each]. destruct (g a s); cbn [bind]; auto.
Qed.
Lemma unf_get h from t : unf h from t -> exists nd, get (hNodes h) (groot t) = Ok nd /\ nArcs nd = arcs_at h (groot t) /\ nBody nd = body_at h (groot t).
Proof.
  intro U. pose proof (unf_len h from t U) as L. destruct (nth_error (hNodes h) (groot t)) as [nd|] eqn:E; [|apply nth_error_None in E; lia].
  exists nd. split; [now apply get_Ok|]. destruct (node_at _ _ _ E) as (E1 & E2 & _). auto.
Qed.
Lemma makeTree_pre h t : forall fuel from joint par Xti Xbase L, unf h from t -> gheight t <= fuel ->
  makeTree fuel h (groot t) from joint par (Z.of_nat (length L)) par Xti Xbase (acc_of h L) =
  Ok (acc_of h (L ++ pre h from par joint Xti Xbase (length L) t)).
Proof.
  induction t as [a ks IH] using gtree_rect'. intros fuel from joint par Xti Xbase L U HF.
  destruct fuel as [|f]; [cbn in HF; lia|]. cbn [makeTree groot].
  destruct (unf_get h from _ U) as (nd & E & EA & EB). cbn [groot] in *. rewrite E. cbn [bind]. rewrite EA, EB.
  apply unf_iff in U as (La & K & U).
  set (XF := x_from (arcs_at h a) from Xbase).
  pose (en := mkEnt a par joint Xti XF from).
  change (mkBody (ptdualI XF (binertia (body_at h a))) (bname (body_at h a))) with (ent_body h en).
  change (ac_push (ent_body h en) joint par (Z.of_nat (length L)) par Xti (acc_of h L))
    with (ac_push (ent_body h en) (n_joint en) (n_par en) (Z.of_nat (length L)) (n_par en) (n_X en) (acc_of h L)).
  rewrite acc_of_push. cbv zeta.
  assert (EC : (Z.of_nat (length (ac_bodies (acc_of h (L ++ [en])))) - 1)%Z = Z.of_nat (length L)).
  { unfold acc_of. cbn [ac_bodies]. rewrite map_length, app_length. cbn [length]. lia. }
  rewrite EC. rewrite for_each_filter. change (filter _ (arcs_at h a)) with (out_arcs h from a). rewrite <- K.
  cbn [pre]. fold XF. fold en.
  replace (L ++ en :: kpre _ (S (length L)) ks) with ((L ++ [en]) ++ kpre (fun n' k => pre h (Some a) (Z.of_nat (length L)) (aJoint (fst k)) (ptmul (aX (fst k)) (ptinv XF)) ptid n' (snd k)) (S (length L)) ks)
    by (rewrite <- app_assoc; reflexivity).
  replace (S (length L)) with (length (L ++ [en])) by (rewrite app_length; cbn; lia).
  assert (HK : forall e t, In (e, t) ks -> gheight t <= f).
  { intros e t H. pose proof (gheight_kid e t ks a H). lia. }
  clear K EC HF. set (n0 := length L). clearbody n0. clear E EA. set (M := L ++ [en]). clearbody M. clear L en.
  revert M. induction ks as [|(e, t) ks IHk]; intro M; cbn [map fst for_each kpre].
  - now rewrite app_nil_r.
  - destruct (U e t (or_introl eq_refl)) as (R & Ut). rewrite <- R.
    assert (EL : Z.of_nat (length (ac_bodies (acc_of h M))) = Z.of_nat (length M)) by (unfold acc_of; cbn [ac_bodies]; now rewrite map_length).
    rewrite EL. rewrite (IH e t (or_introl eq_refl)); [|exact Ut|apply (HK e t); now left]. cbn [bind snd].
    rewrite (IHk (fun e t H => IH e t (or_intror H)) (fun e t H => U e t (or_intror H)) (fun e t H => HK e t (or_intror H))).
    rewrite app_assoc. do 3 f_equal. rewrite app_length. reflexivity.
Qed.

(** *** What is in the list. *)
Lemma hd_error_nth_error {A} (l : list A) : hd_error l = nth_error l 0.
Proof. destruct l; reflexivity. Qed.
Lemma kpre_nodes {A} (f : nat -> A -> list ent) (g : A -> list nat) ks : (forall n k, In k ks -> map n_a (f n k) = g k) ->
  forall n, map n_a (kpre f n ks) = flat_map g ks.
Proof.
  induction ks as [|k ks IH]; intros H n; cbn [kpre flat_map]; [reflexivity|]. rewrite map_app, H by now left.
  f_equal. apply IH. intros. apply H. now right.
Qed.
Lemma pre_nodes h t : forall from par joint X Xb n, map n_a (pre h from par joint X Xb n t) = gnodes t.
Proof.
  induction t as [a ks IH] using gtree_rect'. intros. cbn [pre gnodes map n_a]. f_equal. apply kpre_nodes.
  intros n' (e, t) H. apply (IH e t H).
Qed.
Lemma pre_hd h t from par joint X Xb n :
  hd_error (pre h from par joint X Xb n t) = Some (mkEnt (groot t) par joint X (x_from (arcs_at h (groot t)) from Xb) from).
Proof. destruct t. reflexivity. Qed.
Definition below (h : Heap) (n : nat) (p : nat) (ep en : ent) : Prop :=
  exists e, In e (arcs_at h (n_a ep)) /\ aNext e = n_a en /\ n_par en = Z.of_nat (n + p) /\ n_joint en = aJoint e /\
    n_X en = ptmul (aX e) (ptinv (n_base ep)) /\ n_base en = x_from (arcs_at h (n_a en)) (Some (n_a ep)) ptid /\ n_from en = Some (n_a ep).
Lemma pre_below h t : forall from par joint X Xb n, unf h from t ->
  forall i en, 0 < i -> nth_error (pre h from par joint X Xb n t) i = Some en ->
  exists p ep, p < i /\ nth_error (pre h from par joint X Xb n t) p = Some ep /\ below h n p ep en.
Proof.
  induction t as [a ks IH] using gtree_rect'. intros from par joint X Xb n U i en Hi Hn. apply unf_iff in U as (La & K & U).
  cbn [pre] in *. set (XF := x_from (arcs_at h a) from Xb) in *. set (en0 := mkEnt a par joint X XF from) in *.
  set (F := fun n' k => pre h (Some a) (Z.of_nat n) (aJoint (fst k)) (ptmul (aX (fst k)) (ptinv XF)) ptid n' (snd k)) in *.
  assert (KK : forall e, In e (map fst ks) -> In e (arcs_at h a)) by (intros e He; rewrite K in He; apply out_arcs_iff in He; tauto).
  destruct i as [|i]; [lia|]. cbn [nth_error] in Hn.
  assert (G : below h n 0 en0 en \/ exists p ep, p < i /\ nth_error (kpre F (S n) ks) p = Some ep /\ below h (S n) p ep en).
  { clear K Hi. revert i Hn. generalize (S n) as m. induction ks as [|(e, t) ks IHk]; intros m i Hn; cbn [kpre] in Hn; [destruct i; discriminate|].
    destruct (U e t (or_introl eq_refl)) as (R & Ut). destruct (Nat.lt_ge_cases i (length (F m (e, t)))) as [Li|Li].
    - rewrite nth_error_app1 in Hn by auto. destruct i as [|i].
      + left. pose proof (pre_hd h t (Some a) (Z.of_nat n) (aJoint e) (ptmul (aX e) (ptinv XF)) ptid m) as Hh.
        unfold F in Hn. cbn [fst snd] in Hn. rewrite hd_error_nth_error in Hh. rewrite Hn in Hh. injection Hh as ->.
        exists e. cbn [n_a n_par n_joint n_X n_base en0 n_from]. rewrite Nat.add_0_r, R. split; [apply KK; now left|]. do 5 (split; [reflexivity|]). reflexivity.
      + right. destruct (IH e t (or_introl eq_refl) _ _ _ _ _ _ Ut (S i) en (Nat.lt_0_succ _) Hn) as (p & ep & P1 & P2 & P3).
        exists p, ep. split; auto. split; auto. cbn [kpre]. change (nth_error (F m (e, t)) p = Some ep) in P2. rewrite nth_error_app1; [exact P2|]. apply nth_error_Some. congruence.
    - rewrite nth_error_app2 in Hn by auto.
      destruct (IHk (fun e t H => IH e t (or_intror H)) (fun e t H => U e t (or_intror H)) (fun e H => KK e (or_intror H)) _ _ Hn) as [B|(p & ep & P1 & P2 & P3)]; [now left|].
      right. exists (length (F m (e, t)) + p), ep. split; [lia|]. split.
      + cbn [kpre]. rewrite nth_error_app2 by lia. replace (length (F m (e, t)) + p - length (F m (e, t))) with p by lia. exact P2.
      + destruct P3 as (e' & Q1 & Q2 & Q3 & Q). exists e'. split; [exact Q1|]. split; [exact Q2|]. split; [rewrite Q3; f_equal; lia|exact Q]. }
  destruct G as [B|(p & ep & P1 & P2 & P3)].
  - exists 0, en0. split; [lia|]. split; [reflexivity|exact B].
  - exists (S p), ep. split; [lia|]. split; [exact P2|].
    destruct P3 as (e' & Q1 & Q2 & Q3 & Q). exists e'. split; [exact Q1|]. split; [exact Q2|]. split; [rewrite Q3; f_equal; lia|exact Q].
Qed.

(** *** The children of an entry. *)
Definition kids_of (L : list ent) (z : Z) : list (nat * Joint) :=
  map (fun en => (n_a en, n_joint en)) (filter (fun en => (n_par en =? z)%Z) L).
Lemma kids_of_app L M z : kids_of (L ++ M) z = kids_of L z ++ kids_of M z.
Proof. unfold kids_of. now rewrite filter_app, map_app. Qed.
Lemma kids_of_none L z : (forall en, In en L -> n_par en <> z) -> kids_of L z = [].
Proof.
  intro H. unfold kids_of. replace (filter _ L) with (@nil ent); [reflexivity|]. symmetry. induction L as [|en L IH]; [reflexivity|].
  cbn [filter]. assert (N : n_par en <> z) by (apply H; now left). apply Z.eqb_neq in N. rewrite N. apply IH. intros. apply H. now right.
Qed.
Lemma pre_pars h t : forall from par joint X Xb n, unf h from t -> (par < Z.of_nat n)%Z ->
  forall en, In en (pre h from par joint X Xb n t) -> n_par en = par \/ (Z.of_nat n <= n_par en < Z.of_nat (n + length (pre h from par joint X Xb n t)))%Z.
Proof.
  intros from par joint X Xb n U L en H. apply In_nth_error in H as (i & H). destruct i as [|i].
  - rewrite <- hd_error_nth_error, pre_hd in H. injection H as <-. now left.
  - right. destruct (pre_below h t _ _ _ _ _ _ U (S i) en (Nat.lt_0_succ _) H) as (p & ep & P1 & P2 & e & _ & _ & B & _).
    assert (p < length (pre h from par joint X Xb n t)) by (apply nth_error_Some; congruence). lia.
Qed.
Lemma pre_kids h t : forall from par joint X Xb n, unf h from t -> (par < Z.of_nat n)%Z ->
  forall i en, nth_error (pre h from par joint X Xb n t) i = Some en ->
  kids_of (pre h from par joint X Xb n t) (Z.of_nat (n + i)) = map (fun e => (aNext e, aJoint e)) (out_arcs h (n_from en) (n_a en)).
Proof.
  induction t as [a ks IH] using gtree_rect'. intros from par joint X Xb n U LP i en Hn. apply unf_iff in U as (La & K & U).
  cbn [pre] in *. set (XF := x_from (arcs_at h a) from Xb) in *. set (en0 := mkEnt a par joint X XF from) in *.
  set (F := fun n' k => pre h (Some a) (Z.of_nat n) (aJoint (fst k)) (ptmul (aX (fst k)) (ptinv XF)) ptid n' (snd k)) in *.
  change (en0 :: kpre F (S n) ks) with ([en0] ++ kpre F (S n) ks) in *. rewrite kids_of_app.
  rewrite (kids_of_none [en0]) by (intros en1 [<-|[]]; cbn; lia). cbn [app].
  assert (FP : forall m k, In k ks -> n < m -> forall en, In en (F m k) -> n_par en = Z.of_nat n \/ (Z.of_nat m <= n_par en < Z.of_nat (m + length (F m k)))%Z).
  { intros m (e, t) H Lm en1 H1. destruct (U e t H) as (_ & Ut). apply (pre_pars h t (Some a) (Z.of_nat n)); auto. lia. }
  assert (KP : forall ks', incl ks' ks -> forall m, n < m -> forall en, In en (kpre F m ks') -> n_par en = Z.of_nat n \/ (Z.of_nat m <= n_par en < Z.of_nat (m + length (kpre F m ks')))%Z).
  { induction ks' as [|k ks' IHk]; intros I m Lm en1 H1; cbn [kpre] in *; [destruct H1|]. rewrite app_length.
    apply in_app_iff in H1 as [H1|H1].
    - destruct (FP m k (I k (or_introl eq_refl)) Lm en1 H1); [now left|right; lia].
    - destruct (IHk (fun x H => I x (or_intror H)) (m + length (F m k)) ltac:(lia) en1 H1); [now left|right; lia]. }
  destruct i as [|i].
  - cbn in Hn. injection Hn as <-. cbn [en0 n_from n_a]. rewrite <- K, Nat.add_0_r. rewrite map_map.
    clear K IH LP. assert (Lm : n < S n) by lia. revert Lm. generalize (S n) as m. revert KP FP U.
    induction ks as [|(e, t) ks IHk]; intros KP FP U m Lm; cbn [kpre map]; [reflexivity|]. rewrite kids_of_app.
    destruct (U e t (or_introl eq_refl)) as (R & Ut).
    match goal with |- _ = ?x :: ?l => change (x :: l) with ([x] ++ l) end. f_equal.
    + assert (Hh := pre_hd h t (Some a) (Z.of_nat n) (aJoint e) (ptmul (aX e) (ptinv XF)) ptid m).
      change (pre h (Some a) (Z.of_nat n) (aJoint e) (ptmul (aX e) (ptinv XF)) ptid m t) with (F m (e, t)) in Hh.
      assert (B := fun i en => pre_below h t (Some a) (Z.of_nat n) (aJoint e) (ptmul (aX e) (ptinv XF)) ptid m Ut i en).
      change (pre h (Some a) (Z.of_nat n) (aJoint e) (ptmul (aX e) (ptinv XF)) ptid m t) with (F m (e, t)) in B.
      destruct (F m (e, t)) as [|en1 L]; [discriminate|]. cbn [hd_error] in Hh. injection Hh as ->.
      match goal with |- kids_of (?x :: ?l) _ = _ => change (x :: l) with ([x] ++ l) end. rewrite kids_of_app. rewrite (kids_of_none L).
      * unfold kids_of. cbn [filter n_par]. rewrite Z.eqb_refl. cbn [map n_a n_joint app fst snd]. now rewrite R.
      * intros en1 H1. apply In_nth_error in H1 as (k & H1). destruct (B (S k) en1 (Nat.lt_0_succ _) H1) as (p & ep & _ & _ & e' & _ & _ & Q & _). lia.
    + apply IHk; try lia.
      * intros ks' I. apply KP. intros x Hx. right. apply I, Hx.
      * intros m1 k H. apply FP. now right.
      * intros e1 t1 H. apply U. now right.
  - cbn [app nth_error] in Hn. clear K. assert (Lm : n < S n) by lia. replace (n + S i) with (S n + i) by lia.
    revert i Hn Lm. generalize (S n) as m. revert KP FP U IH.
    induction ks as [|(e, t) ks IHk]; intros KP FP U IH m i Hn Lm; cbn [kpre] in *; [destruct i; discriminate|]. rewrite kids_of_app.
    destruct (U e t (or_introl eq_refl)) as (R & Ut). destruct (Nat.lt_ge_cases i (length (F m (e, t)))) as [Li|Li].
    + rewrite nth_error_app1 in Hn by auto.
      rewrite (kids_of_none (kpre F _ ks)), app_nil_r.
      * apply (IH e t (or_introl eq_refl) (Some a) (Z.of_nat n)); auto. lia.
      * intros en1 H1. destruct (KP ks (fun x H => or_intror H) (m + length (F m (e, t))) ltac:(lia) en1 H1); lia.
    + rewrite nth_error_app2 in Hn by auto. rewrite (kids_of_none (F m (e, t))).
      * cbn [app]. replace (m + i) with (m + length (F m (e, t)) + (i - length (F m (e, t)))) by lia.
        apply IHk; try lia; auto.
        -- intros ks' I. apply KP. intros x Hx. right. apply I, Hx.
        -- intros m1 k H. apply FP. now right.
        -- intros e1 t1 H. apply U. now right.
        -- intros e1 t1 H. apply (IH e1 t1). now right.
      * intros en1 H1. destruct (FP m (e, t) (or_introl eq_refl) Lm en1 H1); lia.
Qed.
Lemma kids_of_seq L z : kids_of L z = map (fun k => (nth k (map n_a L) 0, nth k (map n_joint L) jd)) (filter (fun k => (nth k (map n_par L) 0 =? z)%Z) (seq 0 (length L))).
Proof.
  induction L as [|en L IH] using rev_ind; [reflexivity|]. rewrite kids_of_app, app_length. cbn [length]. rewrite seq_app, filter_app, map_app. cbn [seq Nat.add].
  f_equal.
  - rewrite IH. transitivity (map (fun k => (nth k (map n_a (L ++ [en])) 0, nth k (map n_joint (L ++ [en])) jd)) (filter (fun k => (nth k (map n_par L) 0 =? z)%Z) (seq 0 (length L)))).
    + apply map_ext_in. intros k Hk. apply filter_In in Hk as (Hk & _). apply in_seq in Hk. rewrite !map_app, !app_nth1; rewrite ?map_length; auto; lia.
    + f_equal. apply filter_ext_in. intros k Hk. apply in_seq in Hk. rewrite map_app, app_nth1; rewrite ?map_length; auto; lia.
  - unfold kids_of. cbn [filter]. rewrite !map_app. rewrite (app_nth2 (map n_par L)) by (rewrite map_length; lia). rewrite map_length, Nat.sub_diag. cbn [map nth].
    destruct (n_par en =? z)%Z; [|reflexivity]. cbn [map]. rewrite !app_nth2 by (rewrite map_length; lia). rewrite !map_length, Nat.sub_diag. reflexivity.
Qed.

(** *** makeMultiBody. *)
Lemma x_from_unique h a p e : In e (arcs_at h a) -> aNext e = p -> NoDup (map aNext (arcs_at h a)) -> x_from (arcs_at h a) (Some p) ptid = aX e.
Proof.
  intros He En ND. unfold x_from. destruct (find (is_from (Some p)) (arcs_at h a)) as [e2|] eqn:F.
  - apply find_some in F as (F1 & F2). cbn [is_from] in F2. apply Nat.eqb_eq in F2.
    assert (e2 = e); [|now subst]. apply in_split in He as (l1 & l2 & E). rewrite E in *. destruct (NoDup_map_remove _ _ _ _ ND) as (_ & Q).
    apply in_app_iff in F1. destruct F1 as [F1|[F1|F1]]; [|auto|].
    + exfalso. apply (Q e2); [apply in_app_iff; auto|congruence].
    + exfalso. apply (Q e2); [apply in_app_iff; auto|congruence].
  - exfalso. apply (find_none _ _ F) in He. cbn [is_from] in He. apply Nat.eqb_neq in He. auto.
Qed.
Lemma nth_map_e {A B} (f : A -> B) l i d x : nth_error l i = Some x -> nth i (map f l) d = f x.
Proof. intro H. apply nth_error_nth. rewrite nth_error_map, H. reflexivity. Qed.
Lemma makeMultiBody_run s root r t axis X0 Xb fuel tr : mfind (gBody (snd s)) root = Some r ->
  groot tr = r -> unf (fst s) None tr -> gheight tr <= fuel ->
  exists mb, makeMultiBody fuel root t axis X0 Xb s = Ok mb /\
    let L := pre (fst s) None (-1)%Z (mkJ t axis true (gRoot (snd s))) X0 Xb 0 tr in
    mb_bodies mb = map (ent_body (fst s)) L /\ mb_joints mb = map n_joint L /\ mb_pred mb = map n_par L /\
    mb_succ mb = map Z.of_nat (seq 0 (length L)) /\ mb_parent mb = map n_par L /\ mb_Xt mb = map n_X L /\
    MultiBody_ctor (map (ent_body (fst s)) L) (map n_joint L) (map n_par L) (map Z.of_nat (seq 0 (length L))) (map n_par L) (map n_X L) = Ok mb.
Proof.
  intros Hr R U HF. destruct s as (h & g). cbn [fst snd] in *. unfold makeMultiBody, mat_. rewrite Hr. cbn [bind].
  pose proof (makeTree_pre h tr fuel None (mkJ t axis true (gRoot g)) (-1)%Z X0 Xb [] U HF) as M. rewrite R in M. cbn [length] in M.
  change (acc_of h []) with acc0 in M. rewrite app_nil_l in M. change (Z.of_nat 0) with 0%Z in M. rewrite M. cbn [bind]. clear M.
  set (L := pre h None (-1)%Z (mkJ t axis true (gRoot g)) X0 Xb 0 tr). unfold acc_of. cbn [ac_bodies ac_joints ac_pred ac_succ ac_parent ac_Xt].
  destruct (MultiBody_ctor_spec (map (ent_body h) L) (map n_joint L) (map n_par L) (map Z.of_nat (seq 0 (length L))) (map n_par L) (map n_X L))
    as (mb & E & E1 & E2 & E3 & E4 & E5 & E6 & _); [now rewrite !map_length|].
  exists mb. split; [exact E|]. cbv zeta. do 6 (split; [assumption|]). exact E.
Qed.
Lemma makeMultiBody_tree s root r t axis X0 Xb fuel tr : graph_ok s -> cycle_free (fst s) (snd s) ->
  mfind (gBody (snd s)) root = Some r ->
  groot tr = r -> unf (fst s) None tr -> gheight tr <= fuel -> NoDup (gnodes tr) ->
  (forall x, In x (gnodes tr) <-> conn (fst s) r x) -> (forall x, In x (gnodes tr) -> In x (gNodes (snd s))) ->
  exists mb base, makeMultiBody fuel root t axis X0 Xb s = Ok mb /\
     mb_of_graph s r (mkJ t axis true (gRoot (snd s))) X0 Xb (gnodes tr) base mb /\
     MultiBody_ctor (mb_bodies mb) (mb_joints mb) (mb_pred mb) (mb_succ mb) (mb_pred mb) (mb_Xt mb) = Ok mb.
Proof.
  intros G CF Hr R U HF ND CN VV. destruct (makeMultiBody_run s root r t axis X0 Xb fuel tr Hr R U HF) as (mb & E & H). cbv zeta in H.
  set (L := pre (fst s) None (-1)%Z (mkJ t axis true (gRoot (snd s))) X0 Xb 0 tr) in *. destruct H as (E1 & E2 & E3 & E4 & E5 & E6 & EC).
  assert (EN : map n_a L = gnodes tr) by apply pre_nodes.
  assert (LN : length L = length (gnodes tr)) by (rewrite <- EN; now rewrite map_length).
  pose proof (pre_hd (fst s) tr None (-1)%Z (mkJ t axis true (gRoot (snd s))) X0 Xb 0) as HD. fold L in HD. rewrite hd_error_nth_error in HD.
  exists mb, (map n_base L). split; [exact E|].
  assert (AT : forall i, i < length (gnodes tr) -> exists en, nth_error L i = Some en).
  { intros i Hi. destruct (nth_error L i) as [en|] eqn:Q; [eauto|]. apply nth_error_None in Q. lia. }
  split; [|rewrite E1, E2, E3, E4, E6; exact EC].
  constructor; rewrite ?E1, ?E2, ?E3, ?E4, ?E5, ?E6, ?map_length, ?LN; auto.
  - rewrite <- R. destruct tr. reflexivity.
  - intros i Hi. destruct (AT i Hi) as (en & Q). rewrite (nth_map_e _ _ _ bd _ Q), (nth_map_e n_base _ _ ptid _ Q).
    rewrite <- EN. rewrite (nth_map_e n_a _ _ 0 _ Q). reflexivity.
  - rewrite (nth_map_e n_joint _ _ jd _ HD), (nth_map_e n_par _ _ 0%Z _ HD), (nth_map_e n_X _ _ ptid _ HD), (nth_map_e n_base _ _ ptid _ HD).
    cbn [n_joint n_par n_X n_base]. do 3 (split; [reflexivity|]). unfold x_from. destruct (find (is_from None) _) eqn:F; [|reflexivity].
    apply find_some in F as (_ & F). discriminate.
  - intros i (Hi & Li). destruct (AT i Li) as (en & Q).
    destruct (pre_below (fst s) tr _ _ _ _ _ _ U i en Hi Q) as (p & ep & P1 & P2 & e & B1 & B2 & B3 & B4 & B5 & B6 & B7). fold L in P2.
    assert (Vp : In (n_a ep) (gNodes (snd s))). { apply VV. rewrite <- EN. apply in_map. eapply nth_error_In; eauto. }
    destruct (gk_pair _ G _ _ Vp B1) as (e' & Q1 & Q2 & _). rewrite B2 in Q1.
    exists p, e, e'. split; [exact P1|]. rewrite <- EN.
    rewrite (nth_map_e n_par _ _ 0%Z _ Q), (nth_map_e n_a _ _ 0 _ Q), (nth_map_e n_a _ _ 0 _ P2), (nth_map_e n_joint _ _ jd _ Q),
      (nth_map_e n_X _ _ ptid _ Q), !(nth_map_e n_base _ _ ptid _ Q), (nth_map_e n_base _ _ ptid _ P2).
    split; [rewrite B3; reflexivity|]. do 6 (split; [assumption|]). rewrite B6. apply x_from_unique; auto.
    apply (cf_single _ _ CF). eapply gk_next in B1; eauto. now rewrite B2 in B1.
  - intros i Li. destruct (AT i Li) as (en & Q). rewrite <- LN, <- EN, <- kids_of_seq.
    change (Z.of_nat i) with (Z.of_nat (0 + i)). unfold L.
    rewrite (pre_kids (fst s) tr None (-1)%Z (mkJ t axis true (gRoot (snd s))) X0 Xb 0 U ltac:(lia) i en Q). fold L.
    rewrite (nth_map_e n_par _ _ 0%Z _ Q), (nth_map_e n_a _ _ 0 _ Q). f_equal. unfold out_arcs. apply filter_ext. intro e. f_equal.
    unfold to_parent. destruct i as [|i].
    + rewrite HD in Q. injection Q as <-. reflexivity.
    + destruct (pre_below (fst s) tr _ _ _ _ _ _ U (S i) en (Nat.lt_0_succ _) Q) as (p & ep & P1 & P2 & e1 & B1 & B2 & B3 & B4 & B5 & B6 & B7). fold L in P2.
      rewrite B3, B7. cbn [Nat.add is_from]. destruct (Z.ltb_spec (Z.of_nat p) 0); [lia|]. rewrite Nat2Z.id. rewrite (nth_map_e n_a _ _ 0 _ P2). reflexivity.
Qed.
Lemma makeMultiBody_ok s root r t axis X0 Xb fuel : graph_ok s -> cycle_free (fst s) (snd s) ->
  mfind (gBody (snd s)) root = Some r -> length (gNodes (snd s)) <= fuel ->
  exists mb ord base, makeMultiBody fuel root t axis X0 Xb s = Ok mb /\
     mb_of_graph s r (mkJ t axis true (gRoot (snd s))) X0 Xb ord base mb /\
     MultiBody_ctor (mb_bodies mb) (mb_joints mb) (mb_pred mb) (mb_succ mb) (mb_pred mb) (mb_Xt mb) = Ok mb.
Proof.
  intros G CF Hr HF. destruct (graph_unfolding s r G CF) as (tr & T1 & T2 & T3 & T4 & T5 & T6).
  { now apply (ng_body _ (gk_names _ G)) in Hr. }
  destruct (makeMultiBody_tree s root r t axis X0 Xb fuel tr G CF Hr T1 T2) as (mb & base & H); auto; [lia|]. eauto.
Qed.
