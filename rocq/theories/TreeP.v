(** Recursions over a tree given by a parent function: the mathematics behind the
    dynamics algorithms. *)
From Coq Require Import Reals Bool Arith Lia Lra List.
From Verif Require Import Res Vec VecP Sva SvaP Mat.
Import ListNotations.
Open Scope R_scope.

(** ** Finite sums *)
Lemma rsum_ext n f g : (forall i, (i < n)%nat -> f i = g i) -> rsum n f = rsum n g.
Proof. induction n; simpl; intros H; auto. rewrite IHn by auto. rewrite H by lia. auto. Qed.
Lemma rsum_plus n f g : rsum n (fun i => f i + g i) = rsum n f + rsum n g.
Proof. induction n; simpl; [ring|]. rewrite IHn. ring. Qed.
Lemma rsum_minus n f g : rsum n (fun i => f i - g i) = rsum n f - rsum n g.
Proof. induction n; simpl; [ring|]. rewrite IHn. ring. Qed.
Lemma rsum_scal n k f : rsum n (fun i => k * f i) = k * rsum n f.
Proof. induction n; simpl; [ring|]. rewrite IHn. ring. Qed.
Lemma rsum_scal_r n k f : rsum n (fun i => f i * k) = rsum n f * k.
Proof. induction n; simpl; [ring|]. rewrite IHn. ring. Qed.
Lemma rsum_0 n : rsum n (fun _ => 0) = 0.
Proof. induction n; simpl; [ring|]. rewrite IHn. ring. Qed.
Lemma rsum_eq0 n f : (forall i, (i < n)%nat -> f i = 0) -> rsum n f = 0.
Proof. intros. rewrite (rsum_ext n f (fun _ => 0)); auto. apply rsum_0. Qed.
Lemma rsum_swap n m f : rsum n (fun i => rsum m (fun j => f i j)) = rsum m (fun j => rsum n (fun i => f i j)).
Proof.
  induction n; simpl.
  - now rewrite rsum_0.
  - rewrite IHn. now rewrite rsum_plus.
Qed.
Lemma rsum_delta n k f : (k < n)%nat -> rsum n (fun i => if Nat.eqb i k then f i else 0) = f k.
Proof.
  induction n; intros L; [lia|]. simpl.
  destruct (Nat.eqb_spec n k) as [->|N].
  - rewrite rsum_eq0; [ring|]. intros i Hi. destruct (Nat.eqb_spec i k); [lia|auto].
  - rewrite IHn by lia. ring.
Qed.
Lemma rsum_nonneg n f : (forall i, (i < n)%nat -> 0 <= f i) -> 0 <= rsum n f.
Proof. induction n; simpl; intros H; [lra|]. pose proof (H n ltac:(lia)). assert (0 <= rsum n f) by auto. lra. Qed.
Lemma rsum_app n m f : rsum (n + m) f = rsum n f + rsum m (fun i => f (n + i)%nat).
Proof.
  induction m; simpl.
  - rewrite Nat.add_0_r. ring.
  - rewrite Nat.add_succ_r. simpl. rewrite IHm. ring.
Qed.

(** Sums of spatial vectors seen through the pairing. *)
Fixpoint vsum (n : nat) (f : nat -> SV) : SV :=
  match n with O => sv0 | S n => svadd (vsum n f) (f n) end.
Lemma vsum_dot n f u : svdot (vsum n f) u = rsum n (fun i => svdot (f i) u).
Proof. induction n; simpl; [apply svdot_0_l|]. rewrite svdot_add_l, IHn. auto. Qed.
Lemma vsum_dot_r n f u : svdot u (vsum n f) = rsum n (fun i => svdot u (f i)).
Proof. rewrite svdot_comm, vsum_dot. apply rsum_ext; intros; apply svdot_comm. Qed.
Lemma vsum_ext n f g : (forall i, (i < n)%nat -> f i = g i) -> vsum n f = vsum n g.
Proof. induction n; simpl; intros H; auto. rewrite IHn by auto. rewrite H by lia. auto. Qed.
Lemma vsum_add n f g : vsum n (fun i => svadd (f i) (g i)) = svadd (vsum n f) (vsum n g).
Proof.
  apply svdot_ext; intros. rewrite svdot_add_l, !vsum_dot, <- rsum_plus.
  apply rsum_ext; intros. apply svdot_add_l.
Qed.
Lemma vsum_0 n : vsum n (fun _ => sv0) = sv0.
Proof. induction n; simpl; auto. rewrite IHn. apply svadd_0_l. Qed.
Lemma vsum_ptm X n f : ptm X (vsum n f) = vsum n (fun i => ptm X (f i)).
Proof. induction n; simpl. apply ptm_sv0. rewrite ptm_add, IHn. auto. Qed.
Lemma vsum_scale k n f : svscale k (vsum n f) = vsum n (fun i => svscale k (f i)).
Proof. induction n; simpl. apply svscale_sv0. rewrite svscale_add, IHn. auto. Qed.
Lemma vsum_rbim I n f : rbim I (vsum n f) = vsum n (fun i => rbim I (f i)).
Proof. induction n; simpl. apply rbim_sv0. rewrite rbim_add, IHn. auto. Qed.
Lemma vsum_delta n k f : (k < n)%nat -> vsum n (fun i => if Nat.eqb i k then f i else sv0) = f k.
Proof.
  intros. apply svdot_ext; intros. rewrite vsum_dot.
  rewrite <- (rsum_delta n k (fun i => svdot (f i) m)) by auto. apply rsum_ext. intros.
  destruct (Nat.eqb i k); auto. apply svdot_0_l.
Qed.

Section Tree.
Variable n : nat.
Variable par : nat -> option nat.
Hypothesis par_lt : forall i p, (i < n)%nat -> par i = Some p -> (p < i)%nat.
Variable X : nat -> PT.

Definition is_par (c i : nat) : bool :=
  match par c with Some p => Nat.eqb p i | None => false end.
Lemma is_par_iff c i : is_par c i = true <-> par c = Some i.
Proof.
  unfold is_par. destruct (par c); [|split; discriminate].
  rewrite Nat.eqb_eq. split; congruence.
Qed.

(** A is propagated from the root value A0 with increments s. *)
Definition fwd (A0 : SV) (s A : nat -> SV) : Prop :=
  forall i, (i < n)%nat ->
    A i = svadd (ptm (X i) (match par i with Some p => A p | None => A0 end)) (s i).

(** F accumulates f from the leaves. *)
Definition acc (f F : nat -> SV) : Prop :=
  forall i, (i < n)%nat -> forall u,
    svdot (F i) u = svdot (f i) u +
      rsum n (fun c => if is_par c i then svdot (F c) (ptm (X c) u) else 0).

Lemma fwd_unique A0 s A B : fwd A0 s A -> fwd A0 s B -> forall i, (i < n)%nat -> A i = B i.
Proof.
  intros HA HB i. induction i as [i IH] using lt_wf_ind. intros L.
  rewrite HA, HB by auto. destruct (par i) eqn:P; auto. pose proof (par_lt i n0 L P).
  rewrite (IH n0) by lia. auto.
Qed.

Lemma sum_over_parents (g : nat -> nat -> R) :
  rsum n (fun i => rsum n (fun c => if is_par c i then g c i else 0)) =
  rsum n (fun c => match par c with Some p => g c p | None => 0 end).
Proof.
  rewrite rsum_swap. apply rsum_ext. intros c Hc. unfold is_par.
  destruct (par c) as [p|] eqn:P.
  - pose proof (par_lt c p Hc P).
    rewrite <- (rsum_delta n p (fun i => g c i)) by lia.
    apply rsum_ext. intros. rewrite Nat.eqb_sym. auto.
  - apply rsum_0.
Qed.

(** Virtual power: the power of the local forces equals the power of the
    accumulated forces on the local increments. *)
Lemma virtual_power A0 s A f F : fwd A0 s A -> acc f F ->
  rsum n (fun i => svdot (f i) (A i)) =
  rsum n (fun i => svdot (F i) (s i)) +
  rsum n (fun i => match par i with Some _ => 0 | None => svdot (F i) (ptm (X i) A0) end).
Proof.
  intros HA HF.
  assert (E1 : rsum n (fun i => svdot (F i) (A i)) =
     rsum n (fun i => svdot (f i) (A i)) +
     rsum n (fun c => match par c with Some p => svdot (F c) (ptm (X c) (A p)) | None => 0 end)).
  { rewrite <- (sum_over_parents (fun c p => svdot (F c) (ptm (X c) (A p)))).
    rewrite <- rsum_plus. apply rsum_ext. intros i Hi. now apply HF. }
  assert (E2 : rsum n (fun i => svdot (F i) (A i)) =
     rsum n (fun i => svdot (F i) (s i)) +
     rsum n (fun i => svdot (F i) (ptm (X i) (match par i with Some p => A p | None => A0 end)))).
  { rewrite <- rsum_plus. apply rsum_ext. intros i Hi. rewrite (HA i Hi) at 1.
    rewrite svdot_add_r. ring. }
  assert (E3 : rsum n (fun i => svdot (F i) (ptm (X i) (match par i with Some p => A p | None => A0 end))) =
     rsum n (fun c => match par c with Some p => svdot (F c) (ptm (X c) (A p)) | None => 0 end) +
     rsum n (fun i => match par i with Some _ => 0 | None => svdot (F i) (ptm (X i) A0) end)).
  { rewrite <- rsum_plus. apply rsum_ext. intros i Hi. destruct (par i); ring. }
  lra.
Qed.

Lemma virtual_power0 s A f F : fwd sv0 s A -> acc f F ->
  rsum n (fun i => svdot (f i) (A i)) = rsum n (fun i => svdot (F i) (s i)).
Proof.
  intros HA HF. rewrite (virtual_power sv0 s A f F HA HF).
  rewrite (rsum_eq0 n (fun i => match par i with Some _ => 0 | None => svdot (F i) (ptm (X i) sv0) end)).
  - ring.
  - intros. destruct (par i); auto. now rewrite ptm_sv0, svdot_0_r.
Qed.

(** ** Solutions of the two recursions *)
Fixpoint fwd_fuel (A0 : SV) (s : nat -> SV) (k i : nat) : SV :=
  match k with
  | O => sv0
  | S k => svadd (ptm (X i) (match par i with Some p => fwd_fuel A0 s k p | None => A0 end)) (s i)
  end.
Definition fwd_sol (A0 : SV) (s : nat -> SV) (i : nat) : SV := fwd_fuel A0 s (S i) i.

Lemma fwd_fuel_enough A0 s : forall k k' i, (i < n)%nat -> (i < k)%nat -> (i < k')%nat ->
  fwd_fuel A0 s k i = fwd_fuel A0 s k' i.
Proof.
  induction k; intros k' i Ln L L'; [lia|]. destruct k'; [lia|]. simpl.
  destruct (par i) eqn:P; auto. pose proof (par_lt i n0 Ln P).
  rewrite (IHk k' n0) by lia. auto.
Qed.

Lemma fwd_sol_fwd A0 s : fwd A0 s (fwd_sol A0 s).
Proof.
  intros i L. unfold fwd_sol at 1. simpl. destruct (par i) eqn:P; auto.
  pose proof (par_lt i n0 L P). unfold fwd_sol. rewrite (fwd_fuel_enough A0 s i (S n0)) by lia. auto.
Qed.

Fixpoint acc_fuel (f : nat -> SV) (k i : nat) : SV :=
  match k with
  | O => sv0
  | S k => svadd (f i) (vsum n (fun c => if is_par c i then pttrans (X c) (acc_fuel f k c) else sv0))
  end.
Definition acc_sol (f : nat -> SV) (i : nat) : SV := acc_fuel f (n - i) i.

Lemma acc_fuel_enough f : forall k k' i, (i < n)%nat -> (n - i <= k)%nat -> (n - i <= k')%nat ->
  acc_fuel f k i = acc_fuel f k' i.
Proof.
  induction k; intros k' i Ln L L'; [lia|]. destruct k'; [lia|]. simpl. f_equal.
  apply vsum_ext. intros c Hc. destruct (is_par c i) eqn:P; auto.
  apply is_par_iff in P. pose proof (par_lt c i Hc P). rewrite (IHk k') by lia. auto.
Qed.

Lemma acc_sol_acc f : acc f (acc_sol f).
Proof.
  intros i L u. unfold acc_sol at 1. destruct (n - i)%nat as [|k] eqn:K; [lia|]. simpl.
  rewrite svdot_add_l, vsum_dot. f_equal. apply rsum_ext. intros c Hc.
  destruct (is_par c i) eqn:P; [|apply svdot_0_l].
  apply is_par_iff in P. pose proof (par_lt c i Hc P).
  rewrite pttrans_adj. unfold acc_sol. rewrite (acc_fuel_enough f k (n - c)) by lia. auto.
Qed.

Lemma acc_unique f F G : acc f F -> acc f G -> forall i, (i < n)%nat -> F i = G i.
Proof.
  intros HF HG. assert (H : forall k i, (i < n)%nat -> (n - i <= k)%nat -> F i = G i).
  { induction k; intros i L K; [lia|]. apply svdot_ext. intros u. rewrite HF, HG by auto. f_equal.
    apply rsum_ext. intros c Hc. destruct (is_par c i) eqn:P; auto.
    apply is_par_iff in P. pose proof (par_lt c i Hc P). rewrite (IHk c) by lia. auto. }
  intros i L. apply (H (n - i)%nat); auto.
Qed.

Lemma acc_ext f g F : (forall i, (i < n)%nat -> f i = g i) -> acc f F -> acc g F.
Proof. intros E H i L u. rewrite <- E by auto. apply H. auto. Qed.
Lemma acc_add f g F G : acc f F -> acc g G -> acc (fun i => svadd (f i) (g i)) (fun i => svadd (F i) (G i)).
Proof.
  intros HF HG i L u. rewrite !svdot_add_l, HF, HG by auto.
  rewrite (rsum_ext n (fun c => if is_par c i then svdot (svadd (F c) (G c)) (ptm (X c) u) else 0)
    (fun c => (if is_par c i then svdot (F c) (ptm (X c) u) else 0) + (if is_par c i then svdot (G c) (ptm (X c) u) else 0))).
  - rewrite rsum_plus. ring.
  - intros c Hc. destruct (is_par c i); [apply svdot_add_l|ring].
Qed.
Lemma acc_scale k f F : acc f F -> acc (fun i => svscale k (f i)) (fun i => svscale k (F i)).
Proof.
  intros HF i L u. rewrite !svdot_scale_l, HF by auto. rewrite Rmult_plus_distr_l. f_equal.
  rewrite <- rsum_scal. apply rsum_ext. intros c Hc. destruct (is_par c i); [now rewrite svdot_scale_l|ring].
Qed.
Lemma fwd_add A0 B0 s t A B : fwd A0 s A -> fwd B0 t B ->
  fwd (svadd A0 B0) (fun i => svadd (s i) (t i)) (fun i => svadd (A i) (B i)).
Proof.
  intros HA HB i L. rewrite HA, HB by auto. destruct (par i); rewrite ptm_add; 
  match goal with |- svadd (svadd ?a ?b) (svadd ?c ?d) = svadd (svadd ?a ?c) (svadd ?b ?d) => 
    rewrite <- !svadd_assoc; f_equal; rewrite (svadd_comm b); rewrite <- svadd_assoc; f_equal; apply svadd_comm end.
Qed.
Lemma fwd_scale k A0 s A : fwd A0 s A -> fwd (svscale k A0) (fun i => svscale k (s i)) (fun i => svscale k (A i)).
Proof. intros HA i L. rewrite HA by auto. rewrite svscale_add. destruct (par i); now rewrite ptm_scale. Qed.
Lemma fwd_ext A0 s t A B : (forall i, (i < n)%nat -> s i = t i) -> (forall i, (i < n)%nat -> A i = B i) -> fwd A0 s A -> fwd A0 t B.
Proof.
  intros E EB H i L. rewrite <- E, <- EB by auto. rewrite H by auto. destruct (par i) eqn:P; auto.
  pose proof (par_lt i n0 L P). rewrite (EB n0) by lia. auto.
Qed.
Lemma fwd_vsum k (s A : nat -> nat -> SV) :
  (forall c, (c < k)%nat -> fwd sv0 (s c) (A c)) ->
  fwd sv0 (fun i => vsum k (fun c => s c i)) (fun i => vsum k (fun c => A c i)).
Proof.
  induction k; intros H.
  - intros i L. simpl. destruct (par i); now rewrite ptm_sv0, svadd_0_l.
  - simpl. rewrite <- (svadd_0_l sv0). apply fwd_add; auto.
Qed.

(** ** Ancestors *)
Inductive tanc : nat -> nat -> Prop :=
| ta_refl i : tanc i i
| ta_step k p i : par i = Some p -> tanc k p -> tanc k i.

Lemma tanc_le k i : tanc k i -> (i < n)%nat -> (k <= i)%nat.
Proof. induction 1; intros L; auto. pose proof (par_lt i p L H). assert (k <= p)%nat by (apply IHtanc; lia). lia. Qed.
Lemma tanc_trans a b c : tanc a b -> tanc b c -> tanc a c.
Proof. intros H1 H2. induction H2; auto. econstructor; eauto. Qed.
Lemma tanc_chain a b i : tanc a i -> tanc b i -> tanc a b \/ tanc b a.
Proof.
  intros HA. revert b. induction HA; intros b HB.
  - now right.
  - inversion HB; subst.
    + left. econstructor; eauto.
    + rewrite H in H0. injection H0 as <-. auto.
Qed.
Lemma tanc_dec k i : (i < n)%nat -> {tanc k i} + {~ tanc k i}.
Proof.
  induction i as [i IH] using (well_founded_induction lt_wf). intros L.
  destruct (Nat.eq_dec k i) as [->|N]; [left; constructor|].
  destruct (par i) as [p|] eqn:P.
  - pose proof (par_lt i p L P). destruct (IH p) as [T|T]; try lia.
    + left. econstructor; eauto.
    + right. intros HT. inversion HT; subst; [congruence|]. rewrite P in H0. injection H0 as <-. auto.
  - right. intros HT. inversion HT; subst; congruence.
Qed.
Lemma tanc_sibling i j c p : (i < n)%nat -> tanc j i -> tanc c i -> par j = Some p -> par c = Some p -> c = j.
Proof.
  intros L HJ HC PJ PC.
  assert (Lj : (j < n)%nat) by (apply tanc_le in HJ; lia).
  assert (Lc : (c < n)%nat) by (apply tanc_le in HC; lia).
  destruct (tanc_chain j c i HJ HC) as [H|H]; inversion H; subst; auto.
  - rewrite PC in H0. injection H0 as <-. apply tanc_le in H1; [|pose proof (par_lt c p Lc PC); lia].
    pose proof (par_lt j p Lj PJ). lia.
  - rewrite PJ in H0. injection H0 as <-. apply tanc_le in H1; [|pose proof (par_lt j p Lj PJ); lia].
    pose proof (par_lt c p Lc PC). lia.
Qed.

(** Increment concentrated at joint i. *)
Definition at_ (i : nat) (v : SV) (k : nat) : SV := if Nat.eqb k i then v else sv0.

Lemma fwd_at_zero i v A : fwd sv0 (at_ i v) A -> forall k, (k < n)%nat -> ~ tanc i k -> A k = sv0.
Proof.
  intros H k. induction k as [k IH] using lt_wf_ind. intros L NT. rewrite H by auto.
  assert (Hk : k <> i) by (intros ->; apply NT; constructor).
  unfold at_. destruct (Nat.eqb_spec k i); [congruence|]. rewrite svadd_0_r.
  destruct (par k) as [p|] eqn:P; [|apply ptm_sv0].
  pose proof (par_lt k p L P). rewrite IH; [apply ptm_sv0|lia|lia|].
  intros HT. apply NT. econstructor; eauto.
Qed.
Lemma fwd_at_self i v A : (i < n)%nat -> fwd sv0 (at_ i v) A -> A i = v.
Proof.
  intros L H. rewrite H by auto. unfold at_. rewrite Nat.eqb_refl.
  destruct (par i) eqn:P; [|now rewrite ptm_sv0, svadd_0_l].
  pose proof (par_lt i n0 L P). rewrite (fwd_at_zero i v A H); [now rewrite ptm_sv0, svadd_0_l|lia|].
  intros HT. apply tanc_le in HT; lia.
Qed.
Lemma fwd_at_child i v A c p : fwd sv0 (at_ i v) A -> (c < n)%nat -> par c = Some p -> c <> i -> A c = ptm (X c) (A p).
Proof.
  intros H L P N. rewrite H by auto. rewrite P. unfold at_. destruct (Nat.eqb_spec c i); [congruence|].
  apply svadd_0_r.
Qed.

(** Inertias. *)
Variable I : nat -> RBI.
Definition comp (lo : nat) (Ic : nat -> RBI) : Prop :=
  forall i, (lo <= i < n)%nat -> forall u v,
    svdot (rbim (Ic i) u) v = svdot (rbim (I i) u) v +
      rsum n (fun c => if is_par c i then svdot (rbim (Ic c) (ptm (X c) u)) (ptm (X c) v) else 0).

(** Composite inertia: below the only moving joint, the accumulated force is the
    composite inertia times the acceleration. *)
Lemma comp_force Ic i v A F : comp i Ic -> fwd sv0 (at_ i v) A ->
  acc (fun k => rbim (I k) (A k)) F ->
  forall c, (c < n)%nat -> tanc i c -> F c = rbim (Ic c) (A c).
Proof.
  intros HC HA HF.
  assert (H : forall k c, (c < n)%nat -> (n - c <= k)%nat -> tanc i c -> F c = rbim (Ic c) (A c)).
  { induction k; intros c L K T; [lia|]. apply svdot_ext. intros u. pose proof (tanc_le i c T L).
    rewrite HF, HC by auto. f_equal.
    apply rsum_ext. intros c' Hc'. destruct (is_par c' c) eqn:P; auto.
    apply is_par_iff in P. pose proof (par_lt c' c Hc' P).
    rewrite (IHk c') by (try lia; econstructor; eauto). f_equal. f_equal.
    apply (fwd_at_child i v A c' c HA Hc' P). lia. }
  intros c L T. apply (H (n - c)%nat); auto.
Qed.

(** Forces vanish outside the branches related to the moving joint. *)
Lemma unrelated_force i v A F : fwd sv0 (at_ i v) A -> acc (fun k => rbim (I k) (A k)) F ->
  forall c, (c < n)%nat -> ~ tanc c i -> ~ tanc i c -> F c = sv0.
Proof.
  intros HA HF.
  assert (H : forall k c, (c < n)%nat -> (n - c <= k)%nat -> ~ tanc c i -> ~ tanc i c -> F c = sv0).
  { induction k; intros c L K T1 T2; [lia|]. apply svdot_ext. intros u. rewrite HF by auto.
    rewrite (fwd_at_zero i v A HA c L T2), rbim_sv0, !svdot_0_l, Rplus_0_l.
    apply rsum_eq0. intros c' Hc'. destruct (is_par c' c) eqn:P; auto.
    apply is_par_iff in P. pose proof (par_lt c' c Hc' P).
    rewrite (IHk c'); try lia.
    - apply svdot_0_l.
    - intros T. apply T1. apply (tanc_trans c c' i); auto. econstructor; [eauto|constructor].
    - intros T. inversion T; subst.
      + apply T1. econstructor; [eauto|constructor].
      + rewrite P in H0. injection H0 as <-. auto. }
  intros c L. apply (H (n - c)%nat); auto.
Qed.

(** Above the moving joint, the force is transported along the path. *)
Lemma anc_force i v A F : (i < n)%nat -> fwd sv0 (at_ i v) A -> acc (fun k => rbim (I k) (A k)) F ->
  forall j p, tanc j i -> par j = Some p -> F p = pttrans (X j) (F j).
Proof.
  intros L HA HF j p T P.
  assert (Lj : (j < n)%nat) by (apply tanc_le in T; lia). pose proof (par_lt j p Lj P) as Lp.
  assert (Ln : (p < i)%nat) by (apply tanc_le in T; lia).
  apply svdot_ext. intros u. rewrite HF by lia.
  rewrite (fwd_at_zero i v A HA p); [|lia|intros H; apply tanc_le in H; lia].
  rewrite rbim_sv0, svdot_0_l, Rplus_0_l, pttrans_adj.
  rewrite <- (rsum_delta n j (fun c => svdot (F c) (ptm (X c) u)) Lj).
  apply rsum_ext. intros c Hc. destruct (Nat.eqb_spec c j) as [->|N].
  - assert (E : is_par j p = true) by (now apply is_par_iff). now rewrite E.
  - destruct (is_par c p) eqn:PC; auto. apply is_par_iff in PC.
    rewrite (unrelated_force i v A F HA HF c Hc); [apply svdot_0_l| |].
    + intros TC. apply N. apply (tanc_sibling i j c p); auto.
    + intros TC. inversion TC; subst.
      * apply N. symmetry. apply (tanc_sibling c c j p); auto; constructor.
      * rewrite PC in H. injection H as <-. apply tanc_le in H0; lia.
Qed.

(** Motion and forces produced by a unit rate on axis v of joint i; generalised inertia. *)
Definition unitA (i : nat) (v : SV) : nat -> SV := fwd_sol sv0 (at_ i v).
Definition unitF (i : nat) (v : SV) : nat -> SV := acc_sol (fun k => rbim (I k) (unitA i v k)).
Lemma unitA_fwd i v : fwd sv0 (at_ i v) (unitA i v).
Proof. apply fwd_sol_fwd. Qed.
Lemma unitF_acc i v : acc (fun k => rbim (I k) (unitA i v k)) (unitF i v).
Proof. apply acc_sol_acc. Qed.
Lemma dot_at i v F : (i < n)%nat -> rsum n (fun k => svdot (F k) (at_ i v k)) = svdot (F i) v.
Proof.
  intros L. rewrite <- (rsum_delta n i (fun k => svdot (F k) v) L). apply rsum_ext. intros k Hk.
  unfold at_. destruct (Nat.eqb k i); auto. apply svdot_0_r.
Qed.
Lemma unit_bilin i v j w : (j < n)%nat ->
  svdot (unitF i v j) w = rsum n (fun k => svdot (rbim (I k) (unitA i v k)) (unitA j w k)).
Proof.
  intros L. rewrite (virtual_power0 (at_ j w) (unitA j w) _ _ (unitA_fwd j w) (unitF_acc i v)).
  now rewrite dot_at.
Qed.
Lemma unit_sym i v j w : (i < n)%nat -> (j < n)%nat -> svdot (unitF i v j) w = svdot (unitF j w i) v.
Proof. intros Li Lj. rewrite !unit_bilin by auto. apply rsum_ext. intros. apply rbim_sym. Qed.

(** Power of the inertial forces of a motion, for a unit rate. *)
Lemma force_bilin s A F j w : (j < n)%nat -> fwd sv0 s A -> acc (fun k => rbim (I k) (A k)) F ->
  svdot (F j) w = rsum n (fun k => svdot (unitF j w k) (s k)).
Proof.
  intros L HA HF.
  rewrite <- (virtual_power0 s A _ _ HA (unitF_acc j w)).
  rewrite <- (dot_at j w F L). rewrite <- (virtual_power0 (at_ j w) (unitA j w) _ _ (unitA_fwd j w) HF).
  apply rsum_ext. intros. apply rbim_sym.
Qed.

End Tree.
