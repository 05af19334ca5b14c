(** The error of Simpson's rule, for a function known by its derivatives. *)
From Coq Require Import Reals ZArith Bool List Lia Lra.
From Verif Require Import Vec VecP DerivP.
Import ListNotations.
Open Scope R_scope.

Lemma MVT_D F f a b : a < b -> (forall s, a <= s <= b -> D F s (f s)) -> exists x, F b - F a = f x * (b - a) /\ a < x < b.
Proof. intros L H. exact (MVT_cor2 F f a b L H). Qed.
Lemma D_pow k s : D (fun s => s ^ S k) s (INR (S k) * s ^ k).
Proof. exact (derivable_pt_lim_pow s (S k)). Qed.
Lemma grow_le F f k C S : F 0 = 0 -> (forall s, 0 <= s <= S -> D F s (f s)) -> (forall s, 0 <= s <= S -> f s <= C * s ^ k) ->
  forall s, 0 <= s <= S -> F s <= C / INR (Datatypes.S k) * s ^ (Datatypes.S k).
Proof.
  intros F0 HD HB s Hs. assert (NZ : INR (Datatypes.S k) <> 0) by (apply not_0_INR; lia).
  destruct (Rle_lt_or_eq_dec 0 s) as [P|<-]; [tauto| |rewrite F0; simpl; lra].
  destruct (MVT_D (fun s => C / INR (Datatypes.S k) * s ^ (Datatypes.S k) - F s) (fun s => C * s ^ k - f s) 0 s P) as (x & E & Hx).
  - intros x Hx. eapply D_eq; [apply D_minus; [apply D_scal, D_pow|apply HD; lra]|]. field. auto.
  - rewrite F0 in E. replace (0 ^ Datatypes.S k) with 0 in E by (simpl; ring).
    assert (0 <= (C * x ^ k - f x) * (s - 0)); [|lra]. apply Rmult_le_pos; [|lra]. specialize (HB x ltac:(lra)). lra.
Qed.
Lemma grow F f k C S : F 0 = 0 -> (forall s, 0 <= s <= S -> D F s (f s)) -> (forall s, 0 <= s <= S -> Rabs (f s) <= C * s ^ k) ->
  forall s, 0 <= s <= S -> Rabs (F s) <= C / INR (Datatypes.S k) * s ^ (Datatypes.S k).
Proof.
  intros F0 HD HB s Hs. apply Rabs_le. split.
  - assert (- F s <= C / INR (Datatypes.S k) * s ^ Datatypes.S k); [|lra]. apply (grow_le (fun s => - F s) (fun s => - f s) k C S); auto.
    + rewrite F0; ring.
    + intros x Hx. apply D_opp. now apply HD.
    + intros x Hx. specialize (HB x Hx). unfold Rabs in HB; destruct (Rcase_abs (f x)); lra.
  - apply (grow_le F f k C S); auto. intros x Hx. specialize (HB x Hx). unfold Rabs in HB; destruct (Rcase_abs (f x)); lra.
Qed.
Lemma D_right g c s a : D g (c + s) a -> D (fun s => g (c + s)) s a.
Proof.
  intro H. eapply D_eq; [apply (derivable_pt_lim_comp (fun s => c + s) g s 1 a); [|exact H]|ring].
  eapply D_eq; [apply D_plus; [apply D_const|apply D_id]|ring].
Qed.
Lemma D_left g c s a : D g (c - s) a -> D (fun s => g (c - s)) s (- a).
Proof.
  intro H. eapply D_eq; [apply (derivable_pt_lim_comp (fun s => c - s) g s (-1) a); [|exact H]|ring].
  eapply D_eq; [apply D_minus; [apply D_const|apply D_id]|ring].
Qed.
(** Twice a primitive in the middle. *)
Lemma simpson G g g1 g2 g3 g4 c S M : 0 <= S ->
  (forall t, c - S <= t <= c + S -> D G t (g t) /\ D g t (g1 t) /\ D g1 t (g2 t) /\ D g2 t (g3 t) /\ D g3 t (g4 t) /\ Rabs (g4 t) <= M) ->
  Rabs (G (c + S) - G (c - S) - S / 3 * (g (c - S) + 4 * g c + g (c + S))) <= M / 90 * S ^ 5.
Proof.
  intros HS H.
  assert (Rt : forall s, 0 <= s <= S -> c - S <= c + s <= c + S) by (intros; lra).
  assert (Lt : forall s, 0 <= s <= S -> c - S <= c - s <= c + S) by (intros; lra).
  assert (B3 : forall s, 0 <= s <= S -> Rabs (g3 (c + s) - g3 (c - s)) <= 2 * M * s).
  { intros s Hs. replace (2 * M * s) with ((2 * M) / INR 1 * s ^ 1) by (simpl; field).
    apply (grow (fun s => g3 (c + s) - g3 (c - s)) (fun s => g4 (c + s) + g4 (c - s)) 0 (2 * M) S); auto.
    - rewrite Rplus_0_r, Rminus_0_r. ring.
    - intros x Hx. eapply D_eq; [apply D_minus; [apply D_right, H, Rt, Hx|apply D_left, H, Lt, Hx]|ring].
    - intros x Hx. simpl. rewrite Rmult_1_r. eapply Rle_trans; [apply Rabs_triang|].
      destruct (H (c + x) (Rt x Hx)) as (_ & _ & _ & _ & _ & B1). destruct (H (c - x) (Lt x Hx)) as (_ & _ & _ & _ & _ & B2). lra. }
  assert (P2 : forall s, 0 <= s <= S -> Rabs (/ 3 * (g1 (c + s) - g1 (c - s)) - / 3 * s * (g2 (c + s) + g2 (c - s))) <= (2 / 3 * M) / INR 3 * s ^ 3).
  { apply (grow _ (fun s => - / 3 * s * (g3 (c + s) - g3 (c - s)))).
    - rewrite Rplus_0_r, Rminus_0_r. ring.
    - intros x Hx. destruct (H _ (Rt x Hx)) as (_ & _ & R1 & R2 & _). destruct (H _ (Lt x Hx)) as (_ & _ & L1 & L2 & _).
      eapply D_eq; [apply D_minus; [apply D_scal, D_minus; [apply D_right, R1|apply D_left, L1]|apply D_mult; [apply D_scal, D_id|apply D_plus; [apply D_right, R2|apply D_left, L2]]]|]. cbv beta. field.
    - intros x Hx. rewrite Rabs_mult. replace (Rabs (- / 3 * x)) with (/ 3 * x).
      + specialize (B3 x Hx). replace (2 / 3 * M * x ^ 2) with (/ 3 * x * (2 * M * x)) by field. apply Rmult_le_compat_l; [lra|exact B3].
      + replace (- / 3 * x) with (- (/ 3 * x)) by ring. rewrite Rabs_Ropp, Rabs_right; lra. }
  assert (P1 : forall s, 0 <= s <= S -> Rabs (g (c + s) + g (c - s) - / 3 * (g (c - s) + 4 * g c + g (c + s)) - / 3 * s * (g1 (c + s) - g1 (c - s))) <= (2 / 3 * M / INR 3) / INR 4 * s ^ 4).
  { apply (grow _ (fun s => / 3 * (g1 (c + s) - g1 (c - s)) - / 3 * s * (g2 (c + s) + g2 (c - s)))); auto.
    - rewrite Rplus_0_r, Rminus_0_r. field.
    - intros x Hx. destruct (H _ (Rt x Hx)) as (_ & R0 & R1 & _). destruct (H _ (Lt x Hx)) as (_ & L0 & L1 & _).
      eapply D_eq; [apply D_minus; [apply D_minus; [apply D_plus; [apply D_right, R0|apply D_left, L0]|apply D_scal, D_plus; [apply D_plus; [apply D_left, L0|apply D_const]|apply D_right, R0]]|
        apply D_mult; [apply D_scal, D_id|apply D_minus; [apply D_right, R1|apply D_left, L1]]]|]. cbv beta. field. }
  assert (P0 : forall s, 0 <= s <= S -> Rabs (G (c + s) - G (c - s) - / 3 * s * (g (c - s) + 4 * g c + g (c + s))) <= (2 / 3 * M / INR 3 / INR 4) / INR 5 * s ^ 5).
  { apply (grow _ (fun s => g (c + s) + g (c - s) - / 3 * (g (c - s) + 4 * g c + g (c + s)) - / 3 * s * (g1 (c + s) - g1 (c - s)))); auto.
    - rewrite Rplus_0_r, Rminus_0_r. ring.
    - intros x Hx. destruct (H _ (Rt x Hx)) as (R0 & R1 & _). destruct (H _ (Lt x Hx)) as (L0 & L1 & _).
      eapply D_eq; [apply D_minus; [apply D_minus; [apply D_right, R0|apply D_left, L0]|
        apply D_mult; [apply D_scal, D_id|apply D_plus; [apply D_plus; [apply D_left, L1|apply D_const]|apply D_right, R1]]]|]. cbv beta. field. }
  specialize (P0 S ltac:(lra)). replace (S / 3) with (/ 3 * S) by field. eapply Rle_trans; [exact P0|]. right. f_equal. simpl INR. field.
Qed.
(** The rule on n pieces of length h from a. *)
Fixpoint pieces (g : R -> R) (a h : R) (n : nat) : R :=
  match n with O => 0 | S n => pieces g a h n + h / 6 * (g (a + INR n * h) + 4 * g (a + INR n * h + h / 2) + g (a + INR (S n) * h)) end.
Lemma simpson_pieces G g g1 g2 g3 g4 a h n M : 0 <= h ->
  (forall t, a <= t <= a + INR n * h -> D G t (g t) /\ D g t (g1 t) /\ D g1 t (g2 t) /\ D g2 t (g3 t) /\ D g3 t (g4 t) /\ Rabs (g4 t) <= M) ->
  Rabs (G (a + INR n * h) - G a - pieces g a h n) <= INR n * (M / 2880 * h ^ 5).
Proof.
  intros Hh. induction n as [|n IH]; intro H.
  - simpl. rewrite Rmult_0_l, Rplus_0_r. unfold Rminus. rewrite Rplus_opp_r. rewrite Ropp_0, Rplus_0_r, Rabs_R0. lra.
  - assert (PN : 0 <= INR n * h) by (apply Rmult_le_pos; [apply pos_INR|auto]).
    assert (IH' := IH ltac:(intros t Ht; apply H; rewrite S_INR; lra)). clear IH.
    pose proof (simpson G g g1 g2 g3 g4 (a + INR n * h + h / 2) (h / 2) M ltac:(lra)) as Sm.
    replace (a + INR n * h + h / 2 - h / 2) with (a + INR n * h) in Sm by field.
    replace (a + INR n * h + h / 2 + h / 2) with (a + INR (S n) * h) in Sm by (rewrite S_INR; field).
    assert (Sm' := Sm ltac:(intros t Ht; apply H; lra)). clear Sm. cbn [pieces].
    replace (G (a + INR (S n) * h) - G a - (pieces g a h n + h / 6 * (g (a + INR n * h) + 4 * g (a + INR n * h + h / 2) + g (a + INR (S n) * h))))
      with ((G (a + INR n * h) - G a - pieces g a h n) + (G (a + INR (S n) * h) - G (a + INR n * h) - h / 2 / 3 * (g (a + INR n * h) + 4 * g (a + INR n * h + h / 2) + g (a + INR (S n) * h)))) by field.
    eapply Rle_trans; [apply Rabs_triang|].
    replace (M / 90 * (h / 2) ^ 5) with (M / 2880 * h ^ 5) in Sm' by field.
    assert (E : INR (S n) * (M / 2880 * h ^ 5) = INR n * (M / 2880 * h ^ 5) + M / 2880 * h ^ 5) by (rewrite S_INR; ring). rewrite E. apply Rplus_le_compat; assumption.
Qed.
