(** A concrete solver for symmetric positive definite systems: the hypothesis put on
    Eigen's LDLT can be met. *)
From Coq Require Import Reals String ZArith Bool Arith Lia Lra List.
From Verif Require Import Res ResP Mat Spec SpecDyn TreeP DynP.
Import ListNotations.
Open Scope R_scope.

Fixpoint fsolve (n : nat) (H : nat -> nat -> R) (b : nat -> R) : nat -> R :=
  match n with
  | O => fun _ => 0
  | S n =>
      let a := H n n in
      let x := fsolve n (fun i j => H i j - H i n * H n j / a) (fun i => b i - H i n * b n / a) in
      fun r => if (r =? n)%nat then (b n - rsum n (fun j => H n j * x j)) / a else x r
  end.
Definition lsolve (M : Mat) (b : list R) : list R :=
  map (fsolve (length b) (ment M) (fun i => nth i b 0)) (seq 0 (length b)).

Lemma quad_S n H x : (forall r c, (r < S n)%nat -> (c < S n)%nat -> H r c = H c r) ->
  quad (S n) H x x = quad n H x x + 2 * x n * rsum n (fun j => H n j * x j) + x n * x n * H n n.
Proof.
  intros Sy. unfold quad. cbn [rsum].
  replace (rsum n (fun r => x r * (rsum n (fun c => H r c * x c) + H r n * x n)))
    with (rsum n (fun r => x r * rsum n (fun c => H r c * x c)) + x n * rsum n (fun j => H n j * x j)).
  - ring.
  - rewrite <- rsum_scal, <- rsum_plus. apply rsum_ext. intros r Hr. rewrite (Sy r n) by lia. ring.
Qed.
Lemma quad_schur n H x a : (forall r c, (r < S n)%nat -> (c < S n)%nat -> H r c = H c r) -> a <> 0 ->
  quad n (fun i j => H i j - H i n * H n j / a) x x =
  quad n H x x - rsum n (fun j => H n j * x j) * rsum n (fun j => H n j * x j) / a.
Proof.
  intros Sy A. unfold quad.
  transitivity (rsum n (fun r => x r * rsum n (fun c => H r c * x c) - (rsum n (fun j => H n j * x j) / a) * (H n r * x r))).
  - apply rsum_ext. intros r Hr.
    replace (rsum n (fun c => (H r c - H r n * H n c / a) * x c)) with
      (rsum n (fun c => H r c * x c) - (H r n / a) * rsum n (fun c => H n c * x c)).
    + rewrite (Sy r n) by lia. field. auto.
    + rewrite <- rsum_scal, <- rsum_minus. apply rsum_ext. intros. field. auto.
  - rewrite rsum_minus. f_equal. rewrite rsum_scal. field. auto.
Qed.

Lemma spd_last n H : spd (S n) H -> 0 < H n n.
Proof.
  intros (Sy & P & D). set (e := fun r => if (r =? n)%nat then 1 else 0).
  assert (Q : quad (S n) H e e = H n n).
  { rewrite quad_S by auto. unfold quad, e. rewrite (rsum_eq0 n (fun r => _ * _)), (rsum_eq0 n (fun j => _ * _)).
    - rewrite Nat.eqb_refl. ring.
    - intros j Hj. destruct (Nat.eqb_spec j n); [lia|ring].
    - intros j Hj. destruct (Nat.eqb_spec j n); [lia|ring]. }
  destruct (P e) as [G|G]; rewrite Q in G; auto. exfalso.
  specialize (D e ltac:(congruence) n ltac:(lia)). unfold e in D. rewrite Nat.eqb_refl in D. lra.
Qed.
Lemma spd_schur n H : spd (S n) H -> spd n (fun i j => H i j - H i n * H n j / H n n).
Proof.
  intros S. pose proof (spd_last n H S) as A. destruct S as (Sy & P & D).
  assert (K : forall x, exists y, (forall r, (r < n)%nat -> y r = x r) /\
     quad n (fun i j => H i j - H i n * H n j / H n n) x x = quad (S n) H y y).
  { intros x. set (s := rsum n (fun j => H n j * x j)).
    exists (fun r => if (r =? n)%nat then - s / H n n else x r). split.
    - intros r Hr. destruct (Nat.eqb_spec r n); [lia|auto].
    - rewrite quad_S, (quad_schur n H x (H n n)) by (auto; lra). rewrite Nat.eqb_refl.
      assert (E1 : forall f : nat -> R, rsum n (fun j => f j * (if (j =? n)%nat then - s / H n n else x j)) = rsum n (fun j => f j * x j)).
      { intros f. apply rsum_ext. intros j Hj. destruct (Nat.eqb_spec j n); [lia|auto]. }
      rewrite E1. fold s. unfold quad at 2.
      replace (rsum n (fun r => (if (r =? n)%nat then - s / H n n else x r) * rsum n (fun c => H r c * (if (c =? n)%nat then - s / H n n else x c))))
        with (quad n H x x); [field; lra|].
      unfold quad. apply rsum_ext. intros r Hr. rewrite E1. destruct (Nat.eqb_spec r n); [lia|auto]. }
  repeat split.
  - intros r c Hr Hc. rewrite (Sy r c), (Sy r n), (Sy c n) by lia. field. lra.
  - intros x. destruct (K x) as (y & _ & ->). apply P.
  - intros x E r Hr. destruct (K x) as (y & Y & E'). rewrite <- (Y r Hr). rewrite E' in E. apply (D y E r). lia.
Qed.
Lemma fsolve_ok n : forall H b, spd n H -> forall r, (r < n)%nat -> rsum n (fun c => H r c * fsolve n H b c) = b r.
Proof.
  induction n; intros H b S r Hr; [lia|]. pose proof (spd_last n H S) as A. pose proof (spd_schur n H S) as S'.
  specialize (IHn _ (fun i => b i - H i n * b n / H n n) S').
  cbn [fsolve]. set (x := fsolve n _ _) in *. cbn [rsum]. rewrite Nat.eqb_refl.
  set (s := rsum n (fun j => H n j * x j)).
  assert (E1 : forall (f : nat -> R) k, rsum n (fun j => f j * (if (j =? n)%nat then k else x j)) = rsum n (fun j => f j * x j)).
  { intros f k. apply rsum_ext. intros j Hj. destruct (Nat.eqb_spec j n); [lia|auto]. }
  rewrite E1. destruct (Nat.eq_dec r n) as [->|N].
  - fold s. field. lra.
  - specialize (IHn r ltac:(lia)). cbv beta in IHn.
    assert (E2 : rsum n (fun c => (H r c - H r n * H n c / H n n) * x c) = rsum n (fun c => H r c * x c) - (H r n / H n n) * s).
    { unfold s. rewrite <- rsum_scal, <- rsum_minus. apply rsum_ext. intros. field. lra. }
    rewrite E2 in IHn. apply (Rplus_eq_reg_r (- (H r n / H n n * s))).
    replace (rsum n (fun j => H r j * x j) + H r n * ((b n - s) / H n n) + - (H r n / H n n * s))
      with ((rsum n (fun c => H r c * x c) - (H r n / H n n) * s) + H r n * (b n - s) / H n n) by (field; lra).
    rewrite IHn. field. lra.
Qed.
Lemma lsolve_ok : solver_ok lsolve.
Proof.
  intros M b R1 C1 S. unfold lsolve. rewrite map_length, seq_length. split; auto. intros r Hr.
  unfold mat_vec. rewrite C1. rewrite <- (fsolve_ok (length b) (ment M) (fun i => nth i b 0) S r Hr).
  apply rsum_ext. intros j Hj. rewrite nth_map_seq by auto. auto.
Qed.
