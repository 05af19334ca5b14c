(** Lemmas about the vocabulary of [Res]. *)
From Coq Require Import List Arith ZArith Lia.
From Verif Require Import Res.
Import ListNotations.

Lemma upd_length {A} (l : list A) i a : length (upd l i a) = length l.
Proof. revert i; induction l; destruct i; simpl; auto. Qed.

Lemma nth_error_upd_eq {A} (l : list A) i a :
  i < length l -> nth_error (upd l i a) i = Some a.
Proof. revert i; induction l; destruct i; simpl; intros; try lia; auto. apply IHl; lia. Qed.

Lemma nth_error_upd_neq {A} (l : list A) i j a :
  i <> j -> nth_error (upd l i a) j = nth_error l j.
Proof.
  revert i j; induction l; destruct i, j; simpl; intros; auto; try congruence.
Qed.

Lemma nth_upd_eq {A} (l : list A) i a d : i < length l -> nth i (upd l i a) d = a.
Proof. intros. apply nth_error_nth. now apply nth_error_upd_eq. Qed.

Lemma nth_upd_neq {A} (l : list A) i j a d : i <> j -> nth j (upd l i a) d = nth j l d.
Proof.
  revert i j; induction l; destruct i, j; simpl; intros; auto; try congruence.
Qed.

Lemma get_nth {A} (l : list A) i d : i < length l -> get l i = Ok (nth i l d).
Proof.
  unfold get. intros. destruct (nth_error l i) eqn:E.
  - now rewrite (nth_error_nth _ _ d E).
  - apply nth_error_None in E. lia.
Qed.

Lemma get_Ok {A} (l : list A) i a : get l i = Ok a <-> nth_error l i = Some a.
Proof. unfold get. destruct (nth_error l i); split; intros; congruence. Qed.

Lemma get_UB {A} (l : list A) i : length l <= i -> get l i = UB.
Proof. unfold get. intros. apply nth_error_None in H. now rewrite H. Qed.

Lemma get_upd_eq {A} (l : list A) i a : i < length l -> get (upd l i a) i = Ok a.
Proof. intros. apply get_Ok. now apply nth_error_upd_eq. Qed.

Lemma get_upd_neq {A} (l : list A) i j a : i <> j -> get (upd l i a) j = get l j.
Proof. intros. unfold get. now rewrite nth_error_upd_neq. Qed.

Lemma set_ok {A} (l : list A) i a : i < length l -> set l i a = Ok (upd l i a).
Proof. unfold set. intros. destruct (Nat.ltb_spec i (length l)); [auto|lia]. Qed.

Lemma set_UB {A} (l : list A) i a : length l <= i -> set l i a = UB.
Proof. unfold set. intros. destruct (Nat.ltb_spec i (length l)); [lia|auto]. Qed.

Lemma getz_nat {A} (l : list A) i : getz l (Z.of_nat i) = get l i.
Proof. unfold getz. destruct (Z.ltb_spec (Z.of_nat i) 0); [lia|]. now rewrite Nat2Z.id. Qed.

Lemma setz_nat {A} (l : list A) i a : setz l (Z.of_nat i) a = set l i a.
Proof. unfold setz. destruct (Z.ltb_spec (Z.of_nat i) 0); [lia|]. now rewrite Nat2Z.id. Qed.

Lemma bind_Ok {A B} (r : res A) (f : A -> res B) b :
  bind r f = Ok b -> exists a, r = Ok a /\ f a = Ok b.
Proof. destruct r; simpl; intros; try discriminate; eauto. Qed.

Lemma bind_assoc {A B C} (r : res A) (f : A -> res B) (g : B -> res C) :
  bind (bind r f) g = bind r (fun a => bind (f a) g).
Proof. destruct r; reflexivity. Qed.

(** Invariant rule for an ascending loop. *)
Lemma for_from_inv {St} (P : nat -> St -> Prop) (f : nat -> St -> res St) :
  forall n lo s,
  P lo s ->
  (forall i s, lo <= i < lo + n -> P i s -> exists s', f i s = Ok s' /\ P (S i) s') ->
  exists s', for_from lo n f s = Ok s' /\ P (lo + n) s'.
Proof.
  induction n; intros lo s H0 Hs; simpl.
  - exists s. rewrite Nat.add_0_r. auto.
  - destruct (Hs lo s) as (s' & E & H1); [lia|auto|].
    rewrite E. simpl.
    destruct (IHn (S lo) s') as (s'' & E' & H2); auto.
    + intros. apply Hs; auto; lia.
    + exists s''. split; auto. now rewrite <- Nat.add_succ_comm.
Qed.

Lemma for_up_inv {St} (P : nat -> St -> Prop) (f : nat -> St -> res St) n s :
  P 0 s ->
  (forall i s, i < n -> P i s -> exists s', f i s = Ok s' /\ P (S i) s') ->
  exists s', for_up n f s = Ok s' /\ P n s'.
Proof. intros. apply (for_from_inv P); auto. intros; apply H0; auto; lia. Qed.

(** Invariant rule for a descending loop: [P i s] means that indices [>= i] are done. *)
Lemma for_down_inv {St} (P : nat -> St -> Prop) (f : nat -> St -> res St) :
  forall n s,
  P n s ->
  (forall i s, i < n -> P (S i) s -> exists s', f i s = Ok s' /\ P i s') ->
  exists s', for_down n f s = Ok s' /\ P 0 s'.
Proof.
  induction n; intros s H0 Hs; simpl.
  - eauto.
  - destruct (Hs n s) as (s' & E & H1); auto.
    rewrite E; simpl. apply IHn; auto.
Qed.

Lemma for_each_inv {A St} (P : list A -> St -> Prop) (f : A -> St -> res St) :
  forall l done s,
  P done s ->
  (forall d a r s, done ++ l = d ++ a :: r -> P d s -> exists s', f a s = Ok s' /\ P (d ++ [a]) s') ->
  exists s', for_each l f s = Ok s' /\ P (done ++ l) s'.
Proof.
  induction l; intros dn s H0 Hs; simpl.
  - exists s. now rewrite app_nil_r.
  - destruct (Hs dn a l s) as (s' & E & H1); auto.
    rewrite E; simpl.
    destruct (IHl (dn ++ [a]) s') as (s'' & E' & H2); auto.
    + rewrite <- app_assoc. simpl. exact Hs.
    + exists s''. split; auto. rewrite <- app_assoc in H2. exact H2.
Qed.

(** Partial-correctness variants: if the loop ends normally, the invariant holds. *)
Lemma for_up_inv_partial {St} (P : nat -> St -> Prop) (f : nat -> St -> res St) n s s' :
  P 0 s ->
  (forall i s s', i < n -> P i s -> f i s = Ok s' -> P (S i) s') ->
  for_up n f s = Ok s' -> P n s'.
Proof.
  unfold for_up. intros H0 Hs.
  assert (G : forall m lo s, P lo s -> lo + m = n -> for_from lo m f s = Ok s' -> P n s').
  { induction m; simpl; intros lo s1 H1 E H.
    - injection H as <-. now rewrite <- E, Nat.add_0_r.
    - apply bind_Ok in H. destruct H as (s2 & E2 & H).
      apply (IHm (S lo) s2); auto; try lia. eapply Hs; eauto; lia. }
  intros. eapply (G n 0 s); eauto.
Qed.

Lemma for_down_inv_partial {St} (P : nat -> St -> Prop) (f : nat -> St -> res St) :
  forall n s s',
  P n s ->
  (forall i s s', i < n -> P (S i) s -> f i s = Ok s' -> P i s') ->
  for_down n f s = Ok s' -> P 0 s'.
Proof.
  induction n; simpl; intros s s' H0 Hs H.
  - congruence.
  - apply bind_Ok in H. destruct H as (s1 & E & H). eapply IHn; eauto.
Qed.

Lemma for_up_ext {St} (f g : nat -> St -> res St) n s :
  (forall i s, i < n -> f i s = g i s) -> for_up n f s = for_up n g s.
Proof.
  unfold for_up. intros.
  assert (G : forall m lo s, lo + m <= n -> for_from lo m f s = for_from lo m g s).
  { induction m; simpl; intros; auto. rewrite H by lia.
    destruct (g lo s0); simpl; auto. apply IHm; lia. }
  apply G; lia.
Qed.

Lemma map_res_Ok {A B} (f : A -> res B) l bs :
  map_res f l = Ok bs -> length bs = length l /\
  forall i a, nth_error l i = Some a -> exists b, nth_error bs i = Some b /\ f a = Ok b.
Proof.
  revert bs; induction l; simpl; intros bs H.
  - inversion H; subst. split; auto. intros i a; destruct i; simpl; discriminate.
  - apply bind_Ok in H. destruct H as (b & Eb & H).
    apply bind_Ok in H. destruct H as (bs' & Ebs & H). inversion H; subst.
    destruct (IHl _ Ebs) as [L N]. split; simpl; [lia|].
    intros [|i] a' Ha; simpl in *.
    + inversion Ha; subst. eauto.
    + auto.
Qed.

Lemma map_res_all_Ok {A B} (f : A -> res B) (g : A -> B) l :
  (forall a, In a l -> f a = Ok (g a)) -> map_res f l = Ok (map g l).
Proof.
  induction l; simpl; intros; auto.
  rewrite H by auto. simpl. rewrite IHl by auto. reflexivity.
Qed.

(** Extensionality of lists. *)
Lemma list_ext {A} (l l' : list A) :
  length l = length l' ->
  (forall i, i < length l -> nth_error l i = nth_error l' i) -> l = l'.
Proof.
  revert l'; induction l; destruct l'; simpl; intros; try discriminate; auto.
  f_equal.
  - specialize (H0 0). simpl in H0. assert (Some a = Some a0) by (apply H0; lia). congruence.
  - apply IHl. lia. intros. apply (H0 (S i)). lia.
Qed.

Lemma list_ext_nth {A} (l l' : list A) d :
  length l = length l' ->
  (forall i, i < length l -> nth i l d = nth i l' d) -> l = l'.
Proof.
  intros. apply list_ext; auto. intros.
  rewrite (nth_error_nth' l d) by lia. rewrite (nth_error_nth' l' d) by lia.
  f_equal; auto.
Qed.
