(** paramToVector / vectorToParam. *)
From Coq Require Import Reals String ZArith Bool Arith Lia Lra List.
From Verif Require Import Res ResP Vec Sva Mat JointM MultiBodyM Spec.
Import ListNotations.
Open Scope R_scope.

Lemma upd_app_l {A} (l r : list A) i a : (i < length l)%nat -> upd (l ++ r) i a = upd l i a ++ r.
Proof. revert i; induction l; intros i H; simpl in *; [lia|]. destruct i; simpl; auto. now rewrite IHl by lia. Qed.
Lemma upd_mid {A} (l r : list A) x a : upd (l ++ x :: r) (length l) a = l ++ a :: r.
Proof. induction l; simpl; auto. now rewrite IHl. Qed.

Lemma skipn_skipn {A} n k (l : list A) : skipn n (skipn k l) = skipn (n + k) l.
Proof.
  revert l; induction k; intros l; [now rewrite Nat.add_0_r|]. rewrite Nat.add_succ_r.
  destruct l; simpl; auto. now rewrite skipn_nil.
Qed.

Lemma p2v_inner inV : forall (done rest : list R),
  for_each inV (fun d s => e' <- set (snd s) (fst s) d ;; Ok (S (fst s), e')) (length done, done ++ rest) =
  if (length inV <=? length rest)%nat
  then Ok (length (done ++ inV), (done ++ inV) ++ skipn (length inV) rest) else UB.
Proof.
  induction inV; intros done rest; simpl.
  - rewrite !app_nil_r. auto.
  - unfold set. rewrite app_length. destruct rest as [|x rest]; simpl length.
    + rewrite Nat.add_0_r, Nat.ltb_irrefl. auto.
    + destruct (Nat.ltb_spec (length done) (length done + S (length rest))); [|lia]. cbn [bind fst snd].
      rewrite upd_mid. replace (S (length done)) with (length (done ++ [a])) by (rewrite app_length; simpl; lia).
      replace (done ++ a :: rest) with ((done ++ [a]) ++ rest) by (now rewrite <- app_assoc).
      rewrite IHinV. rewrite <- app_assoc. simpl. auto.
Qed.
Lemma p2v_outer v : forall (done rest : list R),
  for_each v (fun inV s => for_each inV (fun d s => e' <- set (snd s) (fst s) d ;; Ok (S (fst s), e')) s)
    (length done, done ++ rest) =
  if (length (concat v) <=? length rest)%nat
  then Ok (length (done ++ concat v), (done ++ concat v) ++ skipn (length (concat v)) rest) else UB.
Proof.
  induction v; intros done rest; cbn [for_each concat].
  - rewrite !app_nil_r. auto.
  - rewrite p2v_inner. rewrite (app_length a). destruct (Nat.leb_spec (length a) (length rest)); cbn [bind].
    + rewrite IHv. rewrite skipn_length. rewrite skipn_skipn.
      replace (length a + length (concat v))%nat with (length (concat v) + length a)%nat by lia.
      destruct (Nat.leb_spec (length (concat v)) (length rest - length a)),
               (Nat.leb_spec (length (concat v) + length a) (length rest)); try lia; auto.
      now rewrite <- !app_assoc.
    + destruct (Nat.leb_spec (length a + length (concat v)) (length rest)); [lia|]. auto.
Qed.
Lemma paramToVector_eq v e : paramToVector v e =
  if (length (concat v) <=? length e)%nat then Ok (concat v ++ skipn (length (concat v)) e) else UB.
Proof.
  unfold paramToVector. pose proof (p2v_outer v [] e) as H. simpl in H. rewrite H.
  destruct (_ <=? _)%nat; auto.
Qed.
Lemma paramToVector_ok v e : length (concat v) = length e -> paramToVector v e = Ok (concat v).
Proof.
  intros H. rewrite paramToVector_eq, H, Nat.leb_refl, skipn_all. now rewrite app_nil_r.
Qed.

Lemma fill_one_eq e inV : forall pos, fill_one e pos inV =
  if (pos + length inV <=? length e)%nat || (length inV =? 0)%nat
  then Ok ((pos + length inV)%nat, firstn (length inV) (skipn pos e)) else UB.
Proof.
  induction inV; intros pos; simpl.
  - rewrite orb_true_r. now rewrite Nat.add_0_r.
  - rewrite orb_false_r. unfold get. destruct (nth_error e pos) eqn:N; cbn [bind].
    + rewrite IHinV. assert (L : (pos < length e)%nat) by (apply nth_error_Some; congruence).
      replace (pos + S (length inV))%nat with (S pos + length inV)%nat by lia.
      assert (E : skipn pos e = r :: skipn (S pos) e).
      { clear -N. revert pos N; induction e; intros [|p] N; simpl in *; try discriminate; [now injection N as ->|].
        now rewrite IHe by auto. }
      destruct (Nat.leb_spec (S pos + length inV) (length e)); cbn [orb bind].
      * now rewrite E.
      * destruct (Nat.eqb_spec (length inV) 0); [lia|]. auto.
    + apply nth_error_None in N. destruct (Nat.leb_spec (pos + S (length inV)) (length e)); [lia|]. auto.
Qed.

Lemma fill_all_ok e v : forall pos, (pos + length (concat v) <= length e)%nat ->
  exists v', fill_all e pos v = Ok v' /\ map (@length R) v' = map (@length R) v /\
    concat v' = firstn (length (concat v)) (skipn pos e).
Proof.
  induction v; intros pos L; simpl in *.
  - exists []. auto.
  - rewrite app_length in *. rewrite fill_one_eq.
    destruct (Nat.leb_spec (pos + length a) (length e)); [|lia]. cbn [orb bind fst snd].
    destruct (IHv (pos + length a)%nat) as (v' & E & M & C); [lia|]. rewrite E. cbn [bind].
    eexists; split; [reflexivity|]. simpl. rewrite M, C.
    rewrite firstn_length, skipn_length, Nat.min_l by lia. split; auto.
    rewrite (Nat.add_comm pos), <- skipn_skipn. set (l := skipn pos e).
    assert (G : (length a + length (concat v) <= length l)%nat) by (unfold l; rewrite skipn_length; lia).
    clearbody l. clear -G. revert G. generalize (length a). generalize (length (concat v)). intros n k.
    revert l. induction k; intros l G; simpl; auto. destruct l; simpl in *; [lia|]. now rewrite IHk by lia.
Qed.
Lemma vectorToParam_ok e v : length (concat v) = length e ->
  exists v', vectorToParam e v = Ok v' /\ map (@length R) v' = map (@length R) v /\ concat v' = e.
Proof.
  intros L. destruct (fill_all_ok e v 0) as (v' & E & M & C); [lia|]. exists v'. split; auto. split; auto.
  rewrite C. simpl. rewrite L. apply firstn_all.
Qed.
Lemma fill_all_UB e v : forall pos, (pos <= length e)%nat -> (length e < pos + length (concat v))%nat -> fill_all e pos v = UB.
Proof.
  induction v; intros pos L0 L; simpl in *; [lia|]. rewrite app_length in L.
  rewrite fill_one_eq. destruct (Nat.leb_spec (pos + length a) (length e)); cbn [orb bind fst snd].
  - rewrite IHv by lia. auto.
  - destruct (Nat.eqb_spec (length a) 0); [lia|]. auto.
Qed.

(** Two vectors of vectors with the same shape and the same concatenation are equal. *)
Lemma concat_inj {A} (u : list (list A)) : forall v, map (@length A) u = map (@length A) v -> concat u = concat v -> u = v.
Proof.
  induction u; intros [|b v] M C; try discriminate; auto. simpl in *. injection M as L M.
  assert (E : a = b /\ concat u = concat v).
  { clear -L C. revert b L C. induction a; intros [|y b] L C; simpl in *; try discriminate; auto.
    injection C as -> C. destruct (IHa b) as [-> ->]; auto. }
  destruct E as [-> E]. f_equal. auto.
Qed.

Lemma sum_sizes v nb0 : for_from 0 (length v) (fun i nb => vi <- get v i ;; Ok (nb + length vi)%nat) nb0 = Ok (nb0 + length (concat v : list R))%nat.
Proof.
  assert (G : forall w (u : list (list R)) nb, for_from (length u) (length w) (fun i nb => vi <- get (u ++ w) i ;; Ok (nb + length vi)%nat) nb
     = Ok (nb + length (concat w))%nat).
  { induction w; intros u nb; simpl; [now rewrite Nat.add_0_r|].
    rewrite (get_nth _ _ []) by (rewrite app_length; simpl; lia). rewrite nth_middle. cbn [bind].
    replace (u ++ a :: w) with ((u ++ [a]) ++ w) by (now rewrite <- app_assoc).
    replace (S (length u)) with (length (u ++ [a])) by (rewrite app_length; simpl; lia).
    rewrite IHw, app_length. f_equal. lia. }
  exact (G v [] nb0).
Qed.
