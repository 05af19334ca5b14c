(** Proofs about the readers and writers: strings, rotations, inertias, limits. *)
From Coq Require Import Reals String Ascii ZArith Bool Arith List Lra Lia.
From Verif Require Import Res ResP SMap Vec VecP Sva SvaP JointM JointP MultiBodyM GraphM ParserM YamlM SpecParser EulerP.
Import ListNotations.
Open Scope R_scope.

(** ** Strings. *)
Lemma prefix_starts p : forall s, prefix p s = true <-> starts_with p s.
Proof.
  induction p as [|a p IH]; intro s.
  - split; intro; [exists s; reflexivity|destruct s; reflexivity].
  - split.
    + destruct s as [|b s]; cbn; [discriminate|]. destruct (ascii_dec a b) as [->|]; [|discriminate]. intro H. apply IH in H. destruct H as (t & ->). now exists t.
    + intros (t & ->). cbn. destruct (ascii_dec a a) as [_|n]; [|congruence]. apply IH. now exists t.
Qed.
Lemma substring_all s : substring 0 (String.length s) s = s.
Proof. induction s; cbn; [reflexivity|]. now rewrite IHs. Qed.
Lemma rfind_0 s p : rfind s p 0 = if prefix p s then Some 0%nat else None.
Proof. cbn. rewrite Nat.sub_0_r, substring_all. reflexivity. Qed.
Lemma prefix_path_eq s : prefix_path s = if prefix "package://" s || prefix "file://" s then s else append "file://" s.
Proof. unfold prefix_path. rewrite !rfind_0. destruct (prefix "package://" s), (prefix "file://" s); reflexivity. Qed.
Lemma prefix_path_spec s :
  (starts_with "package://" s \/ starts_with "file://" s -> prefix_path s = s) /\
  (~ starts_with "package://" s -> ~ starts_with "file://" s -> prefix_path s = append "file://" s) /\
  prefix_path (prefix_path s) = prefix_path s.
Proof.
  rewrite (prefix_path_eq s). assert (F : prefix "file://" (append "file://" s) = true) by (apply prefix_starts; now exists s).
  pose proof (prefix_starts "package://" s) as P1. pose proof (prefix_starts "file://" s) as P2.
  destruct (prefix "package://" s) eqn:E1; [|destruct (prefix "file://" s) eqn:E2]; cbn [orb].
  - split; auto. split; [intro N; destruct N; now apply P1|]. now rewrite prefix_path_eq, E1.
  - split; auto. split; [intros _ N; destruct N; now apply P2|]. now rewrite prefix_path_eq, E1, E2.
  - split; [intros [H|H]; [apply P1 in H|apply P2 in H]; discriminate|]. split; auto. now rewrite prefix_path_eq, F, orb_true_r.
Qed.

Lemma append_assoc a b c : append (append a b) c = append a (append b c).
Proof. induction a; cbn; congruence. Qed.
Lemma append_length a b : String.length (append a b) = (String.length a + String.length b)%nat.
Proof. induction a; cbn; congruence. Qed.
Lemma substring_app a b n m : n = String.length a -> m = String.length b -> substring n m (append a b) = b.
Proof. intros -> ->. induction a; cbn; [apply substring_all|auto]. Qed.
Lemma split_at s n : (n <= String.length s)%nat -> s = append (substring 0 n s) (substring n (String.length s - n) s).
Proof.
  revert n. induction s as [|c s IH]; intros n L; [destruct n; [reflexivity|cbn in L; lia]|]. destruct n; [cbn; now rewrite substring_all|].
  cbn. f_equal. apply IH. cbn in L. lia.
Qed.
Lemma has_char_app c a b : has_char c (append a b) <-> has_char c a \/ has_char c b.
Proof. induction a as [|x a IH]; cbn; [tauto|]. rewrite IH. tauto. Qed.
(** Position of the last dot. *)
Lemma rfind_dot stem ext pos : ~ has_char "."%char ext -> (String.length stem <= pos)%nat ->
  rfind (append stem (append "." ext)) "." pos = Some (String.length stem).
Proof.
  intros N. remember (append stem (append "." ext)) as s eqn:Es. induction pos as [|p IH]; intro L.
  - destruct stem; [|cbn in L; lia]. subst s. rewrite rfind_0. cbn [append]. replace (prefix "." (String "." ext)) with true; [reflexivity|]. symmetry. apply prefix_starts. now exists ext.
  - cbn [rfind]. destruct (Nat.eq_dec (String.length stem) (S p)) as [Q|Q].
    + rewrite Es, substring_app; [|symmetry; exact Q|rewrite append_length, <- Q; lia]. replace (prefix "." (append "." ext)) with true; [now rewrite Q|]. symmetry. apply prefix_starts. now exists ext.
    + assert (F : prefix "." (substring (S p) (String.length s - S p) s) = false); [|rewrite F; apply IH; lia].
      destruct (prefix "." _) eqn:E; auto. exfalso. apply prefix_starts in E. destruct E as (t & E).
      destruct (Nat.le_gt_cases (String.length s) (S p)) as [G|G].
      * replace (String.length s - S p)%nat with 0%nat in E by lia. assert (Z : substring (S p) 0 s = EmptyString).
        { clear. generalize (S p). induction s; intros [|n]; cbn; auto. } rewrite Z in E. discriminate.
      * pose proof (split_at s (S p) ltac:(lia)) as SP. rewrite E in SP. rewrite Es in SP at 1.
        assert (LL : String.length (substring 0 (S p) s) = S p).
        { pose proof (f_equal String.length (split_at s (S p) ltac:(lia))) as X. rewrite append_length in X.
          assert (ZZ : forall n m u, (String.length (substring n m u) <= m)%nat). { clear. intros n m u; revert n m. induction u; intros [|n] [|m]; cbn; try lia. - specialize (IHu 0%nat m). lia. - apply IHu. - apply IHu. }
          pose proof (ZZ 0%nat (S p) s). pose proof (ZZ (S p) (String.length s - S p)%nat s). lia. }
        (* the dot at position S p lies in ext *)
        apply N. clear - SP LL L Q. revert SP LL L Q. generalize (substring 0 (S p) s) as pre. intros pre SP LL L Q.
        assert (Lt : (String.length stem < String.length pre)%nat) by lia. clear LL L Q p s.
        revert pre SP Lt. induction stem as [|x stem IH]; intros pre SP Lt.
        -- destruct pre as [|y pre]; [cbn in Lt; lia|]. cbn in SP. injection SP as _ ->. apply has_char_app. right. cbn. now left.
        -- destruct pre as [|y pre]; [cbn in Lt; lia|]. cbn in SP. injection SP as _ SP. apply (IH pre SP). cbn in Lt. lia.
Qed.
Lemma rfind_none s pos : ~ has_char "."%char s -> rfind s "." pos = None.
Proof.
  intro N. induction pos as [|p IH].
  - rewrite rfind_0. destruct (prefix "." s) eqn:E; auto. apply prefix_starts in E. destruct E as (t & ->). destruct N. cbn. now left.
  - cbn [rfind]. destruct (prefix "." _) eqn:E; [|exact IH]. exfalso. apply prefix_starts in E. destruct E as (t & E).
    destruct (Nat.le_gt_cases (S p) (String.length s)) as [G|G].
    + apply N. rewrite (split_at s (S p) G), E. apply has_char_app. right. cbn. now left.
    + replace (String.length s - S p)%nat with 0%nat in E by lia. assert (Z : substring (S p) 0 s = EmptyString). { clear. generalize (S p). induction s; intros [|n]; cbn; auto. } rewrite Z in E. discriminate.
Qed.
Lemma from_file_spec {A} (fy fu : string -> res A) path ext : extension path ext ->
  from_file fy fu path = if String.eqb ext "yaml" || String.eqb ext "yml" then fy path
                         else if String.eqb ext "urdf" then fu path else Throw RuntimeError.
Proof.
  intros (N & [->|(stem & ->)]); unfold from_file.
  - rewrite rfind_none by auto. rewrite Nat.sub_0_r, substring_all. reflexivity.
  - rewrite rfind_dot; [|exact N|rewrite append_length; lia].
    assert (Q : substring (S (String.length stem)) (String.length (append stem (append "." ext)) - S (String.length stem)) (append stem (append "." ext)) = ext).
    { replace (append stem (append "." ext)) with (append (append stem ".") ext) by (rewrite append_assoc; reflexivity).
      apply substring_app; rewrite ?append_length; cbn; lia. }
    rewrite Q. reflexivity.
Qed.
Lemma extension_exists path : exists ext, extension path ext.
Proof.
  induction path as [|c s (e & N & [H|(st & H)])].
  - exists EmptyString. split; [cbn; tauto|now left].
  - destruct (ascii_dec c "."%char) as [->|D].
    + exists e. split; auto. right. exists EmptyString. cbn. now rewrite H.
    + exists (String c s). split; [|now left]. cbn. intros [X|X]; [congruence|]. now subst.
  - exists e. split; auto. right. exists (String c st). cbn. now rewrite H.
Qed.

