(** Two runs side by side, and the Jacobian object. *)
From Coq Require Import Reals String ZArith Bool Arith List Lia Lra FunctionalExtensionality.
From Verif Require Import Res ResP SMap Vec Sva Mat JointM MultiBodyM JacM Spec SpecDyn SpecJac SpecReuse.
Import ListNotations.
Open Scope nat_scope.

Definition rel {A B} (Q : A -> B -> Prop) (x : res A) (y : res B) : Prop :=
  match x, y with
  | Ok a, Ok b => Q a b
  | Throw e, Throw e' => e = e'
  | UB, UB => True
  | Diverge, Diverge => True
  | _, _ => False
  end.
Lemma rel_bind {A B C D} (P : A -> B -> Prop) (Q : C -> D -> Prop) x y f g :
  rel P x y -> (forall a b, P a b -> rel Q (f a) (g b)) -> rel Q (bind x f) (bind y g).
Proof. destruct x, y; simpl; intros H K; auto; contradiction. Qed.
Lemma rel_same {A} (Q : A -> A -> Prop) x : (forall a, x = Ok a -> Q a a) -> rel Q x x.
Proof. destruct x; simpl; auto. Qed.
Lemma rel_bs {A C D} (Q : C -> D -> Prop) (x : res A) f g :
  (forall a, x = Ok a -> rel Q (f a) (g a)) -> rel Q (bind x f) (bind x g).
Proof. destruct x; simpl; auto. Qed.
Lemma rel_mono {A B} (P Q : A -> B -> Prop) x y : rel P x y -> (forall a b, P a b -> Q a b) -> rel Q x y.
Proof. destruct x, y; simpl; auto. Qed.
Lemma rel_seen {A B} (f : A -> B) x y : rel (fun a b => f a = f b) x y -> seen f x = seen f y.
Proof. destruct x, y; simpl; intros; subst; auto; try contradiction; congruence. Qed.
Lemma rel_for_up {St St'} (P : nat -> St -> St' -> Prop) f g n s s' :
  P 0 s s' -> (forall i s s', i < n -> P i s s' -> rel (P (S i)) (f i s) (g i s')) ->
  rel (P n) (for_up n f s) (for_up n g s').
Proof.
  unfold for_up. intros H0 H.
  assert (G : forall k lo s s', P lo s s' -> lo + k = n -> rel (P n) (for_from lo k f s) (for_from lo k g s')).
  { induction k; simpl; intros lo a b Hab E.
    - rewrite Nat.add_0_r in E. now subst.
    - eapply rel_bind; [apply H; [lia|exact Hab]|]. intros. apply IHk; auto. lia. }
  apply G; auto.
Qed.
Lemma rel_for_down {St St'} (P : nat -> St -> St' -> Prop) f g n s s' :
  P n s s' -> (forall i s s', i < n -> P (S i) s s' -> rel (P i) (f i s) (g i s')) ->
  rel (P 0) (for_down n f s) (for_down n g s').
Proof.
  revert s s'. induction n; simpl; intros s s' H0 H; auto.
  eapply rel_bind; [apply H; eauto|]. intros. apply IHn; auto.
Qed.
Lemma rel_for_each {A St St'} (P : list A -> St -> St' -> Prop) f g l : forall dn s s',
  P dn s s' -> (forall d a s s', In a l -> P d s s' -> rel (P (d ++ [a])) (f a s) (g a s')) ->
  rel (P (dn ++ l)) (for_each l f s) (for_each l g s').
Proof.
  induction l; simpl; intros dn s s' H0 H; [now rewrite app_nil_r|].
  eapply rel_bind; [apply H; eauto|]. intros x y Hxy.
  replace (dn ++ a :: l) with ((dn ++ [a]) ++ l) by (rewrite <- app_assoc; reflexivity). apply IHl; auto.
Qed.

(** Two lists of n elements that agree where P holds. *)
Definition agr {A} (n : nat) (P : nat -> Prop) (l l' : list A) : Prop :=
  length l = n /\ length l' = n /\ forall k, P k -> nth_error l k = nth_error l' k.
Lemma agr_len {A} n (l l' : list A) : length l = n -> length l' = n -> agr n (fun _ => False) l l'.
Proof. now repeat split. Qed.
Lemma agr_refl {A} n P (l : list A) : length l = n -> agr n P l l.
Proof. now repeat split. Qed.
Lemma agr_get {A} n P (l l' : list A) k : agr n P l l' -> P k -> get l k = get l' k.
Proof. unfold get. intros (_ & _ & H) K. now rewrite H. Qed.
Lemma agr_getz {A} n P (l l' : list A) z : agr n P l l' -> ((0 <= z)%Z -> P (Z.to_nat z)) -> getz l z = getz l' z.
Proof. unfold getz. intros H K. destruct (Z.ltb_spec z 0); auto. eapply agr_get; eauto. Qed.
Lemma agr_weak {A} n (P Q : nat -> Prop) (l l' : list A) : agr n P l l' -> (forall k, k < n -> Q k -> P k) -> agr n Q l l'.
Proof.
  intros (H1 & H2 & H3) K. repeat split; auto. intros k Hk. destruct (Nat.lt_ge_cases k n); auto.
  rewrite (proj2 (nth_error_None l k)), (proj2 (nth_error_None l' k)); auto; lia.
Qed.
Lemma agr_eq {A} n (P : nat -> Prop) (l l' : list A) : agr n P l l' -> (forall k, k < n -> P k) -> l = l'.
Proof.
  intros H K. apply (agr_weak _ _ (fun _ => True)) in H; [|auto]. destruct H as (H1 & H2 & H3).
  apply list_ext; intros; auto. congruence.
Qed.
Lemma rel_set {A} n P (l l' : list A) i a : agr n P l l' -> rel (agr n (fun k => P k \/ k = i)) (set l i a) (set l' i a).
Proof.
  intros (H1 & H2 & H3). unfold set. rewrite H1, H2. destruct (Nat.ltb_spec i n); simpl; auto.
  repeat split; rewrite ?upd_length; auto. intros k Hk.
  destruct (Nat.eq_dec k i) as [->|Hne]; [rewrite !nth_error_upd_eq by congruence; auto|].
  rewrite !nth_error_upd_neq by auto. destruct Hk; [auto|contradiction].
Qed.
Lemma rel_setz {A} n P (l l' : list A) z a : agr n P l l' -> rel (agr n (fun k => P k \/ k = Z.to_nat z)) (setz l z a) (setz l' z a).
Proof. intros H. unfold setz. destruct (Z.ltb_spec z 0); simpl; auto. now apply rel_set. Qed.
Lemma rel_get_any {A} (l l' : list A) i : length l = length l' -> rel (fun a b => nth_error l i = Some a /\ nth_error l' i = Some b) (get l i) (get l' i).
Proof.
  unfold get. intros E. destruct (nth_error l i) eqn:H1, (nth_error l' i) eqn:H2; simpl; auto.
  - apply nth_error_None in H2. assert (i < length l) by (apply nth_error_Some; congruence). lia.
  - apply nth_error_None in H1. assert (i < length l') by (apply nth_error_Some; congruence). lia.
Qed.
Lemma upd_map {A B} (f : A -> B) l : forall i a, map f (upd l i a) = upd (map f l) i (f a).
Proof. induction l; destruct i; simpl; intros; auto. now rewrite IHl. Qed.
Lemma agr_set_map {A B} (f : A -> B) n P (l l' : list A) i a b : agr n P (map f l) (map f l') -> f a = f b ->
  rel (fun x y => agr n (fun k => P k \/ k = i) (map f x) (map f y)) (set l i a) (set l' i b).
Proof.
  intros H E. pose proof (rel_set n P _ _ i (f a) H) as G. destruct H as (H1 & H2 & H3). rewrite map_length in H1, H2.
  unfold set in *. rewrite !map_length in G. rewrite H1, H2 in *. destruct (Nat.ltb_spec i n); simpl in *; auto.
  rewrite !upd_map, <- E. exact G.
Qed.

(** ** Jacobian *)
Record jsame (mb : MultiBody) (J J' : Jac) : Prop := {
  js_path : jc_path J = jc_path J';
  js_sign : jc_sign J = jc_sign J';
  js_point : jc_point J = jc_point J';
  js_body : jc_body J = jc_body J';
  js_ref : jc_ref J = jc_ref J';
  js_jac : length (jc_jac J) = path_dof mb (jc_path J);
  js_jac' : length (jc_jac J') = path_dof mb (jc_path J);
  js_dot : length (jc_dot J) = path_dof mb (jc_path J);
  js_dot' : length (jc_dot J') = path_dof mb (jc_path J)
}.
Lemma js_refl mb J J' : jsame mb J J' -> jsame mb J J.
Proof. intros H. destruct H. constructor; auto. Qed.
Lemma js_sym mb J J' : jsame mb J J' -> jsame mb J' J.
Proof. intros H. destruct H. constructor; auto; try congruence. Qed.
Lemma js_trans mb J J' J'' : jsame mb J J' -> jsame mb J' J'' -> jsame mb J J''.
Proof. intros H K. destruct H, K. constructor; auto; try congruence. Qed.

Lemma path_dof_snoc mb path index i : nth_error path index = Some i ->
  path_dof mb (firstn (S index) path) = path_dof mb (firstn index path) + jdof (nth i (mb_joints mb) jd).
Proof.
  intros H. assert (E : firstn (S index) path = firstn index path ++ [i]).
  { revert index H. induction path; intros [|k] H; simpl in *; try discriminate; [congruence|]. f_equal. auto. }
  unfold path_dof. rewrite E, map_app, list_sum_app. simpl. lia.
Qed.
Lemma get_joint mb i j : get (mb_joints mb) i = Ok j -> j = nth i (mb_joints mb) jd.
Proof. intros H. apply get_Ok in H. symmetry. now apply nth_error_nth. Qed.
Definition cursor mb n (J : Jac) (index : nat) (s s' : nat * list SV) : Prop :=
  fst s = path_dof mb (firstn index (jc_path J)) /\ fst s' = fst s /\ agr n (fun k => k < fst s) (snd s) (snd s').
Lemma cursor_end mb n J s s' : cursor mb n J (length (jc_path J)) s s' -> n = path_dof mb (jc_path J) -> snd s = snd s' /\ length (snd s) = n.
Proof.
  intros (H1 & H2 & H3) E. rewrite firstn_all in H1. split; [|apply H3]. apply (agr_eq _ _ _ _ H3). intros. lia.
Qed.

Lemma jac_step_rel mb m X J J' n index s s' : jsame mb J J' -> cursor mb n J index s s' ->
  rel (cursor mb n J (S index)) (jac_step mb m X J index s) (jac_step mb m X J' index s').
Proof.
  intros HJ (H1 & H2 & H3). unfold jac_step. rewrite <- (js_path _ _ _ HJ), <- (js_sign _ _ _ HJ).
  apply rel_bs; intros i Ei. apply rel_bs; intros Xi _. apply rel_bs; intros j Ej.
  apply get_Ok in Ei. apply get_joint in Ej.
  eapply rel_bind.
  - apply (rel_for_up (fun d l l' => agr n (fun k => k < fst s + d) l l')).
    + apply (agr_weak _ _ _ _ _ H3). intros. lia.
    + intros d l l' Hd Hl. apply rel_bs; intros sg _. apply rel_bs; intros ms _. apply rel_bs; intros c _.
      rewrite H2. eapply rel_mono; [apply rel_set; exact Hl|]. intros a b Hab. apply (agr_weak _ _ _ _ _ Hab). intros. lia.
  - intros l l' Hl. cbn [rel]. unfold cursor. cbn [fst snd]. rewrite H2. split; [|split; [reflexivity|exact Hl]].
    rewrite (path_dof_snoc mb _ _ _ Ei), <- H1, <- Ej. reflexivity.
Qed.
Lemma jacobian__rel mb m X J J' : jsame mb J J' ->
  rel (fun a b => jsame mb a b /\ jsame mb J a /\ jc_jac a = jc_jac b /\ jc_dot a = jc_dot J /\ jc_dot b = jc_dot J') (jacobian_ mb m X J) (jacobian_ mb m X J').
Proof.
  intros HJ. unfold jacobian_. rewrite <- (js_path _ _ _ HJ).
  eapply rel_bind; [apply (rel_for_up (cursor mb (path_dof mb (jc_path J)) J))|].
  - repeat split; simpl; try apply HJ. intros; lia.
  - intros i s s' Hi Hs. now apply jac_step_rel.
  - intros s s' Hs. apply cursor_end in Hs; auto. destruct Hs as [Hs Hl]. simpl. destruct HJ.
    split; [|split]; [constructor; simpl; auto; congruence|constructor; simpl; auto; congruence|split; auto].
Qed.
Definition cols_out mb (J J' : Jac) (out : Jac -> list SV) (a b : Jac) : Prop := jsame mb a b /\ jsame mb J a /\ out a = out b.
Definition lin_out (J : Jac) : list V3 := map slin (jc_jac J).
Lemma to_ref_rel mb m J J' : jsame mb J J' -> jc_jac J = jc_jac J' ->
  rel (fun a b => jsame mb a b /\ jsame mb J a /\ jc_jac a = jc_jac b /\ jc_dot a = jc_dot J /\ jc_dot b = jc_dot J') (to_ref m J) (to_ref m J').
Proof.
  intros HJ E. unfold to_ref. rewrite <- (js_ref _ _ _ HJ). destruct (jc_ref J >? 0)%Z.
  - apply rel_bs; intros X _. simpl. rewrite E. destruct HJ.
    split; [|split; [|split; auto]]; constructor; simpl; auto; rewrite ?map_length; congruence.
  - simpl. split; [exact HJ|]. split; [eapply js_refl; eauto|auto].
Qed.
Definition both mb (J J' : Jac) (a b : Jac) : Prop :=
  jsame mb a b /\ jsame mb J a /\ jc_jac a = jc_jac b /\ jc_dot a = jc_dot J /\ jc_dot b = jc_dot J'.
Lemma then_ref mb m J J' x y : rel (both mb J J') x y -> rel (both mb J J') (bind x (to_ref m)) (bind y (to_ref m)).
Proof.
  intros H. eapply rel_bind; [exact H|]. intros a b (H1 & H2 & H3 & H4 & H5).
  eapply rel_mono; [apply (to_ref_rel mb); assumption|]. intros c d (K1 & K2 & K3 & K4 & K5). split; [exact K1|]. split; [exact (js_trans _ _ _ _ H2 K2)|]. repeat split; congruence.
Qed.
Lemma jacobian_rel mb m J J' : jsame mb J J' -> rel (both mb J J') (jacobian mb m J) (jacobian mb m J').
Proof.
  intros HJ. unfold jacobian. rewrite <- (js_path _ _ _ HJ), <- (js_point _ _ _ HJ).
  apply rel_bs; intros N _. apply rel_bs; intros X _. apply then_ref. now apply jacobian__rel.
Qed.
Lemma jacobian_at_rel mb m X J J' : jsame mb J J' -> rel (both mb J J') (jacobian_at mb m X J) (jacobian_at mb m X J').
Proof. intros HJ. unfold jacobian_at. apply then_ref. now apply jacobian__rel. Qed.
Lemma bodyJacobian_rel mb m J J' : jsame mb J J' -> rel (both mb J J') (bodyJacobian mb m J) (bodyJacobian mb m J').
Proof.
  intros HJ. unfold bodyJacobian. rewrite <- (js_path _ _ _ HJ), <- (js_point _ _ _ HJ).
  apply rel_bs; intros N _. apply rel_bs; intros X _. now apply jacobian__rel.
Qed.

Lemma dot_step_rel mb m col X V J J' n index s s' : jsame mb J J' -> cursor mb n J index s s' ->
  rel (cursor mb n J (S index)) (dot_step mb m col X V J index s) (dot_step mb m col X V J' index s').
Proof.
  intros HJ (H1 & H2 & H3). unfold dot_step. rewrite <- (js_path _ _ _ HJ).
  apply rel_bs; intros i Ei. apply rel_bs; intros Xi _. apply rel_bs; intros Vi _. apply rel_bs; intros j Ej.
  apply get_Ok in Ei. apply get_joint in Ej.
  eapply rel_mono; [apply (rel_for_up (fun d t t' => fst t = fst s + d /\ fst t' = fst t /\ agr n (fun k => k < fst t) (snd t) (snd t')))|].
  - repeat split; auto; try lia; apply H3.
  - intros d t t' Hd (K1 & K2 & K3). apply rel_bs; intros ms _. apply rel_bs; intros c _. rewrite K2.
    eapply rel_bind; [apply rel_set; exact K3|]. intros a b Hab. simpl. repeat split; try lia; try apply Hab.
    intros k Hk. apply Hab. lia.
  - intros t t' (K1 & K2 & K3). unfold cursor. rewrite (path_dof_snoc mb _ _ _ Ei), <- H1, <- Ej. auto.
Qed.
Definition both_dot mb (J J' : Jac) (a b : Jac) : Prop :=
  jsame mb a b /\ jsame mb J a /\ jc_dot a = jc_dot b /\ jc_jac a = jc_jac J /\ jc_jac b = jc_jac J'.
Lemma dot_loop_rel mb m col X V J J' : jsame mb J J' ->
  rel (both_dot mb J J')
      (s <- for_up (length (jc_path J)) (dot_step mb m col X V J) (0%nat, jc_dot J) ;; Ok (with_dot (snd s) J))
      (s <- for_up (length (jc_path J)) (dot_step mb m col X V J') (0%nat, jc_dot J') ;; Ok (with_dot (snd s) J')).
Proof.
  intros HJ. eapply rel_bind; [apply (rel_for_up (cursor mb (path_dof mb (jc_path J)) J))|].
  - repeat split; simpl; try apply HJ. intros; lia.
  - intros i s s' Hi Hs. now apply dot_step_rel.
  - intros s s' Hs. apply cursor_end in Hs; auto. destruct Hs as [Hs Hl]. simpl. destruct HJ.
    split; [|split]; [constructor; simpl; auto; congruence|constructor; simpl; auto; congruence|split; auto].
Qed.
Lemma jacobianDot_rel mb m J J' : jsame mb J J' -> rel (both_dot mb J J') (jacobianDot mb m J) (jacobianDot mb m J').
Proof.
  intros HJ. unfold jacobianDot. rewrite <- (js_path _ _ _ HJ), <- (js_point _ _ _ HJ).
  apply rel_bs; intros N _. apply rel_bs; intros X _. apply rel_bs; intros VN _. apply rel_bs; intros VW _.
  cbv zeta. apply dot_loop_rel; auto.
Qed.
Lemma bodyJacobianDot_rel mb m J J' : jsame mb J J' -> rel (both_dot mb J J') (bodyJacobianDot mb m J) (bodyJacobianDot mb m J').
Proof.
  intros HJ. unfold bodyJacobianDot. rewrite <- (js_path _ _ _ HJ), <- (js_point _ _ _ HJ).
  apply rel_bs; intros N _. apply rel_bs; intros X _. apply rel_bs; intros VN _. apply dot_loop_rel; auto.
Qed.

(** Only the linear rows for the Jacobians of vectors. *)
Definition cursor_lin mb n (J : Jac) (index : nat) (s s' : nat * list SV) : Prop :=
  fst s = path_dof mb (firstn index (jc_path J)) /\ fst s' = fst s /\ agr n (fun k => k < fst s) (map slin (snd s)) (map slin (snd s')).
Lemma vec_step_rel mb m Ef X v J J' n index s s' : jsame mb J J' -> cursor_lin mb n J index s s' ->
  rel (cursor_lin mb n J (S index)) (vec_step mb m Ef X v J index s) (vec_step mb m Ef X v J' index s').
Proof.
  intros HJ (H1 & H2 & H3). unfold vec_step. rewrite <- (js_path _ _ _ HJ).
  apply rel_bs; intros i Ei. apply rel_bs; intros Xi _. apply rel_bs; intros j Ej.
  apply get_Ok in Ei. apply get_joint in Ej.
  eapply rel_bind.
  - apply (rel_for_up (fun d l l' => agr n (fun k => k < fst s + d) (map slin l) (map slin l'))).
    + apply (agr_weak _ _ _ _ _ H3). intros. lia.
    + intros d l l' Hd Hl. apply rel_bs; intros ms _. apply rel_bs; intros c _. rewrite H2.
      eapply rel_bind; [apply rel_get_any; pose proof Hl as (L1 & L2 & _); rewrite map_length in L1, L2; congruence|].
      intros o o' _. eapply rel_mono; [apply (agr_set_map slin); [exact Hl|reflexivity]|].
      intros a b Hab. apply (agr_weak _ _ _ _ _ Hab). intros. lia.
  - intros l l' Hl. cbn [rel]. unfold cursor_lin. cbn [fst snd]. rewrite H2. split; [|split; [reflexivity|exact Hl]].
    rewrite (path_dof_snoc mb _ _ _ Ei), <- H1, <- Ej. reflexivity.
Qed.
Definition both_lin mb (J J' : Jac) (a b : Jac) : Prop :=
  jsame mb a b /\ jsame mb J a /\ map slin (jc_jac a) = map slin (jc_jac b).
Lemma vec_loop_rel mb m Ef X v J J' : jsame mb J J' ->
  rel (both_lin mb J J')
      (s <- for_up (length (jc_path J)) (vec_step mb m Ef X v J) (0%nat, jc_jac J) ;; Ok (with_jac (snd s) J))
      (s <- for_up (length (jc_path J)) (vec_step mb m Ef X v J') (0%nat, jc_jac J') ;; Ok (with_jac (snd s) J')).
Proof.
  intros HJ. eapply rel_bind; [apply (rel_for_up (cursor_lin mb (path_dof mb (jc_path J)) J))|].
  - repeat split; simpl; rewrite ?map_length; try apply HJ. intros; lia.
  - intros i s s' Hi Hs. now apply vec_step_rel.
  - intros s s' (H1 & H2 & H3). rewrite firstn_all in H1. simpl.
    assert (E : map slin (snd s) = map slin (snd s')) by (apply (agr_eq _ _ _ _ H3); intros; lia).
    destruct H3 as (L1 & L2 & _). rewrite map_length in L1, L2. destruct HJ.
    split; [|split]; [constructor; simpl; auto; congruence|constructor; simpl; auto; congruence|auto].
Qed.
Lemma vectorJacobian_rel mb m v J J' : jsame mb J J' -> rel (both_lin mb J J') (vectorJacobian mb m v J) (vectorJacobian mb m v J').
Proof.
  intros HJ. unfold vectorJacobian. rewrite <- (js_path _ _ _ HJ), <- (js_point _ _ _ HJ).
  apply rel_bs; intros N _. apply rel_bs; intros X _. now apply vec_loop_rel.
Qed.
Lemma vectorBodyJacobian_rel mb m v J J' : jsame mb J J' -> rel (both_lin mb J J') (vectorBodyJacobian mb m v J) (vectorBodyJacobian mb m v J').
Proof.
  intros HJ. unfold vectorBodyJacobian. rewrite <- (js_path _ _ _ HJ), <- (js_point _ _ _ HJ).
  apply rel_bs; intros N _. apply rel_bs; intros X _. now apply vec_loop_rel.
Qed.

(** The constructors. *)
Lemma jac_walk_dof mb : forall fuel i path sign dof path' sign' dof', jac_walk mb fuel i path sign dof = Ok (path', sign', dof') ->
  dof = path_dof mb path -> dof' = path_dof mb path'.
Proof.
  induction fuel; simpl; intros i path sign dof path' sign' dof' H E; try discriminate.
  destruct (i =? -1)%Z; [injection H; intros; subst; auto|].
  apply bind_Ok in H. destruct H as (j & Ej & H). apply bind_Ok in H. destruct H as (p & _ & H). apply IHfuel in H; auto.
  unfold getz in Ej. destruct (i <? 0)%Z; try discriminate. apply get_joint in Ej. unfold path_dof in *. simpl. rewrite <- Ej. lia.
Qed.
Lemma ref_walk_dof mb ref : forall fuel i path sign dof i' path' sign' dof', ref_walk mb ref fuel i path sign dof = Ok (i', path', sign', dof') ->
  dof = path_dof mb path -> dof' = path_dof mb path'.
Proof.
  induction fuel; simpl; intros i path sign dof i' path' sign' dof' H E; try discriminate.
  destruct (i =? -1)%Z; [injection H; intros; subst; auto|].
  destruct (i =? ref)%Z; [injection H; intros; subst; auto|].
  apply bind_Ok in H. destruct H as (j & Ej & H). apply bind_Ok in H. destruct H as (p & _ & H). apply IHfuel in H; auto.
  unfold getz in Ej. destruct (i <? 0)%Z; try discriminate. apply get_joint in Ej. unfold path_dof in *. simpl. rewrite <- Ej. lia.
Qed.
Lemma path_dof_app mb a b : path_dof mb (a ++ b) = path_dof mb a + path_dof mb b.
Proof. unfold path_dof. now rewrite map_app, list_sum_app. Qed.
Lemma ref_climb_dof mb back : forall fuel i front sign dof i' front' sign' dof', ref_climb mb fuel i front back sign dof = Ok (i', front', sign', dof') ->
  dof = path_dof mb front + path_dof mb back -> dof' = path_dof mb front' + path_dof mb back.
Proof.
  induction fuel; simpl; intros i front sign dof i' front' sign' dof' H E; try discriminate.
  apply bind_Ok in H. destruct H as (j & Ej & H). apply bind_Ok in H. destruct H as (p & _ & H).
  unfold getz in Ej. destruct (i <? 0)%Z; try discriminate. apply get_joint in Ej.
  assert (E' : dof + jdof j = path_dof mb (front ++ [Z.to_nat i]) + path_dof mb back).
  { rewrite path_dof_app. unfold path_dof at 2. simpl. rewrite <- Ej. lia. }
  destruct (zmem p back); [injection H; intros; subst; auto|]. eapply IHfuel; eauto.
Qed.
Lemma map_res_joints mb l js : map_res (get (mb_joints mb)) l = Ok js -> list_sum (map jdof js) = path_dof mb l.
Proof.
  revert js. induction l; simpl; intros js H; [injection H as <-; auto|].
  apply bind_Ok in H. destruct H as (j & Ej & H). apply bind_Ok in H. destruct H as (js' & E' & H). injection H as <-.
  apply get_joint in Ej. unfold path_dof in *. simpl. rewrite (IHl _ E'), <- Ej. auto.
Qed.
Lemma skip_dof mb n l : path_dof mb (firstn n l) + path_dof mb (skipn n l) = path_dof mb l.
Proof. rewrite <- path_dof_app, firstn_skipn. auto. Qed.
Definition shape mb (J : Jac) : Prop :=
  length (jc_jac J) = path_dof mb (jc_path J) /\ length (jc_dot J) = path_dof mb (jc_path J) /\ jc_point J = pttr (jac_point J).
Lemma rel_Ok {A B} (Q : A -> B -> Prop) x y a b : rel Q x y -> x = Ok a -> y = Ok b -> Q a b.
Proof. intros H -> ->. exact H. Qed.
Lemma new_shape mb name ref J : jac_new mb name ref J -> shape mb J.
Proof.
  intros (g & p & H). destruct ref as [r|].
  - unfold Jacobian_ref_ctor in H. apply bind_Ok in H. destruct H as (b & _ & H). apply bind_Ok in H. destruct H as (rf & _ & H).
    apply bind_Ok in H. destruct H as ((((i & path) & sign) & dof) & Ew & H).
    apply ref_walk_dof in Ew; [|reflexivity].
    apply bind_Ok in H. destruct H as (((path1 & sign1) & dof1) & E & H). injection H as <-.
    assert (G : dof1 = path_dof mb path1).
    { destruct (i =? rf)%Z; [injection E; intros; subst; auto|].
      apply bind_Ok in E. destruct E as ((((i2 & front) & sign2) & dof2) & Ec & E). apply ref_climb_dof in Ec; [|rewrite Ew; reflexivity].
      destruct (i2 >? 0)%Z.
      - apply bind_Ok in E. destruct E as (n & _ & E). apply bind_Ok in E. destruct E as (js & Ejs & E). apply map_res_joints in Ejs.
        injection E; intros E1 E2 E3. subst. rewrite path_dof_app, Ejs.
        change (match path with _ :: _ :: l0 => skipn n l0 | _ => [] end) with (skipn (S (S n)) path).
        pose proof (skip_dof mb (S (S n)) path) as K. lia.
      - injection E; intros; subst. rewrite path_dof_app. auto. }
    unfold shape. simpl. rewrite !map_length, !seq_length. repeat split; auto.
  - unfold Jacobian_ctor in H. apply bind_Ok in H. destruct H as (b & _ & H).
    apply bind_Ok in H. destruct H as (((path & sign) & dof) & Ew & H). apply jac_walk_dof in Ew; [|reflexivity].
    injection H as <-. unfold shape. simpl. rewrite !map_length, !seq_length. repeat split; auto.
Qed.
Lemma new_same mb name ref J J' : jac_new mb name ref J -> jac_new mb name ref J' ->
  jc_path J = jc_path J' /\ jc_sign J = jc_sign J' /\ jc_body J = jc_body J' /\ jc_ref J = jc_ref J'.
Proof.
  intros (g & p & H) (g' & p' & H'). destruct ref as [r|].
  - unfold Jacobian_ref_ctor in *. apply bind_Ok in H. destruct H as (b & Eb & H). rewrite Eb in H'. cbn [bind] in H'.
    apply bind_Ok in H. destruct H as (rf & Er & H). rewrite Er in H'. cbn [bind] in H'.
    apply bind_Ok in H. destruct H as ((((i & path) & sign) & dof) & Ew & H). rewrite Ew in H'. cbn [bind] in H'.
    apply bind_Ok in H. destruct H as (((path1 & sign1) & dof1) & E & H). cbn [bind] in H', E. rewrite E in H'. cbn [bind] in H'.
    injection H as <-. injection H' as <-. auto.
  - unfold Jacobian_ctor in *. apply bind_Ok in H. destruct H as (b & Eb & H). rewrite Eb in H'. cbn [bind] in H'.
    apply bind_Ok in H. destruct H as (((path & sign) & dof) & Ew & H). rewrite Ew in H'. cbn [bind] in H'.
    injection H as <-. injection H' as <-. auto.
Qed.
Lemma shape_self mb J : shape mb J -> jsame mb J J.
Proof. intros (H1 & H2 & H3). constructor; auto. Qed.
Lemma jsame_shape mb J J' : shape mb J -> jsame mb J J' -> shape mb J'.
Proof.
  intros (H1 & H2 & H3) H. destruct H. unfold shape, jac_point in *. rewrite <- js_path0, <- js_point0. auto.
Qed.
Lemma call_same mb J J' : shape mb J -> jac_call mb J J' ->
  shape mb J' /\ jc_path J = jc_path J' /\ jc_sign J = jc_sign J' /\ jc_body J = jc_body J' /\ jc_ref J = jc_ref J'.
Proof.
  intros Hs H. pose proof (shape_self _ _ Hs) as HJ.
  assert (G : forall J2, jsame mb J J2 -> shape mb J2 /\ jc_path J = jc_path J2 /\ jc_sign J = jc_sign J2 /\ jc_body J = jc_body J2 /\ jc_ref J = jc_ref J2).
  { intros J2 K. split; [eapply jsame_shape; eauto|]. destruct K. auto. }
  destruct H as [m J' E|m X J' E|m J' E|m v J' E|m v J' E|m J' E|m J' E|p].
  - apply G. apply (rel_Ok _ _ _ _ _ (jacobian_rel mb m J J HJ) E E).
  - apply G. apply (rel_Ok _ _ _ _ _ (jacobian_at_rel mb m X J J HJ) E E).
  - apply G. apply (rel_Ok _ _ _ _ _ (bodyJacobian_rel mb m J J HJ) E E).
  - apply G. apply (rel_Ok _ _ _ _ _ (vectorJacobian_rel mb m v J J HJ) E E).
  - apply G. apply (rel_Ok _ _ _ _ _ (vectorBodyJacobian_rel mb m v J J HJ) E E).
  - apply G. apply (rel_Ok _ _ _ _ _ (jacobianDot_rel mb m J J HJ) E E).
  - apply G. apply (rel_Ok _ _ _ _ _ (bodyJacobianDot_rel mb m J J HJ) E E).
  - destruct Hs as (H1 & H2 & H3). repeat split; auto.
Qed.
Lemma history_jac mb name ref J J0 : jac_new mb name ref J0 -> jac_history mb name ref J ->
  shape mb J /\ jc_path J0 = jc_path J /\ jc_sign J0 = jc_sign J /\ jc_body J0 = jc_body J /\ jc_ref J0 = jc_ref J.
Proof.
  intros H0 H. induction H as [J H|J J' H IH Hc].
  - split; [eapply new_shape; eauto|]. eapply new_same; eauto.
  - destruct IH as (I1 & I2 & I3 & I4 & I5). destruct (call_same _ _ _ I1 Hc) as (K1 & K2 & K3 & K4 & K5).
    repeat split; try apply K1; congruence.
Qed.
Lemma history_new {St} (new : St -> Prop) call s : history new call s -> exists s0, new s0.
Proof. induction 1; eauto. Qed.
Lemma history_jsame mb name ref J J' : jac_history mb name ref J -> jac_history mb name ref J' -> jac_point J = jac_point J' -> jsame mb J J'.
Proof.
  intros H H' E. destruct (history_new _ _ _ H) as [J0 H0].
  destruct (history_jac _ _ _ _ _ H0 H) as ((S1 & S2 & S3) & I2 & I3 & I4 & I5).
  destruct (history_jac _ _ _ _ _ H0 H') as ((S1' & S2' & S3') & I2' & I3' & I4' & I5').
  constructor; try congruence.
Qed.

(** ** What the two objects show *)
Lemma jac_all mb name ref J J' m : jac_history mb name ref J -> jac_history mb name ref J' -> jac_point J = jac_point J' ->
  seen jc_jac (jacobian mb m J) = seen jc_jac (jacobian mb m J') /\
  (forall X, seen jc_jac (jacobian_at mb m X J) = seen jc_jac (jacobian_at mb m X J')) /\
  seen jc_jac (bodyJacobian mb m J) = seen jc_jac (bodyJacobian mb m J') /\
  seen jc_dot (jacobianDot mb m J) = seen jc_dot (jacobianDot mb m J') /\
  seen jc_dot (bodyJacobianDot mb m J) = seen jc_dot (bodyJacobianDot mb m J').
Proof.
  intros H H' E. pose proof (history_jsame _ _ _ _ _ H H' E) as HJ.
  split; [|split; [|split; [|split]]]; intros; apply rel_seen; eapply rel_mono.
  all: first [apply jacobian_rel; exact HJ|apply jacobian_at_rel; exact HJ|apply bodyJacobian_rel; exact HJ|apply jacobianDot_rel; exact HJ|apply bodyJacobianDot_rel; exact HJ|idtac].
  all: intros a b K; apply K.
Qed.
Lemma jac_vec mb name ref J J' m v : jac_history mb name ref J -> jac_history mb name ref J' -> jac_point J = jac_point J' ->
  seen (fun J => map slin (jc_jac J)) (vectorJacobian mb m v J) = seen (fun J => map slin (jc_jac J)) (vectorJacobian mb m v J') /\
  seen (fun J => map slin (jc_jac J)) (vectorBodyJacobian mb m v J) = seen (fun J => map slin (jc_jac J)) (vectorBodyJacobian mb m v J').
Proof.
  intros H H' E. pose proof (history_jsame _ _ _ _ _ H H' E) as HJ.
  split; apply rel_seen; eapply rel_mono.
  1: apply vectorJacobian_rel; exact HJ. 2: apply vectorBodyJacobian_rel; exact HJ. all: intros a b K; apply K.
Qed.
Lemma jac_pure mb name ref J J' m : jac_history mb name ref J -> jac_history mb name ref J' -> jac_point J = jac_point J' ->
  velocity m J = velocity m J' /\ bodyVelocity m J = bodyVelocity m J' /\
  normalAcceleration m J = normalAcceleration m J' /\ bodyNormalAcceleration m J = bodyNormalAcceleration m J' /\
  subMultiBody mb J = subMultiBody mb J' /\ jac_dof J = jac_dof J' /\
  forall jac r, fullJacobian mb J jac r = fullJacobian mb J' jac r.
Proof.
  intros H H' E. pose proof (history_jsame _ _ _ _ _ H H' E) as HJ.
  destruct J as [a1 a2 a3 a4 a5 a6 a7], J' as [b1 b2 b3 b4 b5 b6 b7]. destruct HJ; simpl in *. subst.
  repeat split; auto. unfold jac_dof. simpl. congruence.
Qed.
