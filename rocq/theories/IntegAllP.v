(** integration of a whole multibody. *)
From Coq Require Import Reals ZArith Bool List Lia Lra.
From Verif Require Import Res ResP Vec Sva JointM MultiBodyM IntegM Spec SpecDeriv SpecInteg JointP KinP IntegP IntegJointP.
Import ListNotations.
Open Scope R_scope.

Lemma alpha_loop n step d a : length a = n -> length d = n -> exists a', for_up n (alpha_add step d) a = Ok a' /\ speed_up step a d a'.
Proof.
  intros La Ld.
  destruct (for_up_inv (fun i (s : list R) => length s = n /\ forall k, (k < n)%nat -> co s k = if (k <? i)%nat then co a k + co d k * step else co a k) (alpha_add step d) n a) as (a' & E & La' & V).
  - split; auto.
  - intros i s Hi (L & V). unfold alpha_add. rewrite (get_nth s i 0) by lia. cbn [bind]. rewrite (get_nth d i 0) by lia. cbn [bind]. rewrite set_ok by lia. eexists. split; [reflexivity|].
    rewrite upd_length. split; auto. intros k Hk. unfold co. destruct (Nat.eq_dec k i) as [->|NE].
    + rewrite nth_upd_eq by lia. destruct (Nat.ltb_spec i (S i)); [|lia]. specialize (V i Hi). unfold co in V. rewrite V. destruct (Nat.ltb_spec i i); [lia|]. reflexivity.
    + rewrite nth_upd_neq by auto. specialize (V k Hk). unfold co in V. rewrite V. destruct (Nat.ltb_spec k i), (Nat.ltb_spec k (S i)); try lia; reflexivity.
  - exists a'. split; auto. split; [lia|]. intros k Hk. rewrite V by lia. destruct (Nat.ltb_spec k n); [reflexivity|lia].
Qed.
Lemma speed_up_ext h v a v' v'' : speed_up h v a v' -> speed_up h v a v'' -> v' = v''.
Proof. intros (L & V) (L' & V'). apply (list_ext_nth _ _ 0); [lia|]. intros k Hk. rewrite L in Hk. specialize (V k Hk). specialize (V' k Hk). unfold co in *. congruence. Qed.

Section All.
Variables (mb : MultiBody) (m : MBC) (step prec : R).
Hypothesis W : wf_mb mb.
Hypothesis SQ : sized mb jparams (q m).
Hypothesis SA : sized mb jdof (alpha m).
Hypothesis SD : sized mb jdof (alphaD m).
Notation n := (length (mb_joints mb)).
Notation jt i := (nth i (mb_joints mb) jd).
Lemma jt_ok i : (i < n)%nat -> joint_ok (jt i). Proof. intro L. apply (wf_joint_ok _ W). now apply nth_In. Qed.
Lemma jt_sizes i : (i < n)%nat -> sizes (jtyp (jt i)) (nth i (q m) []) (nth i (alpha m) []) (nth i (alphaD m) []).
Proof.
  intro L. pose proof (jt_ok i L) as J. unfold sizes. rewrite <- (joint_ok_params _ J), <- (joint_ok_dof _ J). repeat split; now apply sized_nth.
Qed.
Definition done_upto (f i : nat) (s : MBC) : Prop :=
  only_q_alpha m s /\ length (q s) = n /\ length (alpha s) = n /\
  (forall k, (k < i)%nat -> jointIntegration f (jtyp (jt k)) (nth k (alpha m) []) (nth k (alphaD m) []) step (nth k (q m) []) prec = Ok (nth k (q s) []) /\
     speed_up step (nth k (alpha m) []) (nth k (alphaD m) []) (nth k (alpha s) [])) /\
  (forall k, (i <= k < n)%nat -> nth k (q s) [] = nth k (q m) [] /\ nth k (alpha s) [] = nth k (alpha m) []).
Lemma done_0 f : done_upto f 0 m.
Proof.
  pose proof (sized_length _ _ _ SQ). pose proof (sized_length _ _ _ SA). unfold nrJoints in *. unfold done_upto. split; [destruct m; reflexivity|]. split; auto. split; auto. split; [intros; lia|auto].
Qed.
Lemma done_step f i s : (i < n)%nat -> done_upto f i s ->
  integ_joint f mb step prec i s = (q' <- jointIntegration f (jtyp (jt i)) (nth i (alpha m) []) (nth i (alphaD m) []) step (nth i (q m) []) prec ;;
     a' <- for_up (jdof (jt i)) (alpha_add step (nth i (alphaD m) [])) (nth i (alpha m) []) ;; Ok (with_alpha (upd (alpha s) i a') (with_q (upd (q s) i q') s))).
Proof.
  intros Hi (HO & Lq & La & _ & U). destruct (U i) as (U1 & U2); [lia|]. unfold integ_joint. rewrite (get_nth (mb_joints mb) i jd) by auto. cbn [bind]. rewrite (get_nth (alpha s) i []) by lia. cbn [bind].
  assert (ED : alphaD s = alphaD m) by (rewrite HO; reflexivity). rewrite ED. pose proof (sized_length _ _ _ SD). unfold nrJoints in *. rewrite (get_nth (alphaD m) i []) by lia. cbn [bind].
  rewrite (get_nth (q s) i []) by lia. cbn [bind]. rewrite U1, U2. destruct (jointIntegration _ _ _ _ _ _ _) as [q'| | |]; cbn [bind]; auto.
  rewrite set_ok by lia. cbn [bind]. destruct (for_up _ _ _) as [a'| | |]; cbn [bind]; auto. rewrite set_ok by lia. reflexivity.
Qed.
Lemma done_next f i s q' : (i < n)%nat -> done_upto f i s -> jointIntegration f (jtyp (jt i)) (nth i (alpha m) []) (nth i (alphaD m) []) step (nth i (q m) []) prec = Ok q' ->
  exists s', integ_joint f mb step prec i s = Ok s' /\ done_upto f (S i) s'.
Proof.
  intros Hi DU E. rewrite (done_step _ _ _ Hi DU), E. cbn [bind]. destruct (alpha_loop (jdof (jt i)) step (nth i (alphaD m) []) (nth i (alpha m) [])) as (a' & EA & SP); [now apply sized_nth|now apply sized_nth|].
  rewrite EA. cbn [bind]. eexists. split; [reflexivity|]. destruct DU as (HO & Lq & La & V & U). unfold done_upto. cbn [q alpha with_q with_alpha]. rewrite !upd_length.
  split; [unfold only_q_alpha in *; rewrite HO; reflexivity|]. split; auto. split; auto. split.
  - intros k Hk. destruct (Nat.eq_dec k i) as [->|NE].
    + rewrite !nth_upd_eq by lia. auto.
    + rewrite !nth_upd_neq by auto. apply V. lia.
  - intros k Hk. rewrite !nth_upd_neq by lia. apply U. lia.
Qed.
Lemma integration_char f m' : integration f mb m step prec = Ok m' -> done_upto f n m'.
Proof.
  intro E. apply (for_up_inv_partial (done_upto f) _ _ _ _ (done_0 f)) in E; auto. intros i s s' Hi DU ES.
  pose proof ES as ES'. rewrite (done_step _ _ _ Hi DU) in ES'. destruct (jointIntegration _ _ _ _ _ _ _) as [q'| | |] eqn:EJ; cbn [bind] in ES'; try discriminate.
  destruct (done_next f i s q' Hi DU EJ) as (s'' & E1 & DN). rewrite ES in E1. injection E1 as ->. exact DN.
Qed.
Lemma integration_ok f : (forall i, (i < n)%nat -> exists q', jointIntegration f (jtyp (jt i)) (nth i (alpha m) []) (nth i (alphaD m) []) step (nth i (q m) []) prec = Ok q') ->
  exists m', integration f mb m step prec = Ok m' /\ done_upto f n m'.
Proof. intro T. apply (for_up_inv (done_upto f) _ _ _ (done_0 f)). intros i s Hi DU. destruct (T i Hi) as (q' & E). exact (done_next f i s q' Hi DU E). Qed.
(** A property of joints for large enough fuel holds for all of them together. *)
Lemma enough (P : nat -> nat -> Prop) k : (forall i, (i < k)%nat -> exists N, forall f, (N <= f)%nat -> P i f) -> exists N, forall f, (N <= f)%nat -> forall i, (i < k)%nat -> P i f.
Proof.
  induction k as [|k IH]; intro H.
  - exists 0%nat. intros. lia.
  - destruct IH as (N1 & H1); [intros; apply H; lia|]. destruct (H k) as (N2 & H2); [lia|]. exists (Nat.max N1 N2). intros f Hf i Hi. destruct (Nat.eq_dec i k) as [->|]; [apply H2|apply H1]; lia.
Qed.
Notation forward_ok := (step_fits mb step).
Lemma nth_unit i : config_ok mb m -> (i < n)%nat -> unit_q (jtyp (jt i)) (nth i (q m) []).
Proof.
  intros C L. pose proof (sized_length _ _ _ SQ) as LQ. unfold nrJoints in LQ.
  destruct (C i (jt i) (nth i (q m) [])) as (_ & U); [now apply nth_error_nth'|apply nth_error_nth'; lia|]. exact U.
Qed.
Lemma integration_total : config_ok mb m -> 0 < prec -> forward_ok -> exists N, forall f, (N <= f)%nat -> exists m', integration f mb m step prec = Ok m'.
Proof.
  intros C P FO. destruct (enough (fun i f => exists q', jointIntegration f (jtyp (jt i)) (nth i (alpha m) []) (nth i (alphaD m) []) step (nth i (q m) []) prec = Ok q') n) as (N & T).
  - intros i Hi. apply ji_total; auto using jt_sizes, nth_unit. intros [T|T]; destruct FO as [FO|FO]; auto; exfalso; destruct (FO (jt i) (nth_In _ _ Hi)); auto.
  - exists N. intros f Hf. destruct (integration_ok f (T f Hf)) as (m' & E & _). eauto.
Qed.
Lemma done_config f m' : config_ok mb m -> done_upto f n m' -> config_ok mb m'.
Proof.
  intros C (HO & Lq & La & V & _) i j qi EJ EQ. assert (Hi : (i < n)%nat) by (apply nth_error_Some; congruence).
  apply (nth_error_nth _ _ jd) in EJ. apply (nth_error_nth _ _ []) in EQ. subst j qi. destruct (V i Hi) as (E & _). pose proof (jt_sizes i Hi) as S. split.
  - rewrite (ji_size _ _ _ _ _ _ _ _ S E). now apply sized_nth.
  - exact (ji_unit _ _ _ _ _ _ _ _ S (nth_unit i C Hi) E).
Qed.
Lemma done_sized f m' : done_upto f n m' -> sized mb jparams (q m') /\ sized mb jdof (alpha m').
Proof.
  intros (HO & Lq & La & V & _). split; apply sized_of_nth; auto; intros i Hi; destruct (V i Hi) as (E & L & _).
  - rewrite (ji_size _ _ _ _ _ _ _ _ (jt_sizes i Hi) E). now apply sized_nth.
  - rewrite L. now apply sized_nth.
Qed.
Lemma done_ok f m' : mbc_ok mb m -> done_upto f n m' -> mbc_ok mb m'.
Proof. intros K DU. destruct (done_sized f m' DU) as (S1 & S2). destruct DU as (HO & _). destruct K. rewrite HO. constructor; cbn; auto. Qed.
End All.
(** Step 0. *)
Lemma list2_ext (a b : list (list R)) k : length a = k -> length b = k -> (forall i, (i < k)%nat -> nth i a [] = nth i b []) -> a = b.
Proof. intros. apply (list_ext_nth _ _ []); [lia|]. intros i Hi. apply H1. lia. Qed.
Lemma integration_0 mb m prec f : wf_mb mb -> mbc_ok mb m -> config_ok mb m -> 0 < prec -> integration (S f) mb m 0 prec = Ok m.
Proof.
  intros W K C P. assert (SQ := ok_q _ _ K). assert (SA := ok_alpha _ _ K). assert (SD := ok_alphaD _ _ K).
  assert (T : forall i, (i < length (mb_joints mb))%nat -> jointIntegration (S f) (jtyp (nth i (mb_joints mb) jd)) (nth i (alpha m) []) (nth i (alphaD m) []) 0 (nth i (q m) []) prec = Ok (nth i (q m) [])).
  { intros i Hi. apply ji_0; auto. - apply (jt_sizes mb m W SQ SA SD i Hi). - exact (nth_unit mb m SQ i C Hi). }
  destruct (integration_ok mb m 0 prec SQ SA SD (S f)) as (m' & E & HO & Lq & La & V & _).
  - intros i Hi. exists (nth i (q m) []). auto.
  - rewrite E. f_equal. pose proof (sized_length _ _ _ SQ). pose proof (sized_length _ _ _ SA). unfold nrJoints in *. rewrite HO.
    replace (q m') with (q m); [replace (alpha m') with (alpha m)|].
    + destruct m; reflexivity.
    + apply (list2_ext _ _ (length (mb_joints mb))); auto. intros i Hi. destruct (V i Hi) as (_ & L & S). apply (list_ext_nth _ _ 0); [lia|]. intros k Hk. specialize (S k Hk). unfold co in S. rewrite S. ring.
    + apply (list2_ext _ _ (length (mb_joints mb))); auto. intros i Hi. destruct (V i Hi) as (E' & _). rewrite (T i Hi) in E'. now injection E'.
Qed.
(** sIntegration. *)
