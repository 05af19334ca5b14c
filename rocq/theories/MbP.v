(** Lemmas about the MultiBody constructor and MultiBodyConfig. *)
From Coq Require Import Reals String ZArith Bool Arith Lia List.
From Verif Require Import Res ResP SMap Vec VecP Sva SvaP Mat JointM MultiBodyM Spec JointP KinP.
Import ListNotations.
Open Scope R_scope.

(** [i] is the last position below [k] at which [name] is [n]. *)
Definition last_named (name : nat -> string) (k : nat) (n : string) (z : Z) : Prop :=
  exists i, z = Z.of_nat i /\ (i < k)%nat /\ name i = n /\ forall i', (i < i' < k)%nat -> name i' <> n.

Definition map_ok (name : nat -> string) (k : nat) (mp : smap Z) : Prop :=
  forall n z, mfind mp n = Some z <-> last_named name k n z.

Lemma map_ok_0 name : map_ok name 0 [].
Proof. intros n z. split; simpl; intros H; try discriminate. destruct H as (i & _ & L & _). lia. Qed.

Lemma map_ok_S name k mp : map_ok name k mp -> map_ok name (S k) (mset mp (name k) (Z.of_nat k)).
Proof.
  intros H n z. destruct (string_dec n (name k)) as [->|N].
  - rewrite mfind_mset_eq. split.
    + intros E. injection E as <-. exists k. repeat split; auto. intros; lia.
    + intros (i & -> & L & E & M). destruct (Nat.eq_dec i k) as [->|]; auto.
      exfalso. apply (M k); auto. lia.
  - rewrite mfind_mset_neq by auto. unfold map_ok in H. rewrite H. split.
    + intros (i & -> & L & E & M). exists i. repeat split; auto. intros i' Hi'.
      destruct (Nat.eq_dec i' k) as [->|]; [congruence|]. apply M. lia.
    + intros (i & -> & L & E & M). exists i. repeat split; auto.
      * destruct (Nat.eq_dec i k) as [->|]; [congruence|lia].
      * intros. apply M. lia.
Qed.


Lemma list_sum_firstn_S {A} (f : A -> nat) (l : list A) i d : (i < length l)%nat ->
  list_sum (map f (firstn (S i) l)) = (list_sum (map f (firstn i l)) + f (nth i l d))%nat.
Proof.
  revert i; induction l; simpl; intros i L; [lia|]. destruct i; simpl.
  - lia.
  - rewrite <- Nat.add_assoc. f_equal. apply (IHl i). lia.
Qed.

Lemma MultiBody_ctor_spec bodies joints pred succ parent Xt :
  (length bodies <= length joints)%nat ->
  exists mb, MultiBody_ctor bodies joints pred succ parent Xt = Ok mb /\
    mb_bodies mb = bodies /\ mb_joints mb = joints /\ mb_pred mb = pred /\ mb_succ mb = succ /\
    mb_parent mb = parent /\ mb_Xt mb = Xt /\
    length (mb_posParam mb) = length joints /\ length (mb_posDof mb) = length joints /\
    (forall i, (i < length bodies)%nat ->
       nth_error (mb_posParam mb) i = Some (list_sum (map jparams (firstn i joints))) /\
       nth_error (mb_posDof mb) i = Some (list_sum (map jdof (firstn i joints)))) /\
    mb_nrParams mb = list_sum (map jparams (firstn (length bodies) joints)) /\
    mb_nrDof mb = list_sum (map jdof (firstn (length bodies) joints)) /\
    map_ok (fun i => bname (nth i bodies bd)) (length bodies) (mb_bodyInd mb) /\
    map_ok (fun i => jname (nth i joints jd)) (length bodies) (mb_jointInd mb).
Proof.
  intros L. unfold MultiBody_ctor.
  match goal with |- context [for_up _ ?f ?s] => set (F := f); set (S0 := s) end.
  pose (P := fun (i : nat) (s : mbctor) =>
    length (c_pp s) = length joints /\ length (c_pd s) = length joints /\
    (forall k, (k < i)%nat ->
       nth_error (c_pp s) k = Some (list_sum (map jparams (firstn k joints))) /\
       nth_error (c_pd s) k = Some (list_sum (map jdof (firstn k joints)))) /\
    c_np s = list_sum (map jparams (firstn i joints)) /\
    c_nd s = list_sum (map jdof (firstn i joints)) /\
    map_ok (fun i => bname (nth i bodies bd)) i (c_bi s) /\
    map_ok (fun i => jname (nth i joints jd)) i (c_ji s)).
  destruct (for_up_inv P F (length bodies) S0) as (s & E & HP).
  - unfold P, S0; simpl. rewrite repeat_length. repeat split; try lia.
    all: try (intros H; discriminate H); intros (i & _ & H & _); lia.
  - intros i s Hi (L1 & L2 & HK & Np & Nd & MB & MJ). unfold F.
    rewrite (get_nth bodies i bd), (get_nth joints i jd) by lia. cbn [bind].
    rewrite !set_ok by lia. cbn [bind]. eexists; split; [reflexivity|].
    unfold P; cbn [c_pp c_pd c_np c_nd c_bi c_ji]. rewrite !upd_length.
    assert (MB' := map_ok_S _ _ _ MB). assert (MJ' := map_ok_S _ _ _ MJ). simpl in MB', MJ'.
    split; [auto|]. split; [auto|]. split; [|split; [|split; [|split]]]; auto.
    + intros k Hk. destruct (Nat.eq_dec k i) as [->|].
      * rewrite !nth_error_upd_eq by lia. rewrite Np, Nd. auto.
      * rewrite !nth_error_upd_neq by lia. apply HK. lia.
    + rewrite Np. symmetry. apply list_sum_firstn_S. lia.
    + rewrite Nd. symmetry. apply list_sum_firstn_S. lia.
  - rewrite E. cbn [bind]. eexists; split; [reflexivity|].
    destruct HP as (L1 & L2 & HK & Np & Nd & MB & MJ). cbn. auto 20.
Qed.

(** The arguments a caller of the constructor has to supply. *)
Record ctor_args (bodies : list Body) (joints : list Joint) (pred succ : list Z) (Xt : list PT) : Prop := {
  ca_joints : length joints = length bodies;
  ca_pred : length pred = length bodies;
  ca_succ : succ = map Z.of_nat (seq 0 (length bodies));
  ca_Xt : length Xt = length bodies;
  ca_order : forall i z, nth_error pred i = Some z -> z = (-1)%Z \/ (0 <= z < Z.of_nat i)%Z;
  ca_ok : forall j, In j joints -> joint_ok j
}.

Lemma MultiBody_ctor_wf bodies joints pred succ Xt mb :
  ctor_args bodies joints pred succ Xt ->
  MultiBody_ctor bodies joints pred succ pred Xt = Ok mb -> wf_mb mb.
Proof.
  intros A E. destruct A.
  destruct (MultiBody_ctor_spec bodies joints pred succ pred Xt) as
    (mb' & E' & Eb & Ej & Ep & Es & Epa & EX & Lpp & Lpd & Pos & Np & Nd & _); [lia|].
  rewrite E in E'. injection E' as <-.
  assert (FA : firstn (length bodies) joints = joints) by (rewrite <- ca_joints0; apply firstn_all).
  rewrite FA in Np, Nd.
  constructor; unfold nrBodies; rewrite ?Eb, ?Ej, ?Ep, ?Es, ?Epa, ?EX; auto; try lia.
  - rewrite ca_succ0, map_length, seq_length. auto.
  - intros i L. apply (ca_order0 i). apply nth_error_nth'. lia.
  - intros i L. rewrite ca_succ0. rewrite (nth_indep _ 0%Z (Z.of_nat 0)) by (rewrite map_length, seq_length; auto).
    rewrite map_nth. rewrite seq_nth by auto. auto.
  - intros i L. apply Pos. auto.
  - intros i L. apply Pos. auto.
Qed.

(** A fresh configuration has the sizes of the multibody. *)
Lemma sized_repeat mb (f : Joint -> nat) :
  sized mb f (map (fun j => repeat 0 (f j)) (mb_joints mb)).
Proof. unfold sized. rewrite map_map. apply map_ext. intros. apply repeat_length. Qed.

Lemma map_snd_combine {A B} (l : list A) (l' : list B) : length l = length l' ->
  map snd (combine l l') = l'.
Proof.
  revert l'; induction l; destruct l'; simpl; intros; try discriminate; auto.
  f_equal. auto.
Qed.

Lemma MBC_ctor_ok g mb : nrJoints mb = nrBodies mb -> mbc_ok mb (MBC_ctor g mb).
Proof.
  intros E. constructor; unfold MBC_ctor; cbn; rewrite ?map_length, ?seq_length; auto using sized_repeat.
  unfold sized. rewrite map_map.
  transitivity (map (fun p : nat * Joint => jdof (snd p)) (combine (seq 0 (nrJoints mb)) (mb_joints mb))).
  - apply map_ext. intros. rewrite map_length, seq_length. auto.
  - rewrite <- (map_map snd jdof). f_equal. apply map_snd_combine. rewrite seq_length. auto.
Qed.

Lemma FK_mbc_ok mb m m' : wf_mb mb -> mbc_ok mb m -> fk_post mb m m' -> mbc_ok mb m'.
Proof.
  intros W K F. pose proof (fk_frame _ _ _ F) as E. pose proof (wf_nrJoints mb W) as NJ.
  destruct K.
  assert (SM : sized mb jdof (motionSubspace m')).
  { apply sized_of_nth.
    - rewrite (fk_ms_len _ _ _ F). eapply sized_length; eassumption.
    - intros i L. rewrite (fk_ms _ _ _ F) by lia. apply joint_ok_S_length. apply wf_joint_nth; auto; lia. }
  pose proof (fk_jc_len _ _ _ F). pose proof (fk_pts_len _ _ _ F). pose proof (fk_bp_len _ _ _ F).
  constructor; rewrite ?H, ?H0, ?H1; auto; rewrite E; cbn; auto.
Qed.
Lemma FV_mbc_ok mb m m' : mbc_ok mb m -> fv_post mb m m' -> mbc_ok mb m'.
Proof.
  intros K F. pose proof (fv_frame _ _ _ F) as E. destruct K.
  pose proof (fv_jv_len _ _ _ F). pose proof (fv_vb_len _ _ _ F). pose proof (fv_vw_len _ _ _ F).
  constructor; rewrite ?H, ?H0, ?H1; auto; rewrite E; cbn; auto.
Qed.
