(** The kinematics and the dynamics in another unit of length. *)
From Coq Require Import Reals String ZArith Bool Arith List Lia Lra.
From Verif Require Import Res ResP SMap Vec VecP Sva SvaP Mat JointM MultiBodyM KinM DynM Spec SpecDyn SpecFrame SpecUnits SpecLength
  JointP JointFinP KinP MbP TreeP DynP DynHP DynCP DynFinP DynFin2P KinFinP BaseP.
Import ListNotations.
Open Scope R_scope.

Lemma len_add L a b : motion_len L (svadd a b) = svadd (motion_len L a) (motion_len L b). Proof. unfold motion_len. svring. Qed.
Lemma len_scale L k a : motion_len L (svscale k a) = svscale k (motion_len L a). Proof. unfold motion_len. svring. Qed.
Lemma len_0 L : motion_len L sv0 = sv0. Proof. unfold motion_len. svring. Qed.
Lemma len_ptm L X v : ptm (pose_len L X) (motion_len L v) = motion_len L (ptm X v). Proof. unfold motion_len, pose_len. svring. Qed.
Lemma len_cross L a b : scross (motion_len L a) (motion_len L b) = motion_len L (scross a b). Proof. unfold motion_len. svring. Qed.
Lemma len_mul L X Y : ptmul (pose_len L X) (pose_len L Y) = pose_len L (ptmul X Y).
Proof. unfold pose_len, ptmul. cbn [rotE trR]. f_equal. v3ring. Qed.
Lemma len_inv L X : ptinv (pose_len L X) = pose_len L (ptinv X).
Proof. unfold pose_len, ptinv. cbn [rotE trR]. f_equal. v3ring. Qed.
Lemma len_dual L X f : ptdual (pose_len L X) (wrench_len L f) = wrench_len L (ptdual X f). Proof. unfold wrench_len, pose_len. svring. Qed.
Lemma len_crossDual L a f : scrossDual (motion_len L a) (wrench_len L f) = wrench_len L (scrossDual a f). Proof. unfold wrench_len, motion_len. svring. Qed.
Lemma len_rbim L b u : rbim (binertia (body_len L b)) (motion_len L u) = wrench_len L (rbim (binertia b) u).
Proof.
  destruct b as [I nm]. destruct I as [ma h J]. destruct J as [j1 j2 j3 j4 j5 j6]. unfold body_len, sym_times, motion_len, wrench_len.
  cbn [binertia imass imom iine sxx sxy sxz syy syz szz]. svring.
Qed.
Lemma len_dot L f u : svdot (wrench_len L f) (motion_len L u) = L * L * svdot f u. Proof. unfold wrench_len, motion_len. svring. Qed.
Lemma wl_add L a b : wrench_len L (svadd a b) = svadd (wrench_len L a) (wrench_len L b). Proof. unfold wrench_len. svring. Qed.
Lemma wl_sub L a b : wrench_len L (svsub a b) = svsub (wrench_len L a) (wrench_len L b). Proof. unfold wrench_len. svring. Qed.
Lemma len_onto L u : L <> 0 -> exists w, u = motion_len L w.
Proof.
  intro N. exists (motion_len (/ L) u). destruct u as [a [x y z]]. unfold motion_len, vscale. cbn [sang slin vx vy vz]. f_equal.
  f_equal; field; exact N.
Qed.

(** ** Joints *)
Definition pure (b : bool) (s : SV) : Prop := if b then sang s = v0 else slin s = v0.
Lemma pure_scale b k s : pure b s -> pure b (svscale k s).
Proof. unfold pure, svscale. destruct b; cbn [sang slin]; intros ->; v3ring. Qed.
Lemma built_pure a j : built a j -> Forall2 pure (dof_lengths (jtyp j)) (jS j).
Proof.
  assert (M : forall k d l, Forall2 pure d l -> Forall2 pure d (map (svscale k) l)).
  { intros k d l F. induction F; cbn [map]; constructor; auto. now apply pure_scale. }
  intro B. induction B as [t fwd nm|j nm mul off B IH|j fwd B IH].
  - unfold mkJ. cbn [jtyp jS]. apply M. destruct t; cbn [dof_lengths baseS]; repeat constructor.
  - exact IH.
  - unfold set_forward. cbn [jtyp jS]. destruct (Bool.eqb fwd (jfwd j)); auto.
Qed.
Lemma joint_pure j : joint_ok j -> Forall2 pure (dof_lengths (jtyp j)) (jS j).
Proof. intros (a & B). exact (built_pure a j B). Qed.
Lemma pure_len L b s : pure b s -> motion_len L s = svscale (as_length L b) s.
Proof.
  unfold pure, as_length. destruct s as [w v]. destruct b; cbn [sang slin]; intros ->; unfold motion_len, svscale; cbn [sang slin]; f_equal; v3ring.
Qed.
Lemma pure_dot L b s f : pure b s -> svdot s (wrench_len L f) = as_torque L b * svdot s f.
Proof.
  unfold pure, as_torque. destruct s as [w v]. destruct b; cbn [sang slin]; intros ->; unfold wrench_len; svring.
Qed.
Lemma smul_len L d S : Forall2 pure d S -> forall x, smul S (lengths_times L d x) = motion_len L (smul S x).
Proof.
  induction 1 as [|b s d S P F IH]; intros [|x l]; cbn [smul lengths_times combine map]; try (now rewrite len_0).
  cbn [fst snd]. fold (lengths_times L d l). rewrite IH, len_add, len_scale, (pure_len L b s P), svscale_svscale. f_equal. f_equal. ring.
Qed.
Lemma dots_len L d S f : Forall2 pure d S ->
  map (fun s => svdot s (wrench_len L f)) S = torques_times L d (map (fun s => svdot s f) S).
Proof.
  induction 1 as [|b s d S P F IH]; cbn [map torques_times combine]; auto. cbn [fst snd]. f_equal; [now apply pure_dot|exact IH].
Qed.
Lemma torque_nth L d x a : length x = length d -> (a < length d)%nat -> nth a (torques_times L d x) 0 = as_torque L (nth a d false) * nth a x 0.
Proof.
  unfold torques_times. revert x a. induction d as [|b d IH]; intros [|y l] a E La; cbn [length] in *; try lia.
  destruct a as [|a]; cbn [combine map nth fst snd]; auto. apply IH; lia.
Qed.
Lemma lengths_nth L d x a : length x = length d -> (a < length d)%nat -> nth a (lengths_times L d x) 0 = as_length L (nth a d false) * nth a x 0.
Proof.
  unfold lengths_times. revert x a. induction d as [|b d IH]; intros [|y l] a E La; cbn [length] in *; try lia.
  destruct a as [|a]; cbn [combine map nth fst snd]; auto. apply IH; lia.
Qed.
Lemma pure_nth d S a : Forall2 pure d S -> (a < length S)%nat -> pure (nth a d false) (nth a S sv0).
Proof.
  intro F. revert a. induction F as [|b s d S P F IH]; intros a La; cbn [length] in La; [lia|]. destruct a; cbn [nth]; auto. apply IH. lia.
Qed.
Lemma pose_len_spec L j x : joint_ok j -> length x = jparams j ->
  pose j (lengths_times L (param_lengths (jtyp j)) x) = rmap (pose_len L) (pose j x).
Proof.
  intros O E. rewrite (joint_ok_params j O) in E. pose proof (joint_ok_S_length j O) as ES. rewrite (joint_ok_dof j O) in ES.
  unfold pose. destruct (jtyp j); cbn [tparams tdof] in E, ES;
    repeat (match type of E with length _ = S _ => destruct x as [|? x]; [discriminate E|]; cbn [length] in E; apply Nat.succ_inj in E end);
    (destruct x; [|discriminate E]);
    unfold lengths_times; cbn [param_lengths combine map fst snd as_length get nth_error bind rmap]; rewrite ?Rmult_1_l.
  - destruct (jS j) as [|s l]; [discriminate|]. cbn [get nth_error bind rmap]. f_equal. unfold pose_len, ptrot. cbn [rotE trR]. f_equal. v3ring.
  - destruct (jS j) as [|s l]; [discriminate|]. cbn [get nth_error bind rmap]. f_equal. unfold pose_len, pttr. cbn [rotE trR]. f_equal. v3ring.
  - f_equal. unfold pose_len, ptrot. cbn [rotE trR]. f_equal. v3ring.
  - f_equal.
    assert (H : mkPT (RotZ r) (mapp (mtr (RotZ r)) (mkV3 (L * r0) (L * r1) 0)) = pose_len L (mkPT (RotZ r) (mapp (mtr (RotZ r)) (mkV3 r0 r1 0)))).
    { unfold pose_len. cbn [rotE trR]. f_equal. generalize (RotZ r). intro Z. v3ring. }
    rewrite H. destruct (jfwd j); auto. apply len_inv.
  - destruct (jS j) as [|s [|s1 l]]; try discriminate. cbn [get nth_error bind rmap]. f_equal. unfold pose_len. cbn [rotE trR]. f_equal. v3ring.
  - f_equal.
    assert (H : mkPT (QuatToE r r0 r1 r2) (mkV3 (L * r3) (L * r4) (L * r5)) = pose_len L (mkPT (QuatToE r r0 r1 r2) (mkV3 r3 r4 r5))).
    { unfold pose_len. cbn [rotE trR]. f_equal. }
    rewrite H. destruct (jfwd j); auto. apply len_inv.
  - f_equal. unfold pose_len, ptid. cbn [rotE trR]. f_equal. v3ring.
Qed.
