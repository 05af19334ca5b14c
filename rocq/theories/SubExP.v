(** A robot whose extracted chain is wrong, and one whose extracted chain is right. *)
From Coq Require Import Reals String ZArith Bool Arith List Lia Lra.
From Verif Require Import Res ResP SMap Vec VecP Sva SvaP Mat JointM MultiBodyM KinM DynM JacM Spec SpecDyn SpecJac SpecRel SpecIS SpecSub
  JointP KinP KinPathP MbP Ex TreeP DynP DynCP ConvP KinFinP SpecDeriv DerivP DerivTreeP JacP JacFinP JacFin2P RelP RelTopP RelFinP RelExP SubP SubTopP SubRelP.
Import ListNotations.
Open Scope R_scope.

(** The head is mounted turned by a quarter. *)
Definition sex_Xt : list PT := [ptid; ptid; pttr (mkV3 1 0 0); mkPT (mkM3 0 1 0 (-1) 0 0 0 0 1) v0; pttr (mkV3 0 1 0)].
Definition sex_mb : MultiBody :=
  match MultiBody_ctor rex_bodies rex_joints [-1; 0; 1; 1; 0]%Z [0; 1; 2; 3; 4]%Z [-1; 0; 1; 1; 0]%Z sex_Xt with
  | Ok mb => mb
  | _ => mkMB [] [] [] [] [] [] [] [] [] [] 0 0
  end.
Lemma sex_wf : wf_mb sex_mb.
Proof.
  apply (MultiBody_ctor_wf rex_bodies rex_joints [-1; 0; 1; 1; 0]%Z [0; 1; 2; 3; 4]%Z sex_Xt); [|reflexivity].
  constructor; try reflexivity.
  - intros i z H. do 5 (destruct i as [|i]; [simpl in H; injection H as <-; lia|]). destruct i; discriminate.
  - intros j H. apply joint_unit_ok. now apply rex_joint_unit.
Qed.
Lemma quarter_SO3 : SO3 (mkM3 0 1 0 (-1) 0 0 0 0 1).
Proof. unfold SO3. repeat split; try v3ring. Qed.
Lemma sex_rigid : rigid_mb sex_mb.
Proof. split; [exact rex_joint_unit|]. intros X [<-|[<-|[<-|[<-|[<-|[]]]]]]; simpl; try apply SO3_id. apply quarter_SO3. Qed.
Lemma sex_root : one_root sex_mb.
Proof. intros i H. do 5 (destruct i as [|i]; [cbn in H; try reflexivity; discriminate|]). destruct i; discriminate. Qed.
Definition sex_m : MBC :=
  with_alpha [[0; 0; 0; 1; 0; 0]; [1]; [1]; [1]; [1]] (with_q [[1; 0; 0; 0; 0; 0; 0]; [0]; [0]; [0]; [0]] (MBC_ctor ex_garbage sex_mb)).
Lemma sex_ok : mbc_ok sex_mb sex_m.
Proof.
  pose proof (MBC_ctor_ok ex_garbage sex_mb eq_refl) as H. destruct H.
  constructor; unfold sex_m; cbn [q alpha alphaD force jointConfig jointVelocity jointTorque
    motionSubspace bodyPosW parentToSon bodyVelW bodyVelB bodyAccB with_q with_alpha with_force with_gravity]; auto; reflexivity.
Qed.
Lemma sex_config : config_ok sex_mb sex_m.
Proof.
  intros i j qi Hj Hq. simpl in Hj. unfold sex_m in Hq; cbn [q with_q with_alpha with_force with_gravity] in Hq.
  do 5 (destruct i as [|i]; [simpl in Hj, Hq; injection Hj as <-; injection Hq as <-; split; [reflexivity|try exact Logic.I; unfold quat_unit; simpl; field]|]).
  destruct i; discriminate.
Qed.
Lemma sex_kin : exists m, after_kinematics sex_mb sex_m m.
Proof.
  destruct (FK_total sex_mb sex_m sex_wf sex_ok) as (m1 & E1 & F). pose proof (FK_mbc_ok _ _ _ sex_wf sex_ok F) as OK1.
  destruct (FV_total sex_mb m1 sex_wf OK1) as (m2 & E2 & V). exists m2, m1. auto.
Qed.
Lemma sex_par2 : nth_error (mb_pred sex_mb) 2 = Some (Z.of_nat 1). Proof. reflexivity. Qed.
Lemma sex_par3 : nth_error (mb_pred sex_mb) 3 = Some (Z.of_nat 1). Proof. reflexivity. Qed.
Lemma sex_p0 : root_path sex_mb 0 [0%nat]. Proof. constructor. reflexivity. Qed.
Lemma sex_p1 : root_path sex_mb 1 [0; 1]%nat. Proof. apply (rp_step sex_mb 1 0 [0%nat]); [reflexivity|apply sex_p0]. Qed.
Lemma sex_p2 : root_path sex_mb 2 [0; 1; 2]%nat. Proof. apply (rp_step sex_mb 2 1 [0; 1]%nat); [reflexivity|apply sex_p1]. Qed.
Lemma sex_p3 : root_path sex_mb 3 [0; 1; 3]%nat. Proof. apply (rp_step sex_mb 3 1 [0; 1]%nat); [reflexivity|apply sex_p1]. Qed.
Lemma turn_wrong : exists mb m0 m name ref b r p J ch c0 c Xb Xr X,
  wf_mb mb /\ rigid_mb mb /\ mbc_ok mb m0 /\ config_ok mb m0 /\ after_kinematics mb m0 m /\ one_root mb /\
  (b < nrBodies mb)%nat /\ (r < nrBodies mb)%nat /\ sBodyIndexByName mb name = Ok (Z.of_nat b) /\ sBodyIndexByName mb ref = Ok (Z.of_nat r) /\
  built_relative mb name ref p J /\ ~ anc mb b r /\ ~ anc mb r b /\ joined mb b r /\
  subMultiBody mb J = Ok ch /\ mbc_ok ch c0 /\ along (jc_path J) m0 c0 /\ after_kinematics ch c0 c /\
  nth_error (bodyPosW m) b = Some Xb /\ nth_error (bodyPosW m) r = Some Xr /\
  nth_error (bodyPosW c) (length (jc_path J) - 1) = Some X /\ X <> relative_pose Xb Xr.
Proof.
  destruct sex_kin as (m & AM). assert (Lb : (2 < nrBodies sex_mb)%nat) by (apply Nat.ltb_lt; reflexivity). assert (Lr : (3 < nrBodies sex_mb)%nat) by (apply Nat.ltb_lt; reflexivity).
  assert (Eb : sBodyIndexByName sex_mb "arm" = Ok (Z.of_nat 2)) by reflexivity. assert (Er : sBodyIndexByName sex_mb "head" = Ok (Z.of_nat 3)) by reflexivity.
  destruct (ref_ctor_ok rg sex_mb "arm" "head" v0 2 3 sex_wf sex_root Lb Lr Eb Er) as (J & dn & up & EC & _).
  assert (HB : built_relative sex_mb "arm" "head" v0 J) by (exists rg, J; auto 10).
  destruct (rel_chain_top sex_mb "arm" "head" 2 3 v0 J sex_wf sex_rigid sex_root Lb Lr Eb Er HB) as (ch & E & HC & LL & G).
  pose proof (kin_run sex_mb sex_m m sex_wf sex_rigid sex_ok sex_config AM) as RU. pose proof (r_ok _ _ _ RU) as OK.
  assert (Nb : nth_error (bodyPosW m) 2 = Some (posW m 2)) by (apply nth_error_nth'; rewrite (ok_bodyPosW _ _ OK); exact Lb).
  assert (Nr : nth_error (bodyPosW m) 3 = Some (posW m 3)) by (apply nth_error_nth'; rewrite (ok_bodyPosW _ _ OK); exact Lr).
  assert (Vr : nth_error (bodyVelB m) 3 = Some (vb m 3)) by (apply nth_error_nth'; rewrite (ok_bodyVelB _ _ OK); exact Lr).
  assert (Vb : nth_error (bodyVelB m) 2 = Some (vb m 2)) by (apply nth_error_nth'; rewrite (ok_bodyVelB _ _ OK); exact Lb).
  destruct (G sex_m m _ _ sex_ok sex_config AM Nr Vr) as ((c0 & c & KC & AL & AK) & GG).
  assert (A1 : ~ anc sex_mb 2 3) by (intro A; apply (root_path_anc _ _ _ sex_wf sex_p3) in A; cbn in A; lia).
  assert (A2 : ~ anc sex_mb 3 2) by (intro A; apply (root_path_anc _ _ _ sex_wf sex_p2) in A; cbn in A; lia).
  destruct (LL ltac:(lia) ltac:(tauto)) as (l & EL).
  assert (NL : nth_error (jc_path J) (length (jc_path J) - 1) = Some 2%nat).
  { rewrite EL, app_length. cbn [length]. replace (length l + 1 - 1)%nat with (length l) by lia. rewrite nth_error_app2, Nat.sub_diag by lia. reflexivity. }
  destruct (GG c0 c KC AL AK _ _ _ _ NL Nb Vb ltac:(constructor)) as (X & V & NX & _).
  exists sex_mb, sex_m, m, "arm"%string, "head"%string, 2%nat, 3%nat, v0, J, ch, c0, c, (posW m 2), (posW m 3), X.
  split; [exact sex_wf|]. split; [exact sex_rigid|]. split; [exact sex_ok|]. split; [exact sex_config|]. split; [exact AM|]. split; [exact sex_root|].
  split; [exact Lb|]. split; [exact Lr|]. split; [exact Eb|]. split; [exact Er|]. split; [exact HB|]. split; [exact A1|]. split; [exact A2|].
  split; [right; left; exists 1%nat; split; [lia|]; split; [apply (root_path_anc _ _ _ sex_wf sex_p2)|apply (root_path_anc _ _ _ sex_wf sex_p3)]; cbn; tauto|].
  split; [exact E|]. split; [exact KC|]. split; [exact AL|]. split; [exact AK|]. split; [exact Nb|]. split; [exact Nr|]. split; [exact NX|].
  intro EQ. assert (N23 : 2%nat <> 3%nat) by lia. assert (N10 : 1%nat <> 0%nat) by lia.
  pose proof (turn_exact_top sex_mb "arm" "head" 2 3 v0 J sex_wf sex_rigid sex_root Lb Lr Eb Er HB 1 2 3 N10 sex_par2 sex_par3 N23 (anc_refl _ _) (anc_refl _ _)
    ch sex_m m c0 c _ _ E sex_ok sex_config AM KC AL AK Nb Nr _ _ eq_refl eq_refl) as TE.
  rewrite NX, EQ in TE. destruct TE as (TE & _). specialize (TE eq_refl). apply (f_equal (fun X => vx (trR X))) in TE. cbn in TE. lra.
Qed.

(** The robot of C23, whose placements are all translations. *)
Lemma rex_commute b r : placements_commute rex_mb b r.
Proof.
  assert (G : forall k, rotE (nth k (mb_Xt rex_mb) ptid) = mid) by (intro k; do 5 (destruct k as [|k]; [reflexivity|]); destruct k; reflexivity).
  intros i k d _ _ _ _ _ _ Xi Xk. assert (Ri : rotE Xi = mid) by apply G. assert (Rk : rotE Xk = mid) by apply G.
  destruct Xi as [Ei ri], Xk as [Ek rk]. cbn [rotE] in Ri, Rk. subst Ei Ek. unfold ptmul, ptinv; cbn [rotE trR]. apply PT_ext; cbn [rotE trR]; [reflexivity|v3ring].
Qed.
