(** The safe versions of the Jacobian functions. *)
From Coq Require Import Reals String ZArith Bool Arith List Lia Lra.
From Verif Require Import Res ResP SMap Vec VecP Sva SvaP Mat JointM MultiBodyM KinM DynM JacM Spec SpecDyn SpecJac SpecConf SpecRel SpecSafe
  JointP KinP KinPathP MbP TreeP DynP DynCP ConvP KinFinP ConfFinP DerivTreeP JacP JacFinP JacFin2P JacBlkP RelP.
Import ListNotations.
Open Scope nat_scope.

(** ** Guards *)
Lemma guarded_base {A} (u : res A) : (exists a, u = Ok a) -> guarded True u u.
Proof. intro H. split; [auto|tauto]. Qed.
Lemma guarded_check {A} (Q P : Prop) (c : res unit) (r u : res A) :
  (c = Throw DomainError /\ ~ Q) \/ (c = Ok tt /\ Q) -> (Q -> guarded P r u) -> guarded (Q /\ P) (c ;;; r) u.
Proof.
  intros [(-> & N)|(-> & HQ)] G; cbn [bind].
  - split; tauto.
  - specialize (G HQ). destruct G as (G1 & G2). split; [tauto|]. intro N. apply G2. tauto.
Qed.
Lemma guarded_iff {A} (P Q : Prop) (r u : res A) : (P <-> Q) -> guarded P r u -> guarded Q r u.
Proof. intros E (G1 & G2). split; tauto. Qed.
Lemma guarded_if {A} (b : bool) (Q P : Prop) (r u : res A) : (b = true <-> Q) -> (Q -> guarded P r u) ->
  guarded (Q /\ P) (if negb b then Throw DomainError else r) u.
Proof.
  intros E G. destruct b; cbn [negb].
  - assert (HQ : Q) by (now apply E). destruct (G HQ) as (G1 & G2). split; [tauto|]. intro N. apply G2. tauto.
  - assert (HQ : ~ Q) by (intro HQ; apply E in HQ; discriminate). split; tauto.
Qed.
Lemma ck_pos mb m : (checkMatchBodyPos mb m = Throw DomainError /\ ~ pos_sized mb m) \/ (checkMatchBodyPos mb m = Ok tt /\ pos_sized mb m).
Proof. unfold pos_sized, checkMatchBodyPos. destruct (checkB mb (bodyPosW m)). destruct (Nat.eq_dec (length (bodyPosW m)) (nrBodies mb)); auto. Qed.
Lemma ck_acc mb m : (checkMatchBodyAcc mb m = Throw DomainError /\ ~ acc_sized mb m) \/ (checkMatchBodyAcc mb m = Ok tt /\ acc_sized mb m).
Proof. unfold acc_sized, checkMatchBodyAcc. destruct (checkB mb (bodyAccB m)). destruct (Nat.eq_dec (length (bodyAccB m)) (nrBodies mb)); auto. Qed.
Lemma ck_vec {A} mb (v : list A) : (checkMatchBodiesVector mb v = Throw DomainError /\ ~ length v = nrBodies mb) \/ (checkMatchBodiesVector mb v = Ok tt /\ length v = nrBodies mb).
Proof. destruct (checkB mb v). destruct (Nat.eq_dec (length v) (nrBodies mb)); auto. Qed.
Lemma ck_vel mb m : (checkMatchBodyVel mb m = Throw DomainError /\ ~ vel_sized mb m) \/ (checkMatchBodyVel mb m = Ok tt /\ vel_sized mb m).
Proof.
  unfold vel_sized, checkMatchBodyVel. destruct (ck_vec mb (bodyVelW m)) as [(-> & N)|(-> & S)]; cbn [bind]; [left; tauto|].
  destruct (ck_vec mb (bodyVelB m)) as [(-> & N)|(-> & T)]; tauto.
Qed.
Lemma ck_jconf mb m : (checkMatchJointConf mb m = Throw DomainError /\ ~ jconf_sized mb m) \/ (checkMatchJointConf mb m = Ok tt /\ jconf_sized mb m).
Proof. unfold jconf_sized, checkMatchJointConf. destruct (checkJ mb (jointConfig m)). destruct (Nat.eq_dec (length (jointConfig m)) (nrJoints mb)); auto. Qed.
Lemma ck_tree mb m : (checkMatchParentToSon mb m = Throw DomainError /\ ~ tree_sized mb m) \/ (checkMatchParentToSon mb m = Ok tt /\ tree_sized mb m).
Proof. unfold tree_sized, checkMatchParentToSon. destruct (checkJ mb (parentToSon m)). destruct (Nat.eq_dec (length (parentToSon m)) (nrJoints mb)); auto. Qed.
Lemma ck_ms mb m : (checkMatchMotionSubspace mb m = Throw DomainError /\ ~ subspace_sized mb m) \/ (checkMatchMotionSubspace mb m = Ok tt /\ subspace_sized mb m).
Proof.
  unfold subspace_sized, checkMatchMotionSubspace. destruct (checkEach_spec mb (motionSubspace m) jdof).
  destruct (sized_dec mb jdof (motionSubspace m)); auto.
Qed.

(** ** Paths *)
Lemma list_max_in l n : list_max l < n -> forall k, In k l -> k < n.
Proof. intros H k I. pose proof (proj1 (list_max_le l (list_max l)) (le_n _)) as F. rewrite Forall_forall in F. specialize (F k I). lia. Qed.
Lemma list_max_lt_iff l n : l <> [] -> (list_max l < n <-> forall k, In k l -> k < n).
Proof. intro N. rewrite List.list_max_lt by exact N. rewrite Forall_forall. reflexivity. Qed.
Lemma checkPath_ok mb J : wf_mb mb -> jac_fits mb J -> checkPath mb J = Ok tt.
Proof.
  intros W F. unfold checkPath. pose proof (jf_ne _ _ F) as N. pose proof (jf_in _ _ F) as I. destruct (jc_path J) as [|k l]; [congruence|].
  rewrite (proj2 (Nat.ltb_lt _ _)); auto. apply list_max_lt_iff; auto. rewrite (wf_nrJoints mb W). auto.
Qed.
Lemma checkPath_leaves mb J : leaves mb J -> checkPath mb J = Throw DomainError.
Proof.
  intros (k & I & L). unfold checkPath. destruct (jc_path J) as [|a l]; [destruct I|].
  destruct (Nat.ltb_spec (list_max (a :: l)) (nrJoints mb)) as [H|H]; auto. exfalso. pose proof (list_max_in _ _ H k I). lia.
Qed.
Lemma back_last {A} (l : list A) d : l <> [] -> back l = Ok (last l d).
Proof.
  intro N. destruct (exists_last N) as (l' & a & ->). unfold back. rewrite rev_app_distr. cbn. now rewrite last_last.
Qed.
Lemma last_in {A} (l : list A) d : l <> [] -> In (last l d) l.
Proof. intro N. destruct (exists_last N) as (l' & a & ->). rewrite last_last. apply in_or_app. cbn. auto. Qed.

Section Jac.
Variables (mb : MultiBody) (m : MBC) (J : Jac).
Hypothesis W : wf_mb mb.
Hypothesis F : jac_fits mb J.
Let N := last (jc_path J) 0.
Lemma N_in : N < nrBodies mb. Proof. apply (jf_in _ _ F). apply last_in. apply F. Qed.
Lemma backN : back (jc_path J) = Ok N. Proof. apply back_last. apply F. Qed.
Lemma f_path : pos_sized mb m -> subspace_sized mb m -> path_ok mb m J.
Proof. intros P M. destruct F. constructor; auto. Qed.
Lemma fits_jac v : length v = length (jc_jac J) -> jac_fits mb (with_jac v J).
Proof. intro L. destruct F. constructor; auto. change (length v = path_dof mb (jc_path J)). congruence. Qed.
Lemma fits_dot v : length v = length (jc_dot J) -> jac_fits mb (with_dot v J).
Proof. intro L. destruct F. constructor; auto. change (length v = path_dof mb (jc_path J)). congruence. Qed.
Lemma fits_point p : jac_fits mb (set_point p J).
Proof. destruct F. constructor; auto. Qed.

Lemma jac_total X : pos_sized mb m -> subspace_sized mb m -> exists J1, jacobian_ mb m X J = Ok J1 /\ jac_fits mb J1.
Proof.
  intros P M. rewrite (jacobian__ok mb m X J W (f_path P M)). eexists. split; [reflexivity|]. apply fits_jac.
  rewrite (path_dof_idx mb m J _ W (f_path P M)); [symmetry; apply (jf_jac _ _ F)|].
  intros idx Hi. unfold jcols. rewrite map_length. apply (sized_nth _ _ _ _ M). rewrite (wf_nrJoints mb W). apply (jf_in _ _ F). now apply nth_In.
Qed.
Lemma toref_total J1 : pos_sized mb m -> jac_fits mb J1 -> exists J2, to_ref m J1 = Ok J2 /\ jac_fits mb J2.
Proof.
  intros P F1. unfold to_ref. destruct (Z.gtb_spec (jc_ref J1) 0) as [G|G]; [|eauto].
  pose proof (jf_ref _ _ F1) as R. replace (jc_ref J1) with (Z.of_nat (Z.to_nat (jc_ref J1))) by lia.
  rewrite getz_nat, (get_nth (bodyPosW m) _ ptid) by (unfold pos_sized in P; lia). cbn [bind]. eexists. split; [reflexivity|].
  destruct F1. constructor; auto. cbn. now rewrite map_length.
Qed.
Lemma jacobian_at_total X : pos_sized mb m -> subspace_sized mb m -> exists J1, jacobian_at mb m X J = Ok J1 /\ jac_fits mb J1.
Proof. intros P M. unfold jacobian_at. destruct (jac_total X P M) as (J1 & -> & F1). cbn [bind]. now apply toref_total. Qed.
Lemma getP : pos_sized mb m -> get (bodyPosW m) N = Ok (nth N (bodyPosW m) ptid).
Proof. intro P. apply get_nth. unfold pos_sized in P. rewrite P. exact N_in. Qed.
Lemma jacobian_total : pos_sized mb m -> subspace_sized mb m -> exists J1, jacobian mb m J = Ok J1 /\ jac_fits mb J1.
Proof.
  intros P M. unfold jacobian. rewrite backN. cbn [bind]. rewrite getP by auto. cbn [bind].
  match goal with |- context [jacobian_ mb m ?X J] => destruct (jac_total X P M) as (J1 & -> & F1) end. cbn [bind]. now apply toref_total.
Qed.
Lemma bodyJacobian_total : pos_sized mb m -> subspace_sized mb m -> exists J1, bodyJacobian mb m J = Ok J1 /\ jac_fits mb J1.
Proof. intros P M. unfold bodyJacobian. rewrite backN. cbn [bind]. rewrite getP by auto. cbn [bind]. now apply jac_total. Qed.
Lemma vec_total Ef X vec : pos_sized mb m -> subspace_sized mb m ->
  exists J1, (s <- for_up (length (jc_path J)) (vec_step mb m Ef X vec J) (0, jc_jac J) ;; Ok (with_jac (snd s) J)) = Ok J1 /\ jac_fits mb J1.
Proof.
  intros P M. destruct (vec_loop_ok mb m Ef X vec J W (f_path P M)) as (jac & E & A & _). rewrite E. cbn [bind snd]. eexists. split; [reflexivity|].
  apply fits_jac. apply (f_equal (@length V3)) in A. now rewrite !map_length in A.
Qed.
Lemma vectorJacobian_total vec : pos_sized mb m -> subspace_sized mb m -> exists J1, vectorJacobian mb m vec J = Ok J1 /\ jac_fits mb J1.
Proof. intros P M. unfold vectorJacobian. rewrite backN. cbn [bind]. rewrite getP by auto. cbn [bind]. now apply vec_total. Qed.
Lemma vectorBodyJacobian_total vec : pos_sized mb m -> subspace_sized mb m -> exists J1, vectorBodyJacobian mb m vec J = Ok J1 /\ jac_fits mb J1.
Proof. intros P M. unfold vectorBodyJacobian. rewrite backN. cbn [bind]. rewrite getP by auto. cbn [bind]. now apply vec_total. Qed.
Lemma dot_total col X V : pos_sized mb m -> vel_sized mb m -> subspace_sized mb m ->
  exists J1, (s <- for_up (length (jc_path J)) (dot_step mb m col X V J) (0, jc_dot J) ;; Ok (with_dot (snd s) J)) = Ok J1 /\ jac_fits mb J1.
Proof.
  intros P (_ & V1) M. rewrite (dot_loop_ok mb m col X V J W (f_path P M) V1). cbn [bind snd]. eexists. split; [reflexivity|].
  apply fits_dot. rewrite (jf_dot _ _ F). rewrite (concat_map_length _ (dofi mb)); [reflexivity|].
  intros k Hk. unfold dcols. rewrite map_length. apply (sized_nth _ _ _ _ M). rewrite (wf_nrJoints mb W). now apply (jf_in _ _ F).
Qed.
Lemma getVB : vel_sized mb m -> get (bodyVelB m) N = Ok (nth N (bodyVelB m) sv0).
Proof. intros (_ & P). apply get_nth. rewrite P. exact N_in. Qed.
Lemma getVW : vel_sized mb m -> get (bodyVelW m) N = Ok (nth N (bodyVelW m) sv0).
Proof. intros (P & _). apply get_nth. rewrite P. exact N_in. Qed.
Lemma jacobianDot_total : pos_sized mb m -> vel_sized mb m -> subspace_sized mb m -> exists J1, jacobianDot mb m J = Ok J1 /\ jac_fits mb J1.
Proof. intros P V M. unfold jacobianDot. rewrite backN. cbn [bind]. rewrite getP, getVB, getVW by auto. cbn [bind]. now apply dot_total. Qed.
Lemma bodyJacobianDot_total : pos_sized mb m -> vel_sized mb m -> subspace_sized mb m -> exists J1, bodyJacobianDot mb m J = Ok J1 /\ jac_fits mb J1.
Proof. intros P V M. unfold bodyJacobianDot. rewrite backN. cbn [bind]. rewrite getP, getVB by auto. cbn [bind]. now apply dot_total. Qed.

Lemma subMultiBody_total : exists c, subMultiBody mb J = Ok c.
Proof.
  unfold subMultiBody.
  assert (IN : forall k, k < length (jc_path J) -> nth k (jc_path J) 0 < nrBodies mb) by (intros; apply (jf_in _ _ F); now apply nth_In).
  assert (GP : forall k, k < length (jc_path J) -> get (jc_path J) k = Ok (nth k (jc_path J) 0)) by (intros; now apply get_nth).
  assert (GS : forall k, k < length (jc_path J) -> get (jc_sign J) k = Ok (nth k (jc_sign J) 0%R)) by (intros; apply get_nth; now rewrite (jf_sign _ _ F)).
  assert (GJ : forall k, k < nrBodies mb -> get (mb_joints mb) k = Ok (nth k (mb_joints mb) jd)) by (intros; now apply get_joint).
  assert (GX : forall k, k < nrBodies mb -> get (mb_Xt mb) k = Ok (nth k (mb_Xt mb) ptid)) by (intros; apply get_nth; now rewrite (wf_Xt_len mb W)).
  rewrite (map_res_all_Ok _ (fun k => nth k (mb_bodies mb) bd)).
  2:{ intros k Hk. apply get_nth. now apply (jf_in _ _ F). }
  cbn [bind].
  rewrite (map_res_all_Ok _ (fun k => if Req_EM_T (nth k (jc_sign J) 0%R) (-1) then set_forward (nth (nth k (jc_path J) 0) (mb_joints mb) jd) (negb (jfwd (nth (nth k (jc_path J) 0) (mb_joints mb) jd))) else nth (nth k (jc_path J) 0) (mb_joints mb) jd)).
  2:{ intros k Hk. apply in_seq in Hk. rewrite GP by lia. cbn [bind]. rewrite GJ by (apply IN; lia). cbn [bind]. rewrite GS by lia. reflexivity. }
  cbn [bind].
  rewrite (map_res_all_Ok _ (fun k => match sub_Xt mb J k (nth k (jc_path J) 0) with Ok X => X | _ => ptid end)).
  2:{ intros k Hk. apply in_seq in Hk. rewrite GP by lia. cbn [bind]. unfold sub_Xt. rewrite GS by lia. cbn [bind].
      destruct k as [|p].
      - rewrite GX by (apply IN; lia). destruct (Req_EM_T _ _); reflexivity.
      - rewrite !GX by (apply IN; lia). rewrite (GS p), (GP p) by lia. cbn [bind]. rewrite GX by (apply IN; lia). cbn [bind].
        destruct (Req_EM_T (nth p (jc_sign J) 0%R) (-1)); [|reflexivity]. destruct (Req_EM_T _ _); reflexivity. }
  cbn [bind].
  match goal with |- exists c, MultiBody_ctor ?b ?j ?p ?s ?u ?X = Ok c => destruct (MultiBody_ctor_spec b j p s u X) as (c & E & _) end.
  - rewrite !map_length, seq_length. lia.
  - eauto.
Qed.
Lemma fullJacobian_total jac r : mcols jac = jac_dof J -> mrows jac = 6 -> mcols r = mb_nrDof mb -> mrows r = 6 -> exists M, fullJacobian mb J jac r = Ok M.
Proof.
  intros C R C' R'. unfold fullJacobian, set_block. rewrite (proj2 (andb_true_iff _ _)) by (split; apply Nat.leb_le; lia). cbn [bind].
  rewrite addFull_blocks by (auto; apply F).
  match goal with |- exists M, addFullJacobian_compact ?bs _ ?r0 = _ => destruct (addC_ok bs jac r0) as (M & E & _) end; eauto.
  - cbn [mcols]. rewrite C, C'. unfold jac_dof. rewrite (jf_jac _ _ F). apply (pblocks_fits mb (jc_path J) 0); auto. apply F.
  - cbn [mrows]. lia.
Qed.
Lemma translate_total jac p r : last_body_in m J -> length jac = jac_dof J -> length r = jac_dof J -> exists v, translateJacobian m jac p r J = Ok v.
Proof.
  intros L A B. unfold translateJacobian. rewrite backN. cbn [bind]. rewrite (get_nth (bodyPosW m) N ptid) by exact L. cbn [bind].
  unfold translate_cols. match goal with |- context [for_up ?n ?f r] => destruct (for_up_inv (fun _ v => length v = length r) f n r) as (v & E & _) end; eauto.
  intros i v Hi Lv. rewrite (get_nth jac i sv0) by auto. cbn [bind]. rewrite set_ok by lia. eexists. split; [reflexivity|]. now rewrite upd_length.
Qed.
Lemma velocity_at_total X : vel_sized mb m -> exists v, velocity_at m X J = Ok v.
Proof. intro V. unfold velocity_at. rewrite backN. cbn [bind]. rewrite getVB by auto. cbn [bind]. eauto. Qed.
Lemma velocity_total : pos_sized mb m -> vel_sized mb m -> exists v, velocity m J = Ok v.
Proof. intros P V. unfold velocity. rewrite backN. cbn [bind]. rewrite getP, getVB by auto. cbn [bind]. eauto. Qed.
Lemma bodyVelocity_total : vel_sized mb m -> exists v, bodyVelocity m J = Ok v.
Proof. intro V. unfold bodyVelocity. rewrite backN. cbn [bind]. rewrite getVB by auto. cbn [bind]. eauto. Qed.
Lemma naccB_total : tree_sized mb m -> jvel_sized mb m -> length (bodyVelB m) = nrBodies mb -> exists A, normalAccB_ m (jc_path J) = Ok A.
Proof.
  intros T V B. unfold normalAccB_, tree_sized, jvel_sized in *. rewrite (wf_nrJoints mb W) in T, V.
  assert (G : forall l, (forall k, In k l -> k < nrBodies mb) -> forall a, exists A, for_each l (fun i accel => X <- get (parentToSon m) i ;; vj <- get (jointVelocity m) i ;; vb <- get (bodyVelB m) i ;; Ok (svadd (ptm X accel) (scross vb vj))) a = Ok A).
  { induction l as [|k l IH]; intros IN a; cbn [for_each]; [eauto|]. pose proof (IN k (or_introl eq_refl)).
    rewrite (get_nth (parentToSon m) k ptid), (get_nth (jointVelocity m) k sv0), (get_nth (bodyVelB m) k sv0) by lia. cbn [bind]. apply IH. intros; apply IN; now right. }
  apply G. apply F.
Qed.
Lemma nN_at_total A X V : vel_sized mb m -> exists v, normalAcceleration_N_at m A X V J = Ok v.
Proof. intro H. unfold normalAcceleration_N_at. rewrite backN. cbn [bind]. rewrite getVB by auto. cbn [bind]. eauto. Qed.
Lemma nN_total A : pos_sized mb m -> vel_sized mb m -> exists v, normalAcceleration_N m A J = Ok v.
Proof. intros P H. unfold normalAcceleration_N. rewrite backN. cbn [bind]. rewrite getP, getVW, getVB by auto. cbn [bind]. eauto. Qed.
End Jac.
