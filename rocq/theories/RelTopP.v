(** Relative Jacobians times rates. *)
From Coq Require Import Reals String ZArith Bool Arith List Lia Lra.
From Verif Require Import Res ResP SMap Vec VecP Sva SvaP Mat JointM MultiBodyM KinM DynM JacM Spec SpecDyn SpecJac SpecRel
  JointP KinP KinPathP MbP TreeP DynP DynCP ConvP KinFinP SpecDeriv DerivP DerivTreeP JacP JacFinP JacFin2P RelP.
Import ListNotations.
Open Scope R_scope.

Lemma path_sum_cat f l l' : path_sum f (l ++ l') = svadd (path_sum f l) (path_sum f l').
Proof.
  revert l. induction l' as [|a l' IH]; intro l.
  - rewrite app_nil_r. cbn. now rewrite svadd_0_r.
  - change (a :: l') with ([a] ++ l'). rewrite app_assoc, !IH, path_sum_app. unfold path_sum at 4. cbn [fold_left]. rewrite svadd_0_l. now rewrite svadd_assoc.
Qed.
Lemma path_sum_rev f l : path_sum f (rev l) = path_sum f l.
Proof.
  induction l as [|a l IH]; [reflexivity|]. cbn [rev]. change (a :: l) with ([a] ++ l). rewrite !path_sum_cat, IH. apply svadd_comm.
Qed.
Lemma sum_minus a b c : svsub (svadd a b) (svadd a c) = svsub b c.
Proof. svring. Qed.
Lemma sub_as_add a b : svadd (svscale (-1) a) b = svsub b a.
Proof. svring. Qed.
Lemma sub_self_add a b c : svsub (svadd a b) c = svadd (svsub (svadd a b) (svadd a c)) a.
Proof. svring. Qed.
Lemma sub_r_0 a : svsub a sv0 = a.
Proof. svring. Qed.
Lemma up_alone a b : svsub (svadd a b) a = b.
Proof. svring. Qed.
Lemma seq_shift_gen n d : seq (0 + d) n = map (fun k => (d + k)%nat) (seq 0 n).
Proof.
  cbn [Nat.add]. rewrite <- (Nat.add_0_r d) at 1. generalize 0%nat. induction n as [|n IH]; intro s; [reflexivity|].
  cbn [seq map]. f_equal. rewrite <- IH. f_equal. lia.
Qed.
(** The point, seen from the reference body. *)
Lemma rel_point Xb Xr p U : rigid Xb -> rigid Xr ->
  turn (rotE Xr) (ptm (pttr (trR (ptmul (pttr p) Xb))) U) = point_velocity (relative_pose Xb Xr) p (ptm Xb U).
Proof.
  intros RB RR. rewrite <- at_world2. 
  replace (ptm (mkPT (mtr (rotE (relative_pose Xb Xr))) p) (ptm Xb U)) with (ptm (mkPT (rotE Xr) (trR (ptmul (pttr p) Xb))) U).
  - unfold turn, ptm, pttr, ptmul. cbn [rotE trR]. rewrite !mapp_id. cbn [sang slin]. reflexivity.
  - rewrite <- ptm_mul by auto. f_equal. unfold relative_pose, ptmul, pttr, ptinv. cbn [rotE trR]. f_equal.
    rewrite mtr_mmul, mtr_mtr, <- mmul_assoc, SO3_l, mmul_id_r by auto. reflexivity.
Qed.
Lemma turn_linear E : (forall a b, turn E (svadd a b) = svadd (turn E a) (turn E b)) /\ (forall k a, turn E (svscale k a) = svscale k (turn E a)).
Proof. split; intros; unfold turn; apply SV_ext; cbn [sang slin svadd svscale]; rewrite ?mapp_add, ?mapp_scale; reflexivity. Qed.
Lemma turn_mul A B v : turn A (turn B v) = turn (mmul A B) v.
Proof. unfold turn. cbn [sang slin]. now rewrite !mapp_mmul. Qed.
Lemma turn_id v : turn mid v = v.
Proof. unfold turn. rewrite !mapp_id. now destruct v. Qed.

Section Run.
Variables (mb : MultiBody) (m0 m : MBC).
Hypothesis W : wf_mb mb.
Hypothesis RR : run mb m0 m.
Let K := r_ok _ _ _ RR.
(** Velocity given by joint k, in world coordinates, for the rates a. *)
Definition wvel (a : list (list R)) (k : nat) : SV := ptm (ptinv (posW m k)) (smul (jS (nth k (mb_joints mb) jd)) (nth k a [])).
Lemma world_vel i l : root_path mb i l -> vb m i = ptm (posW m i) (path_sum (wvel (alpha m)) l).
Proof.
  intro RP. destruct (root_path_lt _ _ _ W RP) as (Hi & _). rewrite (vb_closed mb m0 m W RR i l RP), ptm_path_sum. apply path_sum_ext.
  intros k Hk. unfold relX, wvel. pose proof (root_path_in _ _ _ W RP k Hk). rewrite ptm_mul by (apply rigid_inv; apply (r_rw _ _ _ RR); auto). reflexivity.
Qed.
Definition rcols (s : R) (X : PT) (k : nat) : list SV := map (fun c => ptm (ptmul X (ptinv (posW m k))) (svscale s c)) (jS (nth k (mb_joints mb) jd)).
Variables (b r : nat) (p : V3) (dn up : list nat) (J : Jac).
Hypothesis IN : forall k, In k (dn ++ up) -> (k < nrBodies mb)%nat.
Hypothesis H : rel_object mb b r p dn up J.
Lemma rel_path_ok : path_ok mb m J.
Proof.
  destruct H as (H1 & H2 & H3 & H4 & H5 & H6 & H7). constructor; rewrite ?H1, ?H2; auto.
  - now rewrite !app_length, !map_length.
  - apply (ok_bodyPosW _ _ K).
  - apply (ok_motionSubspace _ _ K).
Qed.
Lemma rel_jcols X : map (jcols m X J) (seq 0 (length (jc_path J))) = map (rcols (-1) X) dn ++ map (rcols 1 X) up.
Proof.
  destruct H as (H1 & H2 & _). rewrite H1, app_length, seq_app, map_app. f_equal.
  - rewrite <- (map_seq_nth (rcols (-1) X) dn 0%nat). apply map_ext_in. intros k Hk. apply in_seq in Hk. unfold jcols, rcols.
    rewrite H1, H2, !app_nth1 by (rewrite ?map_length; lia). rewrite (nth_map_lt _ _ _ 0%nat) by lia.
    rewrite (r_ms _ _ _ RR); [reflexivity|]. apply IN, in_app_iff. left. apply nth_In. lia.
  - rewrite <- (map_seq_nth (rcols 1 X) up 0%nat).
    rewrite (seq_shift_gen (length up)).
    rewrite map_map. apply map_ext_in. intros k Hk. apply in_seq in Hk. unfold jcols, rcols.
    rewrite H1, H2. rewrite (app_nth2 dn up) by lia. rewrite (app_nth2 (map _ dn)) by (rewrite map_length; lia). rewrite map_length.
    replace (length dn + k - length dn)%nat with k by lia. rewrite (nth_map_lt _ _ _ 0%nat) by lia.
    rewrite (r_ms _ _ _ RR); [reflexivity|]. apply IN, in_app_iff. right. apply nth_In. lia.
Qed.
Lemma rcols_len s X k : (k < nrBodies mb)%nat -> length (rcols s X k) = dofi mb k.
Proof. intro L. unfold rcols. rewrite map_length. now apply S_len. Qed.
Lemma rcols_times s X a l : sized mb jdof a -> (forall k, In k l -> (k < nrBodies mb)%nat) ->
  smul (concat (map (rcols s X) l)) (on_path l a) = ptm X (svscale s (path_sum (wvel a) l)).
Proof.
  intros SZ Hl. unfold on_path. rewrite smul_concat.
  - rewrite <- (path_sum_scale s), ptm_path_sum. apply path_sum_ext. intros k Hk. unfold rcols, wvel.
    rewrite (smul_lin (fun c => ptm (ptmul X (ptinv (posW m k))) (svscale s c))).
    + rewrite ptm_mul by (apply rigid_inv; apply (r_rw _ _ _ RR); auto). f_equal. symmetry. generalize (smul (jS (nth k (mb_joints mb) jd)) (nth k a [])). intro v.
      symmetry. apply ptm_scale.
    + intros. rewrite svscale_add. apply ptm_add.
    + intros. rewrite svscale_svscale, Rmult_comm, <- svscale_svscale. apply ptm_scale.
  - intros k Hk. rewrite rcols_len by auto. symmetry. apply (sized_nth _ _ _ _ SZ). rewrite (wf_nrJoints _ W). auto.
Qed.
Definition rel_cols X := concat (map (rcols (-1) X) dn ++ map (rcols 1 X) up).
Lemma rel_jac_ X : jacobian_ mb m X J = Ok (with_jac (rel_cols X) J).
Proof. rewrite jacobian__ok by (auto using rel_path_ok). now rewrite rel_jcols. Qed.
Lemma rel_cols_length X : length (rel_cols X) = path_dof mb (dn ++ up).
Proof.
  unfold rel_cols. rewrite concat_app, app_length, path_dof_app. f_equal; (apply concat_map_length; intros k Hk; apply rcols_len, IN, in_app_iff; auto).
Qed.
Lemma on_path_len {A} (v : list (list A)) l : (forall k, In k l -> (k < nrBodies mb)%nat) -> sized mb jdof v -> length (on_path l v) = path_dof mb l.
Proof.
  intros Hl S. unfold on_path, path_dof. apply concat_map_length. intros k I. apply (sized_nth _ _ _ _ S). rewrite (wf_nrJoints _ W). auto.
Qed.
Lemma rel_times X a : sized mb jdof a -> smul (rel_cols X) (on_path (dn ++ up) a) = ptm X (svsub (path_sum (wvel a) up) (path_sum (wvel a) dn)).
Proof.
  intro SZ. unfold rel_cols. rewrite concat_app. unfold on_path. rewrite map_app, concat_app.
  fold (on_path dn a). fold (on_path up a).
  assert (I1 : forall k, In k dn -> (k < nrBodies mb)%nat) by (intros; apply IN, in_app_iff; auto).
  assert (I2 : forall k, In k up -> (k < nrBodies mb)%nat) by (intros; apply IN, in_app_iff; auto).
  rewrite smul_app.
  - rewrite !rcols_times by auto. rewrite svscale_1, <- ptm_add. now rewrite sub_as_add.
  - rewrite on_path_len by auto. apply concat_map_length. intros; now apply rcols_len, I1.
Qed.
(** jacobian, when the path ends at body b. *)
Lemma rel_jacobian : back (dn ++ up) = Ok b -> (b < nrBodies mb)%nat -> (r < nrBodies mb)%nat ->
  exists J1, jacobian mb m J = Ok J1 /\ rel_object mb b r p dn up J1 /\ forall a, sized mb jdof a ->
    length (on_path (dn ++ up) a) = jac_dof J1 /\
    smul (jc_jac J1) (on_path (dn ++ up) a) =
      turn (if (r =? 0)%nat then mid else rotE (posW m r))
        (ptm (pttr (trR (ptmul (pttr p) (posW m b)))) (svsub (path_sum (wvel a) up) (path_sum (wvel a) dn))).
Proof.
  intros BK Hb Hr. pose proof H as (H1 & H2 & H3 & H4 & H5 & H6 & H7).
  unfold jacobian. rewrite H1, BK. cbn [bind].
  rewrite (get_nth (bodyPosW m) b ptid) by (rewrite (ok_bodyPosW _ _ K); auto). cbn [bind].
  rewrite H3, rel_jac_. cbn [bind]. unfold to_ref. cbn [jc_ref with_jac jc_jac]. rewrite H7.
  set (X := pttr (trR (ptmul (pttr p) (posW m b)))).
  destruct (r =? 0)%nat eqn:E0.
  - apply Nat.eqb_eq in E0. rewrite E0. cbn [Z.of_nat Z.gtb Z.compare]. eexists. split; [reflexivity|]. split.
    + unfold rel_object. cbn [with_jac jc_path jc_sign jc_point jc_jac jc_dot jc_body jc_ref]. rewrite rel_cols_length, <- E0. auto 10.
    + intros a SZ. unfold jac_dof. cbn [with_jac jc_jac]. rewrite rel_cols_length, on_path_len, turn_id, rel_times by auto. auto.
  - apply Nat.eqb_neq in E0. replace (Z.of_nat r >? 0)%Z with true by (symmetry; apply Z.gtb_lt; lia).
    rewrite getz_nat, (get_nth (bodyPosW m) r ptid) by (rewrite (ok_bodyPosW _ _ K); auto). cbn [bind]. eexists. split; [reflexivity|]. split.
    + unfold rel_object. cbn [with_jac jc_path jc_sign jc_point jc_jac jc_dot jc_body jc_ref]. rewrite map_length, rel_cols_length. auto 10.
    + intros a SZ. unfold jac_dof. cbn [with_jac jc_jac]. rewrite map_length, rel_cols_length, on_path_len by auto. split; auto.
      change (map (fun c => mkSV (mapp (rotE (posW m r)) (sang c)) (mapp (rotE (posW m r)) (slin c))) (rel_cols X)) with (map (turn (rotE (posW m r))) (rel_cols X)).
      rewrite (smul_lin (turn (rotE (posW m r)))) by apply turn_linear. now rewrite rel_times.
Qed.
End Run.
