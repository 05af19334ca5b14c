(** The example robot with the bodies and joints 1, 2 and 3 numbered 2, 3 and 1. *)
From Coq Require Import Reals String ZArith Bool Arith List Lia Lra.
From Verif Require Import Res ResP SMap Vec VecP Sva SvaP Mat JointM MultiBodyM KinM DynM JacM Spec SpecDyn SpecJac SpecRenum
  JointP JointFinP KinP MbP DynFinP Ex DynExP JacExP JacTopP SpecCoM CoMM MomM CoMCtorP CoMExP RenumMatP.
Import ListNotations.
Open Scope R_scope.

Definition exrn_s (i : nat) : nat := nth i [0; 2; 3; 1]%nat i.
Definition moved {A} (l : list A) : list A := match l with [a; b; c; d] => [a; d; b; c] | _ => l end.
Definition exrn_mb : MultiBody :=
  match MultiBody_ctor (moved ex_bodies) (moved ex_joints) [-1; 0; 0; 2]%Z ex_succ [-1; 0; 0; 2]%Z (moved ex_Xt) with
  | Ok mb => mb
  | _ => mkMB [] [] [] [] [] [] [] [] [] [] 0 0
  end.
Lemma exrn_ctor : MultiBody_ctor (moved ex_bodies) (moved ex_joints) [-1; 0; 0; 2]%Z ex_succ [-1; 0; 0; 2]%Z (moved ex_Xt) = Ok exrn_mb.
Proof. reflexivity. Qed.
Lemma exrn_wf : wf_mb exrn_mb.
Proof.
  apply (MultiBody_ctor_wf (moved ex_bodies) (moved ex_joints) [-1; 0; 0; 2]%Z ex_succ (moved ex_Xt)); [|apply exrn_ctor].
  constructor; try reflexivity.
  - intros i z H. do 4 (destruct i as [|i]; [simpl in H; injection H as <-; lia|]). destruct i; discriminate.
  - intros j H. apply joint_unit_ok. apply ex_joint_unit. simpl in H |- *. tauto.
Qed.
Definition exrn_m : MBC := with_jointTorque [[1; 0; 2; 0; 0; 3]; [4]; [5]; [6; 7; 8]] (with_force ex_forces ex_m).
Definition exrn_m' : MBC :=
  with_jointTorque (moved (jointTorque exrn_m)) (with_force (moved (force exrn_m)) (with_alphaD (moved (alphaD exrn_m))
    (with_alpha (moved (alpha exrn_m)) (with_q (moved (q exrn_m)) (MBC_ctor ex_garbage exrn_mb))))).
Lemma exrn_ok : mbc_ok ex_mb exrn_m.
Proof. pose proof ex_mbc_ok as H. destruct H. constructor; unfold exrn_m; auto; reflexivity. Qed.
Lemma exrn_ok' : mbc_ok exrn_mb exrn_m'.
Proof. pose proof (MBC_ctor_ok ex_garbage exrn_mb eq_refl) as H. destruct H. constructor; unfold exrn_m'; auto; reflexivity. Qed.
Lemma exrn_config : config_ok ex_mb exrn_m. Proof. exact ex_config. Qed.
Ltac each i := do 4 (destruct i as [|i]; [try reflexivity|]); try (exfalso; change (nrBodies ex_mb) with 4%nat in *; lia).
Lemma exrn_renumbered : renumbered exrn_s ex_mb exrn_mb.
Proof.
  constructor.
  - reflexivity.
  - intros i Hi. change (nrBodies ex_mb) with 4%nat in *. do 4 (destruct i as [|i]; [cbn [exrn_s nth]; unfold exrn_s; cbn [nth]; lia|]). lia.
  - intros i j Hi Hj. change (nrBodies ex_mb) with 4%nat in *. do 4 (destruct i as [|i]; [do 4 (destruct j as [|j]; [unfold exrn_s; cbn [nth]; lia|]); lia|]). lia.
  - intros i Hi. each i.
  - intros i Hi. each i.
  - intros i Hi. each i.
  - intros i Hi H. change (mb_pred ex_mb) with ex_pred in H. do 4 (destruct i as [|i]; [try reflexivity; discriminate H|]). exfalso; change (nrBodies ex_mb) with 4%nat in *; lia.
  - intros i p Hi H. change (mb_pred ex_mb) with ex_pred in H. change (nrBodies ex_mb) with 4%nat in *.
    do 4 (destruct i as [|i]; [cbn [ex_pred nth_error] in H; injection H as H; do 4 (destruct p as [|p]; [try reflexivity; discriminate H|]); lia|]). lia.
Qed.
Lemma exrn_state : renumbered_state exrn_s ex_mb exrn_m exrn_m'.
Proof. constructor; try (intros i Hi; each i). reflexivity. Qed.
Lemma exrn_torque i : (i < nrBodies ex_mb)%nat -> nth (exrn_s i) (jointTorque exrn_m') [] = nth i (jointTorque exrn_m) [].
Proof. intro Hi. each i. Qed.
Lemma exrn_J : exists J', Jacobian_ctor (fun _ _ => sv0) ex_mb "hand"%string (mkV3 1 2 3) = Ok ex_J /\ jacobian_of ex_mb 2 (mkV3 1 2 3) ex_J /\
  Jacobian_ctor (fun _ _ => sv0) exrn_mb "hand"%string (mkV3 1 2 3) = Ok J' /\ jacobian_of exrn_mb (exrn_s 2) (mkV3 1 2 3) J' /\
  jc_path ex_J = [0; 1; 2]%nat /\ jc_path J' = [0; 2; 3]%nat.
Proof.
  exists (mkJac [0; 2; 3]%nat [1; 1; 1] (pttr (mkV3 1 2 3)) (map (fun _ => sv0) (seq 0 8)) (map (fun _ => sv0) (seq 0 8)) 3 0).
  split; [exact ex_J_ctor|]. split; [exact ex_J_of|]. split; [reflexivity|]. split; [|split; reflexivity].
  constructor; try reflexivity. cbn [jc_path]. change [0; 2; 3]%nat with (([0] ++ [2]) ++ [3])%nat.
  apply rp_step with 2%nat; [reflexivity|]. apply rp_step with 0%nat; [reflexivity|]. now apply rp_root.
Qed.
(** Objects for the weighted centre of mass and momentum, each body having the same weight in both. *)
Definition exrn_w : list R := [1; 2; 3; 4].
Lemma exrn_weights i : (i < nrBodies ex_mb)%nat -> nth (exrn_s i) (moved exrn_w) 0 = nth i exrn_w 0.
Proof. intro Hi. each i. Qed.
Lemma exrn_mass : total_mass_of exrn_mb <> 0.
Proof. rewrite (rm_total exrn_s ex_mb exrn_mb exrn_renumbered). exact ex_tm0. Qed.
Lemma exrn_comj : exists c c', CoMJ_ctor_w ex_garbage (fun _ _ _ => 0) ex_mb exrn_w = Ok c /\ comj_of ex_mb exrn_w c /\
  CoMJ_ctor_w ex_garbage (fun _ _ _ => 0) exrn_mb (moved exrn_w) = Ok c' /\ comj_of exrn_mb (moved exrn_w) c'.
Proof.
  destruct (proj1 (CoMJ_ctor_w_ok ex_garbage (fun _ _ _ => 0) ex_mb exrn_w ex_wf ex_tm0) eq_refl) as (c & E & H).
  destruct (proj1 (CoMJ_ctor_w_ok ex_garbage (fun _ _ _ => 0) exrn_mb (moved exrn_w) exrn_wf exrn_mass) eq_refl) as (c' & E' & H').
  exists c, c'. auto.
Qed.
Lemma exrn_names : names_ok exrn_mb.
Proof.
  apply (names_distinct (moved ex_bodies) (moved ex_joints) [-1; 0; 0; 2]%Z ex_succ [-1; 0; 0; 2]%Z (moved ex_Xt)); [apply Nat.leb_le; reflexivity|exact exrn_ctor|].
  cbn. repeat constructor; cbn; intuition discriminate.
Qed.
Lemma exrn_cmm : exists c c', CMM_ctor_w (fun _ _ _ => sv0) (fun _ _ _ => 7) ex_mb exrn_w = Ok c /\ cmm_of ex_mb exrn_w c /\
  CMM_ctor_w (fun _ _ _ => sv0) (fun _ _ _ => 7) exrn_mb (moved exrn_w) = Ok c' /\ cmm_of exrn_mb (moved exrn_w) c'.
Proof.
  destruct (proj1 (CMM_ctor_w_ok (fun _ _ _ => sv0) (fun _ _ _ => 7) ex_mb exrn_w ex_wf ex_names) eq_refl) as (c & E & H).
  destruct (proj1 (CMM_ctor_w_ok (fun _ _ _ => sv0) (fun _ _ _ => 7) exrn_mb (moved exrn_w) exrn_wf exrn_names) eq_refl) as (c' & E' & H').
  exists c, c'. auto.
Qed.
