(** Physical inertias, and the running example for the dynamics. *)
From Coq Require Import Reals String ZArith Bool Arith Lia Lra Psatz List.
From Verif Require Import Res ResP Vec VecP Sva SvaP Mat JointM MultiBodyM KinM DynM Spec SpecDyn JointP KinP KinPathP MbP KinFinP TreeP DynP DynCP DynHP DynFinP DynFin2P Ex.
Import ListNotations.
Open Scope R_scope.

Lemma body_energy m c J nm u : mtr J = J ->
  svdot (rbim (binertia (body_mci m c J nm)) u) u =
  m * vdot (vadd (slin u) (vcross (sang u) c)) (vadd (slin u) (vcross (sang u) c)) +
  (vdot (sang u) (mapp J (sang u)) - m * vdot (vcross (sang u) c) (vcross (sang u) c)).
Proof.
  intros S. unfold body_mci; cbn [binertia]. unfold rbim; cbn [imass imom iine]. rewrite sym_mat_lower by auto.
  destruct u as [[w1 w2 w3] [u1 u2 u3]], c as [c1 c2 c3], J. unfold svdot; simpl. v3. ring.
Qed.
Lemma consistent_psd m c J nm : consistent_body m c J -> inertia_psd (binertia (body_mci m c J nm)).
Proof.
  intros (M & S & P) u. rewrite body_energy by auto. specialize (P (sang u)).
  pose proof (vdot_nonneg (vadd (slin u) (vcross (sang u) c))).
  pose proof (Rmult_le_pos _ _ M H). lra.
Qed.
Lemma v0_dec a : a = v0 \/ a <> v0.
Proof.
  destruct (Req_dec (vdot a a) 0) as [E|N]; [left; now apply vdot_pos_eq0|right].
  intros ->. apply N. v3; ring.
Qed.
Lemma consistent_pd m c J nm : consistent_body_pd m c J -> inertia_pd (binertia (body_mci m c J nm)).
Proof.
  intros (M & S & P) u. rewrite body_energy by auto.
  pose proof (vdot_nonneg (vadd (slin u) (vcross (sang u) c))) as Q.
  pose proof (Rmult_le_pos _ _ (Rlt_le _ _ M) Q) as Q2.
  destruct (v0_dec (sang u)) as [E|N].
  - rewrite E in *. assert (E1 : vcross v0 c = v0) by (v3; f_equal; ring). rewrite E1 in *. rewrite vadd_0_r in *.
    assert (E2 : vdot v0 (mapp J v0) - m * vdot v0 v0 = 0) by (v3; ring). rewrite E2. split; [lra|].
    intros Z. assert (vdot (slin u) (slin u) = 0). { apply Rmult_eq_reg_l with m; lra. }
    apply vdot_pos_eq0 in H. destruct u; simpl in *. now subst.
  - specialize (P (sang u) N). split; [lra|]. intros; lra.
Qed.

Lemma v0_neq w : w <> v0 -> 0 < vdot w w.
Proof. intros N. destruct (vdot_nonneg w) as [H|H]; auto. exfalso. apply N, vdot_pos_eq0. auto. Qed.

Lemma ex_bodies_mci : ex_bodies =
  [ body_mci 10 (mkV3 0 (1/10) 0) (mkM3 2 0 0 0 3 0 0 0 4) "base"%string;
    body_mci 2 (mkV3 (1/2) 0 0) (mkM3 1 0 0 0 2 0 0 0 2) "arm"%string;
    body_mci 1 (mkV3 0 0 1) (mkM3 2 0 0 0 2 0 0 0 1) "hand"%string;
    body_mci 1 v0 (mkM3 1 0 0 0 1 0 0 0 1) "head"%string ].
Proof.
  unfold ex_bodies, body_mci, vscale, sym_lower, v0; simpl.
  repeat (f_equal; try field).
Qed.
Lemma ex_pd b : In b (mb_bodies ex_mb) -> inertia_pd (binertia b).
Proof.
  change (mb_bodies ex_mb) with ex_bodies. rewrite ex_bodies_mci.
  intros [<-|[<-|[<-|[<-|[]]]]]; apply consistent_pd; (split; [lra|]; split; [reflexivity|]);
    intros w N; apply v0_neq in N; destruct w; unfold vdot, vcross, mapp in *; simpl in *; nra.
Qed.
Lemma ex_psd b : In b (mb_bodies ex_mb) -> inertia_psd (binertia b).
Proof. intros H u. now apply ex_pd. Qed.

Definition ex_fd : FD := FD_ctor (fun _ _ => 7) (fun _ _ => sv0) (fun _ => rbi0) ex_mb.
Lemma ex_fd_ok : fd_ok ex_mb ex_fd.
Proof. apply FD_ctor_ok. apply ex_wf. Qed.
Lemma ex_kin : exists m, after_kinematics ex_mb ex_m m.
Proof.
  destruct (FK_total ex_mb ex_m ex_wf ex_mbc_ok) as (m1 & E1 & F).
  pose proof (FK_mbc_ok _ _ _ ex_wf ex_mbc_ok F) as K1.
  destruct (FV_total ex_mb m1 ex_wf K1) as (m2 & E2 & _). exists m2, m1. auto.
Qed.
Definition ex_rates : list (list R) := [[1; 0; 0; 0; 2; 0]; [5]; [1]; [0; 0; 1]].
Lemma ex_rates_ok : sized ex_mb jdof ex_rates. Proof. reflexivity. Qed.
Lemma ex_virtual m : after_kinematics ex_mb ex_m m -> exists mv, forwardVelocity ex_mb (with_alpha ex_rates m) = Ok mv.
Proof.
  intros A. pose proof (after_kin_state _ _ _ ex_wf ex_rigid ex_mbc_ok ex_config A) as D.
  destruct (FV_total ex_mb (with_alpha ex_rates m) ex_wf (with_alpha_ok _ _ _ (ds_ok _ _ D) ex_rates_ok)) as (mv & E & _). eauto.
Qed.
Definition ex_f : list SV := [sv0; sv0; sv0; sv0].
Definition ex_forces : list SV := [sv0; mkSV v0 (mkV3 1 2 3); sv0; mkSV (mkV3 0 0 1) v0].
