(** Examples for the theorems on the Coriolis matrix. *)
From Coq Require Import Reals String ZArith Bool Arith List Lia Lra.
From Verif Require Import Res ResP SMap Vec Sva Mat JointM MultiBodyM KinM DynM JacM CoMM CoriolisM Spec SpecDyn SpecJac SpecDeriv SpecCoM SpecCor
  MbP DynCP DynHP KinFinP DerivTreeP DynFinP Ex DynExP DerivP DerivExP JacExP CoMCtorP CoMTopP CoMExP CoriolisP CorDerivP.
Import ListNotations.
Open Scope R_scope.

Lemma ex_cor : exists c, Coriolis_ctor (fun _ _ _ => sv0) (fun _ _ => 3) (fun _ _ _ => 5) ex_mb = Ok c /\ cor_of ex_mb c.
Proof. apply Coriolis_ctor_ok; [apply ex_wf|apply ex_names]. Qed.
Lemma exd_names : names_ok exd_mb.
Proof.
  intros i Hi. change (nrBodies exd_mb) with 4%nat in Hi. destruct i as [|[|[|[|i]]]]; try reflexivity. lia.
Qed.
Lemma exd_sane : sane_masses exd_mb.
Proof.
  intros i Hi. left. unfold mass_of, inertia_of.
  destruct i as [|[|[|[|i]]]]; cbn; try lra. exfalso. cbn in Hi. lia.
Qed.
Definition exd_fd : FD := FD_ctor (fun _ _ => 7) (fun _ _ => sv0) (fun _ => rbi0) exd_mb.
Lemma exd_fd_ok : fd_ok exd_mb exd_fd.
Proof. apply FD_ctor_ok. apply exd_wf. Qed.
Lemma exd_cor : exists c, cor_of exd_mb c.
Proof.
  destruct (Coriolis_ctor_ok (fun _ _ _ => sv0) (fun _ _ => 3) (fun _ _ _ => 5) exd_mb exd_wf exd_names) as (c & _ & H). eauto.
Qed.
Lemma exd_mass_rate : exists (K : R -> MBC) (S : R -> FD), forall t, exists c', cor_of exd_mb c' /\
  forall r k, (r < 11)%nat -> (k < 11)%nat ->
  derivable_pt_lim (fun s => ment (fd_H (S s)) r k) t (ment (co_mat c') r k + ment (co_mat c') k r).
Proof.
  destruct exd_kin as (K & HK). destruct exd_cor as (c & HC).
  exists K, (fun s => match computeH exd_mb (K s) exd_fd with Ok f => f | _ => exd_fd end). intro t.
  pose proof (kin_run exd_mb (exd_M t) (K t) exd_wf exd_rigid (exd_ok t) (exd_config t) (HK t)) as RN.
  destruct (coriolis_ok exd_mb (exd_M t) (K t) exd_wf RN c HC) as (c' & E & HC' & _). exists c'. split; [exact HC'|].
  intros r k Hr Hk. refine (mass_matrix_rate exd_mb exd_M K t exd_wf exd_rigid exd_ok exd_config HK exd_regular (exd_follows t) c HC exd_sane c' exd_fd _
    exd_fd_ok _ E r k _ _).
  - intro s. pose proof (kin_run exd_mb (exd_M s) (K s) exd_wf exd_rigid (exd_ok s) (exd_config s) (HK s)) as RS.
    destruct (H_ok exd_mb (K s) exd_fd exd_wf (r_ok _ _ _ RS) (r_rx _ _ _ RS) exd_fd_ok) as (f & E1 & _). now rewrite E1.
  - exact Hr.
  - exact Hk.
Qed.
