(** inverseDynamicsNoInertia with the bodies numbered in another way. *)
From Coq Require Import Reals String ZArith Bool Arith List Lia Lra.
From Verif Require Import Res ResP SMap Vec VecP Sva SvaP Mat JointM MultiBodyM KinM DynM Spec SpecDyn SpecRenum
  JointP JointFinP KinP MbP TreeP DynP DynFinP KinFinP BaseP RenumP.
Import ListNotations.
Open Scope R_scope.

Lemma no_inertia_ok mb m f : wf_mb mb -> mbc_ok mb m -> length f = nrBodies mb ->
  exists g n, inverseDynamicsNoInertia mb f m = Ok (g, n) /\ acc (nrBodies mb) (par mb) (ptsn m) (fext m) (fun k => nth k g sv0) /\
    forall i, (i < nrBodies mb)%nat -> nth i (jointTorque n) [] = map (fun c => svdot c (nth i g sv0)) (nth i (motionSubspace m) []).
Proof.
  intros W K Lf. mbclens W K.
  destruct (for_up_inv (fun i l => length l = nrBodies mb /\ forall k, (k < i)%nat -> nth k l sv0 = fext m k)
     (fun i f => Xw <- get (bodyPosW m) i ;; fe <- get (force m) i ;; set f i (ptdual Xw fe)) (nrBodies mb) f) as (f1 & E & L1 & H1).
  - split; auto. intros; lia.
  - intros i l Hi (Ll & Hl). gets. eexists; split; [reflexivity|]. rewrite upd_length. split; auto.
    intros k Hk. destruct (Nat.eq_dec k i) as [->|]; nthupd; auto. apply Hl. lia.
  - destruct (torques_ok mb m f1 W L1 LpS SjT Sms) as (g & n & E' & Fr & Lf' & HF & Lt & Ht).
    exists g, n. unfold inverseDynamicsNoInertia. rewrite E. cbn [bind]. split; [exact E'|]. split; [|exact Ht].
    intros i Hi u. rewrite (HF i Hi u), H1 by auto. reflexivity.
Qed.
Lemma renum_no_inertia s mb mb' m0 m m0' m' f f' : wf_mb mb -> wf_mb mb' -> mbc_ok mb m0 -> mbc_ok mb' m0' ->
  renumbered s mb mb' -> renumbered_state s mb m0 m0' -> after_kinematics mb m0 m -> after_kinematics mb' m0' m' ->
  length f = nrBodies mb -> length f' = nrBodies mb' ->
  exists g n g' n', inverseDynamicsNoInertia mb f m = Ok (g, n) /\ inverseDynamicsNoInertia mb' f' m' = Ok (g', n') /\
    forall i, (i < nrBodies mb)%nat -> nth (s i) (jointTorque n') [] = nth i (jointTorque n) [].
Proof.
  intros W W' K K' U S A A' L L'. destruct (re_ok mb mb' m0 m m0' m' W W' K K' A A') as [K1 K1'].
  destruct (no_inertia_ok mb m f W K1 L) as (g & n & E & HF & HT). destruct (no_inertia_ok mb' m' f' W' K1' L') as (g' & n' & E' & HF' & HT').
  exists g, n, g', n'. split; [exact E|]. split; [exact E'|]. intros i Hi.
  rewrite HT, HT' by (auto using (re_in s mb mb' U)). rewrite (re_ms s mb mb' m0 m m0' m' W W' K K' A A' U i Hi).
  rewrite (re_acc s mb mb' m0 m m0' m' W W' K K' A A' U S _ _ _ _ HF HF'); auto.
  intros d Hd. unfold fext. rewrite (re_pos s mb mb' m0 m m0' m' W W' K K' A A' U S d Hd).
  destruct (kin_keeps mb m0 m W K A) as (_ & _ & _ & Ef & _). destruct (kin_keeps mb' m0' m' W' K' A') as (_ & _ & _ & Ef' & _).
  now rewrite Ef, Ef', (rs_force _ _ _ _ S d Hd).
Qed.
