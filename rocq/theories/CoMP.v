(** Sums over paths and blocks, sub-body lists, loops of the CoM Jacobian. *)
From Coq Require Import Reals String ZArith Bool Arith List Lia Lra.
From Verif Require Import Res ResP SMap Vec VecP Sva SvaP Mat JointM MultiBodyM KinM DynM JacM CoMM MomM Spec SpecDyn SpecJac SpecCoM
  JointP KinP KinPathP MbP TreeP DynP DynCP ConvP KinFinP SpecDeriv DerivP DerivTreeP JacP JacFinP JacFin2P JacBlkP.
Import ListNotations.
Open Scope R_scope.

(** ** Linear coefficients *)
Definition linear (g : SV -> R) : Prop :=
  (forall a b, g (svadd a b) = g a + g b) /\ (forall k a, g (svscale k a) = k * g a).
Lemma linear_0 g : linear g -> g sv0 = 0.
Proof. intros (_ & S). rewrite <- (svscale_0 sv0), S. ring. Qed.
Lemma lin_coef r : linear (fun v => vcoef r (slin v)).
Proof. split; intros; destruct r as [|[|r]]; cbn; ring. Qed.
Lemma sv_coef r : linear (svcoef r).
Proof.
  split; intros; unfold svcoef; destruct (r <? 3)%nat.
  - destruct r as [|[|r]]; cbn; ring.
  - destruct (r - 3)%nat as [|[|x]]; cbn; ring.
  - destruct r as [|[|r]]; cbn; ring.
  - destruct (r - 3)%nat as [|[|x]]; cbn; ring.
Qed.

Lemma linear_smul g S : linear g -> forall x, length S = length x ->
  g (smul S x) = rsum (length S) (fun e => g (nth e S sv0) * nth e x 0).
Proof.
  intros L. induction S as [|c S IH] using rev_ind; intros x E.
  - destruct x; [|discriminate]. cbn. now apply linear_0.
  - rewrite app_length in *. cbn in E.
    destruct (exists_last (l := x)) as (x' & k & ->). { intro; subst; cbn in E; lia. }
    rewrite app_length in E. cbn in E. rewrite smul_app by lia. cbn [smul]. rewrite svadd_0_r.
    destruct L as (L1 & L2). rewrite L1, L2. cbn [length plus]. rewrite Nat.add_comm. cbn [plus rsum].
    rewrite IH by lia. rewrite !app_nth2, Nat.sub_diag by lia. replace (length S - length x')%nat with 0%nat by lia. cbn [nth].
    f_equal; [|ring]. apply rsum_ext. intros e He. rewrite !app_nth1 by lia. reflexivity.
Qed.

(** The columns [cols] of a path, placed in a matrix with nrDof columns, times a vector. *)
Lemma ctr_product mb l (cols : list SV) g a : wf_mb mb -> (forall k, In k l -> (k < nrBodies mb)%nat) -> linear g ->
  length cols = path_dof mb l -> sized mb jdof a -> length (on_path l a) = path_dof mb l ->
  rsum (mb_nrDof mb) (fun c => ctr (pblocks mb l 0) (fun e => g (nth e cols sv0)) c * nth c (concat a) 0) =
  g (smul cols (on_path l a)).
Proof.
  intros W IN L LC SA LA. rewrite (ctr_times _ (path_dof mb l) (mb_nrDof mb)) by (apply (pblocks_fits mb l 0 W IN)).
  rewrite bsum_path by auto. rewrite linear_smul by (auto; lia). now rewrite LC.
Qed.
Lemma nth_concat_mid {A} (f : nat -> list A) l1 k l2 d x n : length (concat (map f l1)) = n -> (x < length (f k))%nat ->
  nth (n + x) (concat (map f (l1 ++ k :: l2))) d = nth x (f k) d.
Proof.
  intros <- H. rewrite map_app, concat_app. cbn [map concat]. rewrite app_nth2 by lia.
  replace (length (concat (map f l1)) + x - length (concat (map f l1)))%nat with x by lia. now rewrite app_nth1.
Qed.
(** The entry of column pos k + d: the column d of joint k when k is on the path. *)
Lemma ctr_entry mb l (f : nat -> list SV) (g : SV -> R) k d : wf_mb mb -> (forall k, In k l -> (k < nrBodies mb)%nat) -> NoDup l ->
  (forall k, In k l -> length (f k) = dofi mb k) -> (k < nrBodies mb)%nat -> (d < dofi mb k)%nat ->
  ctr (pblocks mb l 0) (fun e => g (nth e (concat (map f l)) sv0)) (pos mb k + d) =
  if in_dec Nat.eq_dec k l then g (nth d (f k) sv0) else 0.
Proof.
  intros W IN ND LF Hk Hd. destruct (in_dec Nat.eq_dec k l) as [I|N].
  - destruct (in_split _ _ I) as (l1 & l2 & ->). rewrite ctr_present by auto. cbn [plus]. f_equal.
    apply nth_concat_mid; [|rewrite LF; auto].
    apply (concat_map_length f (fun k => dofi mb k)). intros. apply LF. apply in_or_app. auto.
  - now apply ctr_absent.
Qed.

(** ** Sub-body lists *)
Lemma anc_lt mb k b : wf_mb mb -> (k < nrBodies mb)%nat -> anc mb k b -> (k <= b < nrBodies mb)%nat.
Proof.
  intros W Hk A. induction A as [i|k p i P A IH]; [lia|].
  assert (Hi : (i < nrBodies mb)%nat) by (rewrite <- (wf_pred_len _ W); apply nth_error_Some; congruence).
  pose proof (par_lt mb i p W Hi (pred_par _ _ _ P)). specialize (IH Hk). lia.
Qed.
Lemma anc_child mb k b : anc mb k b -> k = b \/ exists c, nth_error (mb_pred mb) c = Some (Z.of_nat k) /\ anc mb c b.
Proof.
  intro A. induction A as [i|k p i P A IH]; [auto|]. right. destruct IH as [->|(c & P' & A')].
  - exists i. split; [auto|constructor].
  - exists c. split; [auto|]. econstructor; eauto.
Qed.
Lemma anc_of_child mb k c b : nth_error (mb_pred mb) c = Some (Z.of_nat k) -> anc mb c b -> anc mb k b.
Proof. intros P A. induction A; econstructor; eauto. constructor. Qed.
Lemma anc_chain mb a b x : wf_mb mb -> anc mb a x -> anc mb b x -> anc mb a b \/ anc mb b a.
Proof.
  intros W A. revert b. induction A as [i|k p i P A IH]; intros b B; [auto|].
  inversion B as [j E1 E2|k' p' j P' B' E1 E2]; subst.
  - left. econstructor; eauto.
  - rewrite P in P'. injection P' as E. apply Nat2Z.inj in E. subst p'. auto.
Qed.
Lemma anc_sibling mb a b p x : wf_mb mb -> (a < nrBodies mb)%nat -> (b < nrBodies mb)%nat ->
  nth_error (mb_pred mb) a = Some (Z.of_nat p) -> nth_error (mb_pred mb) b = Some (Z.of_nat p) ->
  anc mb a x -> anc mb b x -> a = b.
Proof.
  intros W Ha Hb Pa Pb A B.
  assert (G : forall a b, (a < nrBodies mb)%nat -> nth_error (mb_pred mb) a = Some (Z.of_nat p) -> nth_error (mb_pred mb) b = Some (Z.of_nat p) -> anc mb a b -> a = b).
  { clear -W. intros a b H P P' A. inversion A as [|k p0 i P0 A0]; subst; auto. exfalso. rewrite P' in P0. injection P0 as E. apply Nat2Z.inj in E. subst p0.
    pose proof (anc_lt mb a p W H A0). pose proof (par_lt mb a p W H (pred_par _ _ _ P)). lia. }
  destruct (anc_chain mb a b x W A B); [|symmetry]; eauto.
Qed.

Lemma NoDup_app_intro {A} (l l' : list A) : NoDup l -> NoDup l' -> (forall x, In x l -> ~ In x l') -> NoDup (l ++ l').
Proof.
  intros N N' D. induction N as [|x l H N IH]; cbn; auto. constructor.
  - rewrite in_app_iff. intros [I|I]; [auto|]. apply (D x); cbn; auto.
  - apply IH. intros y I. apply D. now right.
Qed.

(** The successors of a joint: appended once each. *)
Lemma successors_ok mb : wf_mb mb -> forall fuel k sub, (k < nrBodies mb)%nat -> (nrBodies mb - k < fuel)%nat ->
  exists l, jointBodiesSuccessors mb fuel k sub = Ok (sub ++ map Z.of_nat l) /\ NoDup l /\ forall b, In b l <-> anc mb k b.
Proof.
  intros W. pose proof (wf_nrJoints _ W) as NJ. induction fuel as [|fuel IH]; intros k sub Hk HF; [lia|].
  cbn [jointBodiesSuccessors]. rewrite (get_nth _ k 0%Z) by (rewrite (wf_succ_len _ W); auto). cbn [bind].
  rewrite (wf_succ _ W k Hk). rewrite NJ.
  destruct (for_up_inv (fun i s => exists l, s = (sub ++ [Z.of_nat k]) ++ map Z.of_nat l /\ NoDup l /\
      forall b, In b l <-> exists c, (c < i)%nat /\ nth_error (mb_pred mb) c = Some (Z.of_nat k) /\ anc mb c b)
     (fun i sub => p <- get (mb_pred mb) i ;; if (p =? Z.of_nat k)%Z then jointBodiesSuccessors mb fuel i sub else Ok sub)
     (nrBodies mb) (sub ++ [Z.of_nat k])) as (s & E & P).
  - exists []. cbn. rewrite app_nil_r. split; [auto|]. split; [constructor|]. intro b. split; [tauto|]. intros (c & L & _). lia.
  - intros i s Hi (l & -> & ND & IN). rewrite (get_nth _ i 0%Z) by (rewrite (wf_pred_len _ W); auto). cbn [bind].
    assert (NE : nth_error (mb_pred mb) i = Some (nth i (mb_pred mb) 0%Z)) by (apply nth_error_nth'; rewrite (wf_pred_len _ W); auto).
    destruct (Z.eqb_spec (nth i (mb_pred mb) 0%Z) (Z.of_nat k)) as [Ep|Ep].
    + rewrite Ep in NE. pose proof (par_lt mb i k W Hi (pred_par _ _ _ NE)) as Lt.
      destruct (IH i ((sub ++ [Z.of_nat k]) ++ map Z.of_nat l) Hi ltac:(lia)) as (l' & E' & ND' & IN').
      rewrite E'. eexists. split; [reflexivity|]. exists (l ++ l'). rewrite map_app, !app_assoc. split; [reflexivity|].
      split.
      * apply NoDup_app_intro; auto. intros x I I'. apply IN in I. apply IN' in I'. destruct I as (c & Lc & Pc & Ac).
        assert (c = i) by (apply (anc_sibling mb c i k x W); auto; lia). lia.
      * intro b. rewrite in_app_iff, IN, IN'. split.
        -- intros [(c & Lc & Pc & Ac)|A]; [exists c; split; [lia|auto]|exists i; auto].
        -- intros (c & Lc & Pc & Ac). destruct (Nat.eq_dec c i) as [->|]; [auto|]. left. exists c. split; [lia|auto].
    + eexists. split; [reflexivity|]. exists l. split; [auto|]. split; [auto|]. intro b. rewrite IN. split.
      * intros (c & Lc & Pc & Ac). exists c. split; [lia|auto].
      * intros (c & Lc & Pc & Ac). destruct (Nat.eq_dec c i) as [->|]; [exfalso; congruence|]. exists c. split; [lia|auto].
  - destruct P as (l & -> & ND & IN). rewrite E. exists (k :: l). rewrite <- app_assoc. split; [reflexivity|].
    split.
    + constructor; auto. intro I. apply IN in I. destruct I as (c & Lc & Pc & Ac).
      pose proof (anc_lt mb c k W Lc Ac). pose proof (par_lt mb c k W Lc (pred_par _ _ _ Pc)). lia.
    + intro b. cbn [In]. rewrite IN. split.
      * intros [->|(c & Lc & Pc & Ac)]; [constructor|]. eapply anc_of_child; eauto.
      * intro A. destruct (anc_child _ _ _ A) as [->|(c & Pc & Ac)]; [auto|]. right. exists c. split; [|auto].
        rewrite <- (wf_pred_len _ W). apply nth_error_Some. congruence.
Qed.
