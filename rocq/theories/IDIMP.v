(** Lemmas about the identification model. *)
From Coq Require Import Reals String ZArith Bool Arith Lia Lra List.
From Verif Require Import Res ResP Vec VecP Sva SvaP Mat JointM MultiBodyM KinM DynM IDIMM Spec JointP KinP KinPathP MbP TreeP DynP SpecDyn DynCP DynHP
  DynFinP SpecIDIM.
Import ListNotations.
Open Scope R_scope.

(** ** Force applied to one body *)
Section OneForce.
Variable n : nat.
Variable par : nat -> option nat.
Hypothesis par_lt : forall i p, (i < n)%nat -> par i = Some p -> (p < i)%nat.
Variable X : nat -> PT.
Definition oneF (i : nat) (f : SV) : nat -> SV := acc_sol n par X (at_ i f).
Lemma oneF_acc i f : acc n par X (at_ i f) (oneF i f).
Proof. now apply acc_sol_acc. Qed.
Lemma oneF_zero i f : forall k c, (c < n)%nat -> (n - c <= k)%nat -> ~ tanc par c i -> oneF i f c = sv0.
Proof.
  induction k; intros c L K T; [lia|]. apply svdot_ext. intros u. rewrite (oneF_acc i f c L u).
  assert (N : c <> i) by (intros ->; apply T; constructor).
  unfold at_ at 1. destruct (Nat.eqb_spec c i); [lia|]. rewrite !svdot_0_l, Rplus_0_l.
  apply rsum_eq0. intros c' Hc'. destruct (is_par par c' c) eqn:P; auto.
  apply is_par_iff in P. pose proof (par_lt c' c Hc' P). rewrite (IHk c'); try lia; [apply svdot_0_l|].
  intro T'. apply T. apply (tanc_trans par c c' i); auto. econstructor; [eauto|constructor].
Qed.
Lemma oneF_out i f c : (c < n)%nat -> ~ tanc par c i -> oneF i f c = sv0.
Proof. intros L T. now apply (oneF_zero i f (n - c)). Qed.
Lemma oneF_self i f : (i < n)%nat -> oneF i f i = f.
Proof.
  intros L. apply svdot_ext. intros u. rewrite (oneF_acc i f i L u). unfold at_ at 1. rewrite Nat.eqb_refl.
  rewrite rsum_eq0; [ring|]. intros c Hc. destruct (is_par par c i) eqn:P; auto. apply is_par_iff in P.
  pose proof (par_lt c i Hc P). rewrite oneF_out; auto; [apply svdot_0_l|]. intro T. apply (tanc_le n par) in T; auto. lia.
Qed.
Lemma oneF_up i f j p : (i < n)%nat -> tanc par j i -> par j = Some p -> oneF i f p = pttrans (X j) (oneF i f j).
Proof.
  intros L T P.
  assert (Lj : (j < n)%nat) by (apply (tanc_le n par) in T; auto; lia). pose proof (par_lt j p Lj P) as Lp.
  assert (Ln : (p < i)%nat) by (apply (tanc_le n par) in T; auto; lia).
  apply svdot_ext. intros u. rewrite (oneF_acc i f p) by lia. unfold at_ at 1. destruct (Nat.eqb_spec p i); [lia|].
  rewrite svdot_0_l, Rplus_0_l, pttrans_adj.
  rewrite <- (rsum_delta n j (fun c => svdot (oneF i f c) (ptm (X c) u)) Lj).
  apply rsum_ext. intros c Hc. destruct (Nat.eqb_spec c j) as [->|N].
  - assert (E : is_par par j p = true) by (now apply is_par_iff). now rewrite E.
  - destruct (is_par par c p) eqn:PC; auto. apply is_par_iff in PC.
    rewrite (oneF_out i f c Hc); [apply svdot_0_l|].
    intros TC. apply N. apply (tanc_sibling n par par_lt i j c p); auto.
Qed.
(** Accumulated forces are the sums of those of the single forces. *)
Lemma oneF_sum f F : acc n par X f F -> forall j, (j < n)%nat -> F j = vsum n (fun i => oneF i (f i) j).
Proof.
  intros HF. assert (A : forall k, (k <= n)%nat -> acc n par X (fun c => vsum k (fun i => at_ i (f i) c)) (fun j => vsum k (fun i => oneF i (f i) j))).
  { induction k; intro K; simpl.
    - intros i L u. rewrite svdot_0_l. rewrite rsum_eq0; [ring|]. intros c _. destruct (is_par par c i); auto. apply svdot_0_l.
    - apply acc_add; [apply IHk; lia|apply oneF_acc]. }
  apply (acc_unique n par par_lt X f _ _ HF).
  eapply acc_ext; [|apply (A n); lia]. intros c Hc. cbn beta.
  rewrite <- (vsum_delta n c f Hc). apply vsum_ext. intros i Hi. unfold at_. rewrite Nat.eqb_sym.
  destruct (Nat.eqb_spec i c); subst; auto.
Qed.
Lemma oneF_add i f g j : (j < n)%nat -> oneF i (svadd f g) j = svadd (oneF i f j) (oneF i g j).
Proof.
  intros L. apply (acc_unique n par par_lt X (at_ i (svadd f g)) _ (fun j => svadd (oneF i f j) (oneF i g j))); auto; [apply oneF_acc|].
  eapply acc_ext; [|apply acc_add; apply oneF_acc]. intros c Hc. unfold at_. destruct (Nat.eqb c i); auto. apply svadd_0_l.
Qed.
Lemma oneF_scale i k f j : (j < n)%nat -> oneF i (svscale k f) j = svscale k (oneF i f j).
Proof.
  intros L. apply (acc_unique n par par_lt X (at_ i (svscale k f)) _ (fun j => svscale k (oneF i f j))); auto; [apply oneF_acc|].
  eapply acc_ext; [|apply acc_scale; apply oneF_acc]. intros c Hc. unfold at_. destruct (Nat.eqb c i); auto. apply svscale_sv0.
Qed.
Lemma oneF_0 i j : (j < n)%nat -> oneF i sv0 j = sv0.
Proof.
  intros L. apply (acc_unique n par par_lt X (at_ i sv0) _ (fun j => sv0)); auto; [apply oneF_acc|].
  intros c Hc u. unfold at_. rewrite rsum_eq0; [|intros d _; destruct (is_par par d c); auto; apply svdot_0_l].
  destruct (Nat.eqb c i); rewrite svdot_0_l; ring.
Qed.
Lemma oneF_smul i j : (j < n)%nat -> forall F x, oneF i (smul F x) j = smul (map (fun f => oneF i f j) F) x.
Proof.
  intros L. induction F as [|s F IH]; intros [|k x]; cbn [smul map]; try now apply oneF_0.
  rewrite oneF_add, oneF_scale, IH; auto.
Qed.
End OneForce.

(** ** The ten columns *)
Definition phiF (V A : SV) : list SV := map (fun p => svadd (fst p) (scrossDual V (snd p))) (combine (IMPhi A) (IMPhi V)).
Lemma phi_loop V A :
  for_up 10 (fun c F => f <- get F c ;; p <- get (IMPhi V) c ;; set F c (svadd f (scrossDual V p))) (IMPhi A) = Ok (phiF V A).
Proof. reflexivity. Qed.
Ltac svcomp := cbv [smul IMPhi phiF combine map fst snd inertiaToVector rbim svadd svscale svsub svopp sv0 vadd vscale vcross vopp vsub v0 mapp sym_mat
  scrossDual vdot sang slin vx vy vz imass imom iine sxx sxy sxz syy syz szz m00 m01 m02 m10 m11 m12 m20 m21 m22].
Lemma IMPhi_spec v I : smul (IMPhi v) (inertiaToVector I) = rbim I v.
Proof.
  destruct v as [[w1 w2 w3] [v1 v2 v3]], I as [mm [h1 h2 h3] [a b c d e f]]. svcomp. f_equal; f_equal; ring.
Qed.
Lemma phiF_spec V A I : smul (phiF V A) (inertiaToVector I) = svadd (rbim I A) (scrossDual V (rbim I V)).
Proof.
  destruct V as [[w1 w2 w3] [v1 v2 v3]], A as [[w4 w5 w6] [v4 v5 v6]], I as [mm [h1 h2 h3] [a b c d e f]].
  svcomp. f_equal; f_equal; ring.
Qed.
Lemma phiF_length V A : length (phiF V A) = 10%nat.
Proof. reflexivity. Qed.

(** ** The loop over the ancestors *)
Lemma getposDof mb k : wf_mb mb -> (k < nrBodies mb)%nat -> get (mb_posDof mb) k = Ok (pos mb k).
Proof. intros W H. unfold get. now rewrite (wf_posDof _ W k H). Qed.
Lemma pttrans_cols10 X F di : di = length F ->
  for_up di (fun d F => c <- get F d ;; set F d (pttrans X c)) F = Ok (map (pttrans X) F).
Proof.
  intros Ed.
  destruct (for_up_inv (fun d F' => length F' = di /\
      forall e, nth e F' sv0 = if (e <? d)%nat then pttrans X (nth e F sv0) else nth e F sv0)
      (fun d F => c <- get F d ;; set F d (pttrans X c)) di F) as (F' & E & L & H).
  - split; auto. 
  - intros d F' Hd (L & H). gets. eexists; split; [reflexivity|]. rewrite upd_length. split; auto.
    intros e. destruct (Nat.eq_dec e d) as [->|].
    + rewrite nth_upd_eq by lia. rewrite H. destruct (Nat.ltb_spec d d), (Nat.ltb_spec d (S d)); try lia. auto.
    + rewrite nth_upd_neq by auto. rewrite H. destruct (Nat.ltb_spec e d), (Nat.ltb_spec e (S d)); try lia; auto.
  - rewrite E. f_equal. apply (list_ext_nth _ _ sv0).
    + rewrite map_length. lia.
    + intros e He. rewrite H. destruct (Nat.ltb_spec e di); [|lia].
      now rewrite (nth_map_lt _ _ _ sv0) by lia.
Qed.
Lemma in_block_rows mb i q i' j a c : wf_mb mb -> (i < nrBodies mb)%nat -> (j < nrBodies mb)%nat -> (a < dofi mb j)%nat -> (c < 10)%nat ->
  in_block (pos mb i) (dofi mb i) (q * 10) 10 (pos mb j + a) (i' * 10 + c) = Nat.eqb i j && Nat.eqb q i'.
Proof.
  intros W Li Lj Ha Hc. pose proof (wf_nrJoints mb W).
  pose proof (in_block_tile mb i j j j a a W Li Lj Lj Lj Ha Ha) as T. rewrite Nat.eqb_refl, andb_true_r in T.
  unfold in_block in *. rewrite <- T. clear T.
  destruct (Nat.leb_spec (pos mb j) (pos mb j + a)); [|lia]. destruct (Nat.ltb_spec (pos mb j + a) (pos mb j + dofi mb j)); [|lia].
  rewrite !andb_true_r, <- !andb_assoc. f_equal. f_equal.
  destruct (Nat.eqb_spec q i') as [->|N].
  - destruct (Nat.leb_spec (i' * 10) (i' * 10 + c)); [|lia]. destruct (Nat.ltb_spec (i' * 10 + c) (i' * 10 + 10)); [|lia]. auto.
  - destruct (Nat.leb_spec (q * 10) (i' * 10 + c)); auto. destruct (Nat.ltb_spec (i' * 10 + c) (q * 10 + 10)); auto. lia.
Qed.
Lemma set_rows mb Y j i B : wf_mb mb -> (i < nrBodies mb)%nat -> (j < nrBodies mb)%nat ->
  mrows Y = mb_nrDof mb -> mcols Y = (nrBodies mb * 10)%nat ->
  exists Y', set_block Y (pos mb j) (i * 10) (dofi mb j) 10 B = Ok Y' /\ mrows Y' = mb_nrDof mb /\ mcols Y' = (nrBodies mb * 10)%nat /\
    (forall a c, (a < dofi mb j)%nat -> (c < 10)%nat -> ment Y' (pos mb j + a) (i * 10 + c) = B a c) /\
    (forall i' j' a c, (i' < nrBodies mb)%nat -> (j' < nrBodies mb)%nat -> (a < dofi mb j')%nat -> (c < 10)%nat ->
       ~ (i' = i /\ j' = j) -> ment Y' (pos mb j' + a) (i' * 10 + c) = ment Y (pos mb j' + a) (i' * 10 + c)).
Proof.
  intros W Li Lj Hr Hc. unfold set_block. pose proof (pos_le mb j W Lj).
  destruct (Nat.leb_spec (pos mb j + dofi mb j) (mrows Y)); [|lia].
  destruct (Nat.leb_spec (i * 10 + 10) (mcols Y)); [|lia]. cbn [andb]. eexists; split; [reflexivity|].
  cbn [mrows mcols ment]. do 2 (split; [auto|]). split.
  - intros a c Ha Hc'. rewrite in_block_rows by auto. rewrite !Nat.eqb_refl. cbn [andb]. f_equal; lia.
  - intros i' j' a c L1 L2 Ha Hc' N. rewrite in_block_rows by auto.
    destruct (Nat.eqb_spec j j'), (Nat.eqb_spec i i'); auto. exfalso; auto.
Qed.

Definition cols (m : MBC) (i : nat) : list SV := phiF (vb m i) (nth i (bodyAccB m) sv0).
Definition Yent (mb : MultiBody) (m : MBC) (i j a c : nat) : R :=
  svdot (axis m j a) (oneF (nrBodies mb) (par mb) (ptsn m) i (nth c (cols m i) sv0) j).

Section Loop.
Variables (mb : MultiBody) (m : MBC) (W : wf_mb mb) (K : mbc_ok mb m).
Variable i : nat.
Hypothesis Li : (i < nrBodies mb)%nat.
Lemma idim_loop_ok : forall fuel j F Y, (j < fuel)%nat -> tanc (par mb) j i ->
  mrows Y = mb_nrDof mb -> mcols Y = (nrBodies mb * 10)%nat ->
  F = map (fun f => oneF (nrBodies mb) (par mb) (ptsn m) i f j) (cols m i) ->
  exists Y', idim_loop mb m i fuel j F Y = Ok Y' /\ mrows Y' = mb_nrDof mb /\ mcols Y' = (nrBodies mb * 10)%nat /\
    (forall j' a c, panc mb j' j -> (a < dofi mb j')%nat -> (c < 10)%nat -> ment Y' (pos mb j' + a) (i * 10 + c) = Yent mb m i j' a c) /\
    (forall i' j' a c, (i' < nrBodies mb)%nat -> (j' < nrBodies mb)%nat -> (a < dofi mb j')%nat -> (c < 10)%nat ->
       ~ (i' = i /\ panc mb j' j) -> ment Y' (pos mb j' + a) (i' * 10 + c) = ment Y (pos mb j' + a) (i' * 10 + c)).
Proof.
  pose proof (wf_nrJoints mb W) as NJ. mbclens W K. pose proof (parlt mb W) as PL.
  induction fuel; intros j F Y Lf T Hr Hc HF; [lia|].
  assert (Lj : (j < nrBodies mb)%nat) by (pose proof (tanc_le _ _ PL j i T Li); lia).
  assert (LF : length F = 10%nat) by (rewrite HF, map_length; reflexivity).
  simpl. predcase W Lj.
  - exists Y. do 3 (split; [auto|]). split; auto. intros j' a c (p & Pp' & _). congruence.
  - gets. rewrite pttrans_cols10 by auto. cbn [bind]. rewrite Nat2Z.id, getposDof by (auto; lia). cbn [bind].
    fold (dofi mb p).
    assert (Tp : tanc (par mb) p i) by (apply (tanc_trans _ p j i); auto; econstructor; [eauto|constructor]).
    assert (Lp : (p < nrBodies mb)%nat) by lia.
    set (F1 := map (pttrans (nth j (parentToSon m) ptid)) F).
    assert (HF1 : F1 = map (fun f => oneF (nrBodies mb) (par mb) (ptsn m) i f p) (cols m i)).
    { unfold F1. rewrite HF, map_map. apply map_ext. intro f. symmetry. now apply (oneF_up _ _ PL (ptsn m) i f j p). }
    assert (LF1 : length F1 = 10%nat) by (unfold F1; now rewrite map_length).
    assert (panc_cases : forall j', panc mb j' j -> j' = p \/ panc mb j' p).
    { intros j' (p' & E' & T'). rewrite Pp in E'. injection E' as <-. inversion T'; subst; auto.
      right. exists p0. auto. }
    assert (panc_p : panc mb p j) by (exists p; split; [auto|constructor]).
    assert (panc_up : forall j', panc mb j' p -> panc mb j' j).
    { intros j' (p' & E' & T'). exists p. split; auto. econstructor; eauto. }
    assert (panc_lt : forall k j', (j' < nrBodies mb)%nat -> panc mb k j' -> (k < j')%nat).
    { intros k j' L (p' & E' & T'). pose proof (PL j' p' L E'). pose proof (tanc_le _ _ PL k p' T' ltac:(lia)). lia. }
    destruct (Nat.eqb_spec (dofi mb p) 0) as [Z0|NZ]; cbn [negb].
    + destruct (IHfuel p F1 Y ltac:(lia) Tp Hr Hc HF1) as (Y' & E & R1 & R2 & R4 & R5).
      exists Y'. do 3 (split; [auto|]). split.
      * intros j' a c PA Ha Hc'. destruct (panc_cases _ PA) as [->|]; [lia|]. now apply R4.
      * intros i' j' a c L1 L2 Ha Hc' N. apply R5; auto. intros [? ?]; apply N; auto.
    + unfold smat_tmul. rewrite LF1, (sized_nth _ _ _ p Sms) by lia. fold (dofi mb p). rewrite !Nat.eqb_refl.
      cbn [andb bind].
      set (B := fun a b => svdot (nth a (nth p (motionSubspace m) []) sv0) (nth b F1 sv0)).
      destruct (set_rows mb Y p i B W Li Lp Hr Hc) as (Y1 & E1 & Hr1 & Hc1 & HB1 & HO1).
      rewrite E1. cbn [bind].
      destruct (IHfuel p F1 Y1 ltac:(lia) Tp Hr1 Hc1 HF1) as (Y' & E & R1 & R2 & R4 & R5).
      exists Y'. do 3 (split; [auto|]). split.
      * intros j' a c PA Ha Hc'. destruct (panc_cases _ PA) as [->|]; [|now apply R4].
        rewrite R5; auto.
        -- rewrite HB1 by auto. unfold B, Yent, axis. f_equal. rewrite HF1. now rewrite (nth_map_lt _ _ _ sv0).
        -- intros [_ PP]. apply panc_lt in PP; auto. lia.
      * intros i' j' a c L1 L2 Ha Hc' N. rewrite R5; auto.
        -- rewrite HO1; auto. intros [? ?]; subst; auto.
        -- intros [? ?]; apply N; auto.
Qed.
Lemma idim_step_ok Y : mrows Y = mb_nrDof mb -> mcols Y = (nrBodies mb * 10)%nat ->
  exists Y', idim_step mb m i Y = Ok Y' /\ mrows Y' = mb_nrDof mb /\ mcols Y' = (nrBodies mb * 10)%nat /\
    (forall j a c, tanc (par mb) j i -> (a < dofi mb j)%nat -> (c < 10)%nat -> ment Y' (pos mb j + a) (i * 10 + c) = Yent mb m i j a c) /\
    (forall i' j' a c, (i' < nrBodies mb)%nat -> (j' < nrBodies mb)%nat -> (a < dofi mb j')%nat -> (c < 10)%nat ->
       ~ (i' = i /\ tanc (par mb) j' i) -> ment Y' (pos mb j' + a) (i' * 10 + c) = ment Y (pos mb j' + a) (i' * 10 + c)).
Proof.
  intros Hr Hc. pose proof (wf_nrJoints mb W) as NJ. mbclens W K. pose proof (parlt mb W) as PL.
  unfold idim_step. gets. rewrite phi_loop. cbn [bind]. rewrite getposDof by auto. cbn [bind]. gets. fold (dofi mb i).
  fold (vb m i). fold (cols m i).
  unfold smat_tmul. rewrite (sized_nth _ _ _ i Sms) by lia. fold (dofi mb i). rewrite Nat.eqb_refl.
  change (length (cols m i) =? 10)%nat with true. cbn [andb bind].
  set (B := fun a b => svdot (nth a (nth i (motionSubspace m) []) sv0) (nth b (cols m i) sv0)).
  destruct (set_rows mb Y i i B W Li Li Hr Hc) as (Y1 & E1 & Hr1 & Hc1 & HB1 & HO1).
  rewrite E1. cbn [bind].
  assert (self : forall f, oneF (nrBodies mb) (par mb) (ptsn m) i f i = f) by (intro f; now apply oneF_self).
  destruct (idim_loop_ok (S (nrJoints mb)) i (cols m i) Y1) as (Y' & E & R1 & R2 & R4 & R5); auto; try lia.
  - constructor.
  - rewrite <- (map_id (cols m i)) at 1. apply map_ext. intro f. symmetry. apply self.
  - exists Y'. do 3 (split; [auto|]). split.
    + intros j a c T Ha Hc'. inversion T; subst.
      * rewrite R5; auto; [|intros [_ (p & Pp & Tp)]; pose proof (PL i p Li Pp); apply (tanc_le _ _ PL) in Tp; lia].
        rewrite HB1 by auto. unfold B, Yent. now rewrite self.
      * apply R4; auto. exists p. auto.
    + intros i' j' a c L1 L2 Ha Hc' N. rewrite R5; auto.
      * rewrite HO1; auto. intros [-> ->]. apply N. split; auto. constructor.
      * intros [-> (p & Pp & Tp)]. apply N. split; auto. econstructor; eauto.
Qed.
End Loop.

Lemma anc_tanc mb k i : wf_mb mb -> anc mb k i <-> tanc (par mb) k i.
Proof.
  intro W. split; induction 1; try constructor.
  - econstructor; eauto. unfold par. rewrite H. destruct (Z.eqb_spec (Z.of_nat p) (-1)); [lia|]. now rewrite Nat2Z.id.
  - econstructor; eauto. now apply par_pred.
Qed.
Definition idim_post (mb : MultiBody) (m : MBC) (Y : Mat) : Prop :=
  mrows Y = mb_nrDof mb /\ mcols Y = (nrBodies mb * 10)%nat /\
  forall i j a c, (i < nrBodies mb)%nat -> (j < nrBodies mb)%nat -> (a < dofi mb j)%nat -> (c < 10)%nat ->
    ment Y (pos mb j + a) (i * 10 + c) = Yent mb m i j a c.
Lemma computeY_ok mb m Y : wf_mb mb -> mbc_ok mb m -> idim_of mb Y ->
  exists Y', computeY mb m Y = Ok Y' /\ idim_post mb m Y'.
Proof.
  intros W K [Hr Hc Hz]. pose proof (parlt mb W) as PL.
  destruct (for_down_inv (fun k Y' => mrows Y' = mb_nrDof mb /\ mcols Y' = (nrBodies mb * 10)%nat /\
     forall i j a c, (i < nrBodies mb)%nat -> (j < nrBodies mb)%nat -> (a < dofi mb j)%nat -> (c < 10)%nat ->
       ((k <= i)%nat -> ment Y' (pos mb j + a) (i * 10 + c) = Yent mb m i j a c) /\
       ((i < k)%nat -> ment Y' (pos mb j + a) (i * 10 + c) = ment Y (pos mb j + a) (i * 10 + c)))
     (idim_step mb m) (nrBodies mb) Y) as (Y' & E & R1 & R2 & R3).
  - do 2 (split; [auto|]). intros. split; intro; [lia|auto].
  - intros i Y1 Hi (R1 & R2 & R3). destruct (idim_step_ok mb m W K i Hi Y1 R1 R2) as (Y2 & E & S1 & S2 & S3 & S4).
    exists Y2. do 3 (split; [auto|]). intros i' j a c L1 L2 Ha Hc'. split; intro G.
    + destruct (Nat.eq_dec i' i) as [->|N].
      * destruct (tanc_dec (nrBodies mb) (par mb) PL j i Hi) as [T|T]; [now apply S3|].
        rewrite S4 by (auto; intros [_ ?]; auto). destruct (R3 i j a c L1 L2 Ha Hc') as [_ R4]. rewrite R4 by lia.
        rewrite Hz by (auto; rewrite anc_tanc; auto). unfold Yent. rewrite oneF_out by auto. symmetry. apply svdot_0_r.
      * rewrite S4 by (auto; intros [? _]; auto). apply R3; auto; lia.
    + rewrite S4 by (auto; intros [? _]; lia). apply R3; auto.
  - exists Y'. split; auto. do 2 (split; [auto|]). intros. apply R3; auto; lia.
Qed.
Lemma idim_post_of mb m Y : wf_mb mb -> idim_post mb m Y -> idim_of mb Y.
Proof.
  intros W (R1 & R2 & R3). pose proof (parlt mb W) as PL. constructor; auto. intros. rewrite R3 by auto. unfold Yent.
  rewrite oneF_out by (auto; rewrite <- anc_tanc; auto). apply svdot_0_r.
Qed.
Lemma IDIM_ctor_ok mb : wf_mb mb -> idim_of mb (IDIM_ctor mb).
Proof. intros W. constructor; reflexivity. Qed.

(** ** The vector of inertial parameters *)
Lemma mbvec_ok g mb : exists v, multiBodyToInertialVector g mb = Ok v /\ length v = (nrBodies mb * 10)%nat /\
  forall i c, (i < nrBodies mb)%nat -> (c < 10)%nat -> nth (i * 10 + c) v 0 = nth c (inertiaToVector (Ib mb i)) 0.
Proof.
  unfold multiBodyToInertialVector.
  destruct (for_up_inv (fun k v => length v = (nrBodies mb * 10)%nat /\
     forall i c, (i < k)%nat -> (c < 10)%nat -> nth (i * 10 + c) v 0 = nth c (inertiaToVector (Ib mb i)) 0)
     (fun i v => b <- get (mb_bodies mb) i ;; set_seg v (i * 10) (inertiaToVector (binertia b))) (nrBodies mb)
     (map g (seq 0 (nrBodies mb * 10)))) as (v & E & L & H).
  - split; [now rewrite map_length, seq_length|]. intros; lia.
  - intros k v Hk (L & H). assert (Lb : (k < length (mb_bodies mb))%nat) by exact Hk. gets. unfold set_seg.
    change (length (inertiaToVector (binertia (nth k (mb_bodies mb) bd)))) with 10%nat.
    destruct (Nat.leb_spec (k * 10 + 10) (length v)); [|lia]. eexists; split; [reflexivity|].
    split; [now rewrite set_from_length|]. intros i c Hi Hc. rewrite set_from_nth by (cbn [length inertiaToVector]; lia).
    change (length (inertiaToVector (binertia (nth k (mb_bodies mb) bd)))) with 10%nat.
    destruct (Nat.leb_spec (k * 10) (i * 10 + c)); cbn [andb].
    + destruct (Nat.ltb_spec (i * 10 + c) (k * 10 + 10)); [|lia]. assert (i = k) by lia. subst.
      replace (k * 10 + c - k * 10)%nat with c by lia. reflexivity.
    + apply H; auto. lia.
  - exists v. auto.
Qed.
Lemma rsum_mul n k f : rsum (n * k) f = rsum n (fun i => rsum k (fun c => f (i * k + c)%nat)).
Proof.
  induction n; cbn [rsum]; auto. rewrite <- IHn. replace (S n * k)%nat with (n * k + k)%nat by lia. now rewrite rsum_app.
Qed.
Lemma Y_times mb m Y v A F : wf_mb mb -> idim_post mb m Y -> length v = (nrBodies mb * 10)%nat ->
  (forall i c, (i < nrBodies mb)%nat -> (c < 10)%nat -> nth (i * 10 + c) v 0 = nth c (inertiaToVector (Ib mb i)) 0) ->
  A = (fun i => nth i (bodyAccB m) sv0) ->
  acc (nrBodies mb) (par mb) (ptsn m) (fun i => svadd (rbim (Ib mb i) (A i)) (scrossDual (vb m i) (rbim (Ib mb i) (vb m i)))) F ->
  forall j a, (j < nrBodies mb)%nat -> (a < dofi mb j)%nat -> mat_vec Y v (pos mb j + a) = svdot (axis m j a) (F j).
Proof.
  intros W (R1 & R2 & R3) Lv Hv HA HF j a Lj Ha. pose proof (parlt mb W) as PL. unfold mat_vec. rewrite R2, rsum_mul.
  rewrite (oneF_sum _ _ PL _ _ _ HF j Lj), vsum_dot_r. apply rsum_ext. intros i Hi.
  replace (svadd (rbim (Ib mb i) (A i)) (scrossDual (vb m i) (rbim (Ib mb i) (vb m i)))) with (smul (cols m i) (inertiaToVector (Ib mb i)))
    by (unfold cols; rewrite phiF_spec; now rewrite HA).
  rewrite (oneF_smul _ _ PL) by auto. rewrite smul_dot_rsum by (rewrite map_length; reflexivity).
  rewrite map_length. change (length (cols m i)) with 10%nat. apply rsum_ext. intros c Hc.
  rewrite R3, Hv by auto. unfold Yent. now rewrite (nth_map_lt _ _ _ sv0).
Qed.
(** ** The identities *)
Lemma fext_none m i : nth i (force m) sv0 = sv0 -> fext m i = sv0.
Proof. intros E. unfold fext. rewrite E. apply svdot_ext. intro u. now rewrite ptdual_adj, !svdot_0_l. Qed.
Lemma Y_torque mb m f Y g : wf_mb mb -> mbc_ok mb m -> length f = nrBodies mb ->
  (forall i, (i < nrBodies mb)%nat -> nth i (force m) sv0 = sv0) -> idim_of mb Y ->
  exists f' m' Y' v, inverseDynamics mb f m = Ok (f', m') /\ computeY mb m' Y = Ok Y' /\ idim_of mb Y' /\
    multiBodyToInertialVector g mb = Ok v /\ length v = mcols Y' /\
    forall r, (r < mb_nrDof mb)%nat -> mat_vec Y' v r = flat (jointTorque m') r.
Proof.
  intros W K Lf NF IO. destruct (ID_total mb m f W K Lf) as (f' & m' & E & P).
  pose proof (ip_ok _ _ _ _ P) as K'. destruct (computeY_ok mb m' Y W K' IO) as (Y' & EY & PY).
  destruct (mbvec_ok g mb) as (v & Ev & Lv & Hv).
  exists f', m', Y', v. do 2 (split; [auto|]). split; [now apply (idim_post_of mb m')|]. split; [auto|].
  split; [rewrite Lv; symmetry; apply PY|]. intros r Hr.
  pose proof (wf_nrJoints mb W) as NJ. pose proof (ip_frame _ _ _ _ P) as Fr.
  assert (E1 : ptsn m' = ptsn m) by (rewrite Fr; reflexivity).
  assert (E2 : motionSubspace m' = motionSubspace m) by (rewrite Fr; reflexivity).
  assert (E3 : bodyVelB m' = bodyVelB m) by (rewrite Fr; reflexivity).
  rewrite (wf_nrDof mb W), <- pos_all in Hr.
  destruct (pos_find mb r (nrJoints mb) (le_n _) Hr) as (j & a & Lj & Ha & ->).
  rewrite (Y_times mb m' Y' v _ (fun i => nth i f' sv0) W PY Lv Hv eq_refl); [|rewrite E1|lia|auto].
  - unfold flat. rewrite (concat_tile mb) by (auto; apply K'). rewrite (ip_t _ _ _ _ P) by lia. rewrite <- E2.
    pose proof (sized_nth _ _ _ j (ok_motionSubspace _ _ K') Lj) as Ls. fold (dofi mb j) in Ls.
    unfold axis. now rewrite (nth_map_lt _ _ _ sv0) by lia.
  - eapply acc_ext; [|apply (ip_F _ _ _ _ P)]. intros i Hi. unfold local_force, vb. rewrite E3.
    rewrite fext_none by auto. rewrite svsub_def, svscale_sv0. apply svadd_0_r.
Qed.

Lemma loop_bodies bs mb m i : forall fuel j F Y, idim_loop (with_bodies bs mb) m i fuel j F Y = idim_loop mb m i fuel j F Y.
Proof.
  induction fuel; intros; auto. cbn [idim_loop with_bodies mb_pred mb_posDof mb_joints].
  destruct (get (mb_pred mb) j) as [pr| | |]; auto. cbn [bind]. destruct (negb (pr =? -1)%Z); auto.
  destruct (get (parentToSon m) j) as [X| | |]; auto. cbn [bind].
  match goal with |- bind ?x _ = bind ?x _ => destruct x as [F1| | |]; auto end. cbn [bind].
  destruct (getz (mb_posDof mb) pr) as [pj| | |]; auto. cbn [bind].
  destruct (getz (mb_joints mb) pr) as [jj| | |]; auto. cbn [bind]. destruct (negb (jdof jj =? 0)%nat); auto.
  destruct (getz (motionSubspace m) pr) as [ms| | |]; auto. cbn [bind].
  destruct (smat_tmul ms F1 (jdof jj) 10) as [B| | |]; auto. cbn [bind].
  destruct (set_block Y pj (i * 10) (jdof jj) 10 B) as [Y1| | |]; auto. cbn [bind]. auto.
Qed.
Lemma loop_state mb m m2 i : parentToSon m2 = parentToSon m -> motionSubspace m2 = motionSubspace m ->
  forall fuel j F Y, idim_loop mb m2 i fuel j F Y = idim_loop mb m i fuel j F Y.
Proof.
  intros E1 E2. induction fuel; intros; auto. cbn [idim_loop]. rewrite E1, E2.
  destruct (get (mb_pred mb) j) as [pr| | |]; auto. cbn [bind]. destruct (negb (pr =? -1)%Z); auto.
  destruct (get (parentToSon m) j) as [X| | |]; auto. cbn [bind].
  match goal with |- bind ?x _ = bind ?x _ => destruct x as [F1| | |]; auto end. cbn [bind].
  destruct (getz (mb_posDof mb) pr) as [pj| | |]; auto. cbn [bind].
  destruct (getz (mb_joints mb) pr) as [jj| | |]; auto. cbn [bind]. destruct (negb (jdof jj =? 0)%nat); auto.
  destruct (getz (motionSubspace m) pr) as [ms| | |]; auto. cbn [bind].
  destruct (smat_tmul ms F1 (jdof jj) 10) as [B| | |]; auto. cbn [bind].
  destruct (set_block Y pj (i * 10) (jdof jj) 10 B) as [Y1| | |]; auto. cbn [bind]. auto.
Qed.
Lemma for_down_ext {St} (f g : nat -> St -> res St) : forall n s, (forall i s, (i < n)%nat -> f i s = g i s) -> for_down n f s = for_down n g s.
Proof. induction n; intros s H; cbn; auto. rewrite H by lia. destruct (g n s); cbn; auto. Qed.
Lemma computeY_kinematics mb bs m m2 Y : length bs = nrBodies mb ->
  parentToSon m2 = parentToSon m -> motionSubspace m2 = motionSubspace m -> bodyVelB m2 = bodyVelB m -> bodyAccB m2 = bodyAccB m ->
  computeY (with_bodies bs mb) m2 Y = computeY mb m Y.
Proof.
  intros L E1 E2 E3 E4. unfold computeY. replace (nrBodies (with_bodies bs mb)) with (nrBodies mb) by (symmetry; exact L).
  apply for_down_ext. intros i Y' Hi. unfold idim_step. rewrite E2, E3, E4. cbn [with_bodies mb_posDof mb_joints].
  destruct (get (bodyVelB m) i) as [V| | |]; auto. cbn [bind]. destruct (get (bodyAccB m) i) as [A| | |]; auto. cbn [bind].
  rewrite phi_loop. cbn [bind].
  destruct (get (mb_posDof mb) i) as [pj| | |]; auto. cbn [bind].
  destruct (get (mb_joints mb) i) as [jj| | |]; auto. cbn [bind].
  destruct (get (motionSubspace m) i) as [ms| | |]; auto. cbn [bind].
  destruct (smat_tmul ms (phiF V A) (jdof jj) 10) as [B| | |]; auto. cbn [bind].
  destruct (set_block Y' pj (i * 10) (jdof jj) 10 B) as [Y1| | |]; auto. cbn [bind].
  rewrite (loop_bodies bs mb m2). now apply (loop_state mb m m2).
Qed.

(** C14 *)
Lemma vector_of_inertia I : vectorToInertia (inertiaToVector I) = Ok I.
Proof. destruct I as [mm [h1 h2 h3] [a b c d e f]]. reflexivity. Qed.
Lemma inertia_of_vector v I : vectorToInertia v = Ok I -> inertiaToVector I = v.
Proof.
  unfold vectorToInertia. destruct (Nat.eqb_spec (length v) 10) as [L|]; [|discriminate]. intros E. injection E as <-.
  do 10 (destruct v as [|? v]; [discriminate L|]). destruct v; [|discriminate L]. reflexivity.
Qed.
Lemma vector_total v : length v = 10%nat -> exists I, vectorToInertia v = Ok I.
Proof. intros L. unfold vectorToInertia. rewrite L. eexists. reflexivity. Qed.
Lemma sVector_cases v : sVectorToInertia v = Throw OutOfRange <-> length v <> 10%nat.
Proof.
  unfold sVectorToInertia. destruct (Nat.eqb_spec (length v) 10) as [L|L]; cbn [negb].
  - split; [|contradiction]. unfold vectorToInertia. rewrite L. discriminate.
  - tauto.
Qed.
Lemma sVector_agrees v : length v = 10%nat -> sVectorToInertia v = vectorToInertia v.
Proof. intros L. unfold sVectorToInertia. now rewrite L. Qed.
