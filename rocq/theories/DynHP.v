(** computeH: the composite-rigid-body algorithm. *)
From Coq Require Import Reals String ZArith Bool Arith Lia Lra List.
From Verif Require Import Res ResP Vec VecP Sva SvaP Mat JointM MultiBodyM KinM DynM Spec JointP KinP MbP TreeP DynP SpecDyn DynCP.
Import ListNotations.
Open Scope R_scope.

Definition axis (m : MBC) (i a : nat) : SV := nth a (nth i (motionSubspace m) []) sv0.

(** Generalised inertia between axis a of joint i and axis b of joint j. *)
Definition Fu (mb : MultiBody) (m : MBC) (i a : nat) : nat -> SV :=
  unitF (nrBodies mb) (par mb) (ptsn m) (Ib mb) i (axis m i a).
Definition Msp (mb : MultiBody) (m : MBC) (i a j b : nat) : R := svdot (Fu mb m i a j) (axis m j b).

Lemma parlt mb : wf_mb mb -> forall i p, (i < nrBodies mb)%nat -> par mb i = Some p -> (p < i)%nat.
Proof. intros W i p L. now apply par_lt. Qed.
Lemma Msp_sym mb m i a j b : wf_mb mb -> (i < nrBodies mb)%nat -> (j < nrBodies mb)%nat ->
  Msp mb m i a j b = Msp mb m j b i a.
Proof. intros W Li Lj. unfold Msp, Fu. apply unit_sym; auto. now apply parlt. Qed.

(** ** Blocks *)
Lemma in_block_tile mb i p i' j' a b : wf_mb mb ->
  (i < nrBodies mb)%nat -> (p < nrBodies mb)%nat -> (i' < nrBodies mb)%nat -> (j' < nrBodies mb)%nat ->
  (a < dofi mb i')%nat -> (b < dofi mb j')%nat ->
  in_block (pos mb i) (dofi mb i) (pos mb p) (dofi mb p) (pos mb i' + a) (pos mb j' + b) =
  Nat.eqb i i' && Nat.eqb p j'.
Proof.
  intros W Li Lp Li' Lj' Ha Hb. pose proof (wf_nrJoints mb W).
  assert (T : forall x y c, (x < nrBodies mb)%nat -> (y < nrBodies mb)%nat -> (c < dofi mb y)%nat ->
     (pos mb x <=? pos mb y + c)%nat && (pos mb y + c <? pos mb x + dofi mb x)%nat = Nat.eqb x y).
  { intros x y c Lx Ly Hc. destruct (lt_eq_lt_dec x y) as [[G|G]|G].
    - pose proof (pos_mono mb x y G ltac:(lia)).
      destruct (Nat.ltb_spec (pos mb y + c) (pos mb x + dofi mb x)); [lia|]. rewrite andb_false_r.
      destruct (Nat.eqb_spec x y); [lia|auto].
    - subst. rewrite Nat.eqb_refl. destruct (Nat.leb_spec (pos mb y) (pos mb y + c)); [|lia].
      destruct (Nat.ltb_spec (pos mb y + c) (pos mb y + dofi mb y)); [auto|lia].
    - pose proof (pos_mono mb y x G ltac:(lia)).
      destruct (Nat.leb_spec (pos mb x) (pos mb y + c)); [lia|]. 
      destruct (Nat.eqb_spec x y); [lia|auto]. }
  unfold in_block. rewrite <- (T i i' a), <- (T p j' b) by auto. now rewrite <- !andb_assoc.
Qed.

Lemma set_block_tile mb H i p B : wf_mb mb -> (i < nrBodies mb)%nat -> (p < nrBodies mb)%nat ->
  mrows H = mb_nrDof mb -> mcols H = mb_nrDof mb ->
  exists H', set_block H (pos mb i) (pos mb p) (dofi mb i) (dofi mb p) B = Ok H' /\
    mrows H' = mb_nrDof mb /\ mcols H' = mb_nrDof mb /\
    (forall a b, (a < dofi mb i)%nat -> (b < dofi mb p)%nat -> ment H' (pos mb i + a) (pos mb p + b) = B a b) /\
    (forall i' j' a b, (i' < nrBodies mb)%nat -> (j' < nrBodies mb)%nat -> (a < dofi mb i')%nat -> (b < dofi mb j')%nat ->
       ~ (i' = i /\ j' = p) -> ment H' (pos mb i' + a) (pos mb j' + b) = ment H (pos mb i' + a) (pos mb j' + b)).
Proof.
  intros W Li Lp Hr Hc. unfold set_block. pose proof (pos_le mb i W Li). pose proof (pos_le mb p W Lp).
  destruct (Nat.leb_spec (pos mb i + dofi mb i) (mrows H)); [|lia].
  destruct (Nat.leb_spec (pos mb p + dofi mb p) (mcols H)); [|lia]. simpl. eexists; split; [reflexivity|].
  cbn [mrows mcols ment]. repeat split; auto.
  - intros a b Ha Hb. rewrite in_block_tile by auto. rewrite !Nat.eqb_refl. simpl. f_equal; lia.
  - intros i' j' a b L1 L2 Ha Hb N. rewrite in_block_tile by auto.
    destruct (Nat.eqb_spec i i'), (Nat.eqb_spec p j'); auto. exfalso; auto.
Qed.

(** ** The loop over the ancestors *)
Definition panc (mb : MultiBody) (k j : nat) : Prop := exists p, par mb j = Some p /\ tanc (par mb) k p.

Section AncLoop.
Variables (mb : MultiBody) (m : MBC) (W : wf_mb mb) (K : mbc_ok mb m).
Variable dofPos : list nat.
Hypothesis dofPos_len : length dofPos = nrBodies mb.
Hypothesis dofPos_nth : forall i, (i < nrBodies mb)%nat -> nth i dofPos 0%nat = pos mb i.
Variable i : nat.
Hypothesis Li : (i < nrBodies mb)%nat.

Lemma pttrans_cols X F : forall di, di = length F ->
  for_up di (fun d F => c <- get F d ;; set F d (pttrans X c)) F = Ok (map (pttrans X) F).
Proof.
  intros di Ed.
  destruct (for_up_inv (fun d F' => length F' = di /\
      forall e, nth e F' sv0 = if (e <? d)%nat then pttrans X (nth e F sv0) else nth e F sv0)
      (fun d F => c <- get F d ;; set F d (pttrans X c)) di F) as (F' & E & L & H).
  - split; auto. 
  - intros d F' Hd (L & H). gets. eexists; split; [reflexivity|]. rewrite upd_length. split; auto.
    intros e. destruct (Nat.eq_dec e d) as [->|].
    + rewrite nth_upd_eq by lia. rewrite H. destruct (Nat.ltb_spec d d), (Nat.ltb_spec d (S d)); try lia. auto.
    + rewrite nth_upd_neq by auto. rewrite H. destruct (Nat.ltb_spec e d), (Nat.ltb_spec e (S d)); try lia; auto.
  - rewrite E. f_equal. apply (list_ext_nth _ _ sv0).
    + rewrite map_length. lia.
    + intros e He. rewrite H. destruct (Nat.ltb_spec e di); [|lia].
      now rewrite (nth_map_lt _ _ _ sv0) by lia.
Qed.

Lemma anc_loop_ok : forall fuel j H F, (j < fuel)%nat -> tanc (par mb) j i ->
  mrows H = mb_nrDof mb -> mcols H = mb_nrDof mb -> length F = dofi mb i ->
  (forall d, (d < dofi mb i)%nat -> nth d F sv0 = Fu mb m i d j) ->
  exists H' F', anc_loop mb m dofPos i (dofi mb i) fuel j H F = Ok (H', F') /\
    mrows H' = mb_nrDof mb /\ mcols H' = mb_nrDof mb /\ length F' = dofi mb i /\
    (forall j' a b, panc mb j' j -> (a < dofi mb i)%nat -> (b < dofi mb j')%nat ->
       ment H' (pos mb i + a) (pos mb j' + b) = Msp mb m i a j' b /\
       ment H' (pos mb j' + b) (pos mb i + a) = Msp mb m j' b i a) /\
    (forall i' j' a b, (i' < nrBodies mb)%nat -> (j' < nrBodies mb)%nat -> (a < dofi mb i')%nat -> (b < dofi mb j')%nat ->
       ~ (i' = i /\ panc mb j' j) -> ~ (j' = i /\ panc mb i' j) ->
       ment H' (pos mb i' + a) (pos mb j' + b) = ment H (pos mb i' + a) (pos mb j' + b)).
Proof.
  pose proof (wf_nrJoints mb W) as NJ. mbclens W K. pose proof (parlt mb W) as PL.
  induction fuel; intros j H F Lf T Hr Hc LF HF; [lia|].
  assert (Lj : (j < nrBodies mb)%nat) by (pose proof (tanc_le _ _ PL j i T Li); lia).
  simpl. predcase W Lj.
  - exists H, F. repeat split; auto; destruct H0 as (p & Pp' & _); congruence.
  - gets. rewrite pttrans_cols by auto. cbn [bind]. rewrite Nat2Z.id. gets.
    fold (dofi mb p).
    assert (Tp : tanc (par mb) p i) by (apply (tanc_trans _ p j i); auto; econstructor; [eauto|constructor]).
    assert (Lp : (p < nrBodies mb)%nat) by lia.
    assert (Lpi : (p < i)%nat) by (pose proof (tanc_le _ _ PL j i T Li); lia).
    set (F1 := map (pttrans (nth j (parentToSon m) ptid)) F).
    assert (HF1 : forall d, (d < dofi mb i)%nat -> nth d F1 sv0 = Fu mb m i d p).
    { intros d Hd. unfold F1. rewrite (nth_map_lt _ _ _ sv0) by lia.
      rewrite HF by auto. symmetry. unfold Fu.
      apply (anc_force _ _ PL (ptsn m) (Ib mb) i (axis m i d) (unitA (par mb) (ptsn m) i (axis m i d))); auto.
      - now apply unitA_fwd.
      - now apply unitF_acc. }
    assert (LF1 : length F1 = dofi mb i) by (unfold F1; now rewrite map_length).
    assert (panc_cases : forall j', panc mb j' j -> j' = p \/ panc mb j' p).
    { intros j' (p' & E' & T'). rewrite Pp in E'. injection E' as <-. inversion T'; subst; auto.
      right. exists p0. auto. }
    assert (panc_p : panc mb p j) by (exists p; split; [auto|constructor]).
    assert (panc_up : forall j', panc mb j' p -> panc mb j' j).
    { intros j' (p' & E' & T'). exists p. split; auto. econstructor; eauto. }
    assert (panc_lt : forall k j', (j' < nrBodies mb)%nat -> panc mb k j' -> (k < j')%nat).
    { intros k j' L (p' & E' & T'). pose proof (PL j' p' L E'). pose proof (tanc_le _ _ PL k p' T' ltac:(lia)). lia. }
    destruct (Nat.eqb_spec (dofi mb p) 0) as [Z0|NZ]; cbn [negb].
    + destruct (IHfuel p H F1 ltac:(lia) Tp Hr Hc LF1 HF1) as (H' & F' & E & R1 & R2 & R3 & R4 & R5).
      exists H', F'. split; auto. repeat (split; auto).
      * apply R4; auto. destruct (panc_cases _ H0); auto. subst. lia.
      * apply R4; auto. destruct (panc_cases _ H0); auto. subst. lia.
      * intros i' j' a b L1 L2 Ha Hb N1 N2. apply R5; auto; intros [? ?]; [apply N1|apply N2]; auto.
    + rewrite !dofPos_nth by auto.
      unfold smat_tmul. rewrite LF1, (sized_nth _ _ _ p Sms) by lia. fold (dofi mb p). rewrite !Nat.eqb_refl.
      cbn [andb bind].
      set (B := fun a b => svdot (nth a F1 sv0) (nth b (nth p (motionSubspace m) []) sv0)).
      destruct (set_block_tile mb H i p B W Li Lp Hr Hc) as (H1 & E1 & Hr1 & Hc1 & HB1 & HO1).
      rewrite E1. cbn [bind]. unfold get_block.
      pose proof (pos_le mb i W Li). pose proof (pos_le mb p W Lp).
      destruct (Nat.leb_spec (pos mb i + dofi mb i) (mrows H1)); [|lia].
      destruct (Nat.leb_spec (pos mb p + dofi mb p) (mcols H1)); [|lia]. cbn [andb bind].
      destruct (set_block_tile mb H1 p i (fun a b => ment H1 (pos mb i + b)%nat (pos mb p + a)%nat) W Lp Li Hr1 Hc1)
        as (HM2 & E2 & Hr2 & Hc2 & HB2 & HO2).
      rewrite E2. cbn [bind].
      destruct (IHfuel p HM2 F1 ltac:(lia) Tp Hr2 Hc2 LF1 HF1) as (H' & F' & E & R1 & R2 & R3 & R4 & R5).
      exists H', F'. split; auto. split; [auto|]. split; [auto|]. split; [auto|].
      assert (BM : forall a b, (a < dofi mb i)%nat -> B a b = Msp mb m i a p b).
      { intros a b Ha. unfold B. rewrite HF1 by auto. reflexivity. }
      split.
      * intros j' a b PA Ha Hb. destruct (panc_cases _ PA) as [->|PA']; [|apply R4; auto].
        rewrite !R5; auto.
        -- split.
           ++ rewrite HO2 by (auto; intros [? ?]; lia). rewrite HB1 by auto. auto.
           ++ rewrite HB2 by auto. rewrite HB1 by auto. rewrite BM by auto. apply Msp_sym; auto.
        -- intros [? ?]; lia.
        -- intros [? PP]. apply panc_lt in PP; auto; lia.
        -- intros [? PP]. apply panc_lt in PP; auto; lia.
        -- intros [? PP]. lia.
      * intros i' j' a b L1 L2 Ha Hb N1 N2. rewrite R5; auto.
        -- rewrite HO2, HO1; auto; intros [? ?]; subst; auto.
        -- intros [? ?]; apply N1; auto.
        -- intros [? ?]; apply N2; auto.
Qed.
End AncLoop.

(** ** The composite inertias *)
Definition compI (mb : MultiBody) (X : nat -> PT) (I0 : nat -> RBI) (i : nat) (Il : list RBI) : Prop :=
  length Il = nrBodies mb /\
  (forall k, (k < nrBodies mb)%nat -> forall u v,
     svdot (rbim (nth k Il rbi0) u) v = svdot (rbim (I0 k) u) v +
       rsum (nrBodies mb) (fun c => if (i <=? c)%nat && is_par (par mb) c k
                                    then svdot (rbim (nth c Il rbi0) (ptm (X c) u)) (ptm (X c) v) else 0)).
Lemma compI_start mb X I0 Il : length Il = nrBodies mb -> (forall k, (k < nrBodies mb)%nat -> nth k Il rbi0 = I0 k) ->
  compI mb X I0 (nrBodies mb) Il.
Proof.
  intros L E. split; auto. intros k Hk u v. rewrite E by auto. rewrite rsum_eq0; [ring|]. intros c Hc.
  destruct (Nat.leb_spec (nrBodies mb) c); [lia|]. auto.
Qed.
Lemma compI_comp mb X I0 i Il : wf_mb mb -> compI mb X I0 (S i) Il ->
  comp (nrBodies mb) (par mb) X I0 i (fun k => nth k Il rbi0).
Proof.
  intros W [L H] k Hk u v. rewrite H by lia. f_equal. apply rsum_ext. intros c Hc.
  destruct (is_par (par mb) c k) eqn:P; [|now rewrite andb_false_r].
  apply is_par_iff in P. pose proof (parlt mb W c k Hc P).
  destruct (Nat.leb_spec (S i) c); [auto|lia].
Qed.
Lemma compI_step_none mb X I0 i Il : (i < nrBodies mb)%nat -> par mb i = None -> compI mb X I0 (S i) Il -> compI mb X I0 i Il.
Proof.
  intros L P [L1 H]. split; auto. intros k Hk u v. rewrite H by auto. f_equal. apply rsum_ext.
  intros c Hc. destruct (Nat.eq_dec c i) as [->|].
  - unfold is_par. rewrite P, !andb_false_r. auto.
  - destruct (Nat.leb_spec (S i) c), (Nat.leb_spec i c); auto; lia.
Qed.
Lemma compI_step_some mb X I0 i p Il : rigid (X i) ->
  (i < nrBodies mb)%nat -> (p < i)%nat -> par mb i = Some p -> compI mb X I0 (S i) Il ->
  compI mb X I0 i (upd Il p (rbiadd (nth p Il rbi0) (pttransI (X i) (nth i Il rbi0)))).
Proof.
  intros RX L Lp P [L1 H]. split; [now rewrite upd_length|]. intros k Hk u v.
  set (f' := upd Il p _).
  assert (Hc : forall c, c <> p -> nth c f' rbi0 = nth c Il rbi0) by (intros; unfold f'; rewrite nth_upd_neq; auto).
  assert (E : rsum (nrBodies mb) (fun c => if (i <=? c)%nat && is_par (par mb) c k
                      then svdot (rbim (nth c f' rbi0) (ptm (X c) u)) (ptm (X c) v) else 0) =
     rsum (nrBodies mb) (fun c => if (S i <=? c)%nat && is_par (par mb) c k
                      then svdot (rbim (nth c Il rbi0) (ptm (X c) u)) (ptm (X c) v) else 0) +
     (if Nat.eqb p k then svdot (rbim (nth i Il rbi0) (ptm (X i) u)) (ptm (X i) v) else 0)).
  { transitivity (rsum (nrBodies mb) (fun c => (if (S i <=? c)%nat && is_par (par mb) c k
                                    then svdot (rbim (nth c Il rbi0) (ptm (X c) u)) (ptm (X c) v) else 0) +
      (if Nat.eqb c i then (if Nat.eqb p k then svdot (rbim (nth c Il rbi0) (ptm (X c) u)) (ptm (X c) v) else 0) else 0))).
    - apply rsum_ext. intros c Lc. destruct (Nat.eqb_spec c i) as [->|N].
      + rewrite Nat.leb_refl. destruct (Nat.leb_spec (S i) i); [lia|]. simpl. unfold is_par. rewrite P.
        destruct (Nat.eqb p k); rewrite ?Hc by lia; ring.
      + destruct (Nat.leb_spec i c), (Nat.leb_spec (S i) c); try lia; simpl; [|ring].
        rewrite Hc by lia. destruct (is_par (par mb) c k); ring.
    - rewrite rsum_plus. f_equal.
      rewrite (rsum_delta (nrBodies mb) i (fun c => if Nat.eqb p k then svdot (rbim (nth c Il rbi0) (ptm (X c) u)) (ptm (X c) v) else 0)); auto. }
  rewrite E. destruct (Nat.eqb_spec p k) as [->|N].
  - unfold f' at 1. rewrite nth_upd_eq by lia. rewrite rbim_rbiadd, svdot_add_l, pttransI_spec, pttrans_adj by auto.
    rewrite H by auto. ring.
  - rewrite Hc by auto. rewrite H by auto. ring.
Qed.

(** ** computeH *)
Definition h_rest (mb : MultiBody) (m : MBC) (i : nat) (s3 : FD) : res FD :=
        (j <- get (mb_joints mb) i ;;
         Fi <- get (fd_F s3) i ;;
         Fi <- for_up (jdof j)
          (fun d F => Ii <- get (fd_I s3) i ;; ms <- get (motionSubspace m) i ;; c <- get ms d ;;
                      set F d (rbim Ii c)) Fi ;;
         pi <- get (fd_dofPos s3) i ;;
         ms <- get (motionSubspace m) i ;;
         B <- smat_tmul ms Fi (jdof j) (jdof j) ;;
         H <- set_block (fd_H s3) pi pi (jdof j) (jdof j) B ;;
         r <- anc_loop mb m (fd_dofPos s3) i (jdof j) (S (nrJoints mb)) i H Fi ;;
         F <- set (fd_F s3) i (snd r) ;;
         Ok (with_F F (with_H (fst r) s3))).
Lemma h_step_eq mb m i s : h_step mb m i s =
  (pr <- get (mb_pred mb) i ;;
  s <- (if negb (pr =? -1)%Z then
          X <- get (parentToSon m) i ;;
          Ip <- getz (fd_I s) pr ;; Ii <- get (fd_I s) i ;;
          I' <- setz (fd_I s) pr (rbiadd Ip (pttransI X Ii)) ;;
          Ok (with_I I' s)
        else Ok s) ;; h_rest mb m i s).
Proof. reflexivity. Qed.

Record h_post (mb : MultiBody) (m : MBC) (s s' : FD) : Prop := {
  hp_ok : fd_ok mb s';
  hp_C : fd_C s' = fd_C s;
  hp_tmp : fd_tmp s' = fd_tmp s;
  hp_H : forall i j a b, (i < nrBodies mb)%nat -> (j < nrBodies mb)%nat -> (a < dofi mb i)%nat -> (b < dofi mb j)%nat ->
     ment (fd_H s') (pos mb i + a) (pos mb j + b) = Msp mb m i a j b
}.

Lemma H_ok mb m s : wf_mb mb -> mbc_ok mb m -> (forall i, (i < nrBodies mb)%nat -> rigid (nth i (parentToSon m) ptid)) ->
  fd_ok mb s -> exists s', computeH mb m s = Ok s' /\ h_post mb m s s'.
Proof.
  intros W K RX O1. pose proof (wf_nrJoints mb W) as NJ. mbclens W K. pose proof (parlt mb W) as PL.
  unfold computeH.
  set (s0 := with_H (mat_zero (mrows (fd_H s)) (mcols (fd_H s))) s).
  assert (O2 : fd_ok mb s0) by (destruct O1; constructor; auto).
  pose (P := fun (i : nat) (s' : FD) => s' = with_I (fd_I s') s0 /\ length (fd_I s') = nrBodies mb /\
     forall k, (k < i)%nat -> nth k (fd_I s') rbi0 = Ib mb k).
  destruct (for_up_inv P (fun i s => b <- get (mb_bodies mb) i ;; I' <- set (fd_I s) i (binertia b) ;; Ok (with_I I' s))
      (nrBodies mb) s0) as (s1 & E1 & Es1 & LI & HI).
  { unfold P. split; [|split]; try (intros; lia). destruct s0; reflexivity. apply O2. }
  { intros i s' Hi (Es & L & H). assert (NB : (i < length (mb_bodies mb))%nat) by (unfold nrBodies in Hi; auto).
    gets. eexists; split; [reflexivity|]. unfold P. cbn [fd_I with_I]. rewrite upd_length. repeat split; auto.
    - rewrite Es. reflexivity.
    - intros k Hk. destruct (Nat.eq_dec k i) as [->|]; nthupd; auto. apply H. lia. }
  rewrite E1. cbn [bind].
  pose (Q := fun (i : nat) (s' : FD) =>
    s' = with_F (fd_F s') (with_H (fd_H s') (with_I (fd_I s') s0)) /\
    mrows (fd_H s') = mb_nrDof mb /\ mcols (fd_H s') = mb_nrDof mb /\
    sized mb jdof (fd_F s') /\ compI mb (ptsn m) (Ib mb) i (fd_I s') /\
    forall i' j' a b, (i' < nrBodies mb)%nat -> (j' < nrBodies mb)%nat -> (a < dofi mb i')%nat -> (b < dofi mb j')%nat ->
     ment (fd_H s') (pos mb i' + a) (pos mb j' + b) =
       if (i <=? Nat.max i' j')%nat then Msp mb m i' a j' b else 0).
  destruct (for_down_inv Q (h_step mb m) (nrBodies mb) s1) as (s2 & E2 & Es2 & Hr & Hc & SF & HC & HH).
  { unfold Q. repeat split.
    - rewrite Es1. destruct s0; reflexivity.
    - rewrite Es1. apply O2.
    - rewrite Es1. apply O2.
    - rewrite Es1. apply O2.
    - auto.
    - intros. apply compI_start; auto.
    - intros. destruct (Nat.leb_spec (nrBodies mb) (Nat.max i' j')); [lia|]. rewrite Es1. reflexivity. }
  { intros i s' Hi (Es & Hr & Hc & SF & HC & HH). rewrite h_step_eq.
    pose proof (sized_length _ _ _ SF) as LF. destruct (HC) as [LIs _].
    assert (Ed : fd_dofPos s' = fd_dofPos s) by (rewrite Es; reflexivity).
    assert (Lpos : length (fd_dofPos s') = nrBodies mb) by (rewrite Ed; apply O1).
    assert (Epos : forall k, (k < nrBodies mb)%nat -> nth k (fd_dofPos s') 0%nat = pos mb k)
      by (intros; rewrite Ed; apply (fo_pos _ _ O1); auto).
    pose proof (sized_nth _ _ _ i Sms ltac:(lia)) as Lmi. fold (dofi mb i) in Lmi.
    pose proof (sized_nth _ _ _ i SF ltac:(lia)) as LFi. fold (dofi mb i) in LFi.
    set (Ic := fun k => nth k (fd_I s') rbi0).
    assert (HCc : comp (nrBodies mb) (par mb) (ptsn m) (Ib mb) i Ic) by (now apply compI_comp).
    set (Fi := map (fun d => rbim (Ic i) (axis m i d)) (seq 0 (dofi mb i))).
    assert (LFi1 : length Fi = dofi mb i) by (unfold Fi; rewrite map_length, seq_length; auto).
    assert (HFi : forall d, (d < dofi mb i)%nat -> nth d Fi sv0 = Fu mb m i d i).
    { intros d Hd. unfold Fi. rewrite nth_map_seq by auto. symmetry. unfold Fu.
      rewrite (comp_force (nrBodies mb) (par mb) PL (ptsn m) (Ib mb) Ic i (axis m i d)
         (unitA (par mb) (ptsn m) i (axis m i d)) _ HCc); auto.
      - f_equal. apply (fwd_at_self (nrBodies mb) (par mb) PL (ptsn m)); auto. now apply unitA_fwd.
      - now apply unitA_fwd.
      - now apply unitF_acc.
      - constructor. }
    assert (Core : forall s3, fd_H s3 = fd_H s' -> fd_F s3 = fd_F s' -> fd_dofPos s3 = fd_dofPos s' ->
       length (fd_I s3) = nrBodies mb -> nth i (fd_I s3) rbi0 = Ic i ->
       exists H' F', 
        h_rest mb m i s3 = Ok (with_F F' (with_H H' s3)) /\
        mrows H' = mb_nrDof mb /\ mcols H' = mb_nrDof mb /\ sized mb jdof F' /\
        forall i' j' a b, (i' < nrBodies mb)%nat -> (j' < nrBodies mb)%nat -> (a < dofi mb i')%nat -> (b < dofi mb j')%nat ->
           ment H' (pos mb i' + a) (pos mb j' + b) =
           if (i <=? Nat.max i' j')%nat then Msp mb m i' a j' b else 0).
    { intros s3 EH EF EP LI3 HI3. unfold h_rest. rewrite EH, EF, EP. rewrite (get_nth (mb_joints mb) i jd) by lia. cbn [bind].
      rewrite (get_nth (fd_F s') i []) by lia. cbn [bind]. fold (dofi mb i).
      assert (EFi : for_up (dofi mb i)
          (fun d F => Ii <- get (fd_I s3) i ;; ms <- get (motionSubspace m) i ;; c <- get ms d ;;
                      set F d (rbim Ii c)) (nth i (fd_F s') []) = Ok Fi).
      { destruct (for_up_inv (fun d F' => length F' = dofi mb i /\
            forall e, (e < d)%nat -> nth e F' sv0 = rbim (Ic i) (axis m i e))
          (fun d F => Ii <- get (fd_I s3) i ;; ms <- get (motionSubspace m) i ;; c <- get ms d ;;
                      set F d (rbim Ii c)) (dofi mb i) (nth i (fd_F s') [])) as (F' & E & L & H).
        - split; auto; intros; lia.
        - intros d F' Hd (L & H). gets. eexists; split; [reflexivity|]. rewrite upd_length. split; auto.
          intros e He. destruct (Nat.eq_dec e d) as [->|]; nthupd.
          + now rewrite HI3.
          + apply H. lia.
        - rewrite E. f_equal. apply (list_ext_nth _ _ sv0); [lia|]. intros e He. unfold Fi.
          rewrite nth_map_seq by lia. apply H. lia. }
      rewrite EFi. gets. rewrite Epos by auto.
      unfold smat_tmul. rewrite Lmi, LFi1, !Nat.eqb_refl. cbn [andb bind].
      set (B := fun a b => svdot (nth a (nth i (motionSubspace m) []) sv0) (nth b Fi sv0)).
      destruct (set_block_tile mb (fd_H s') i i B W Hi Hi Hr Hc) as (H1 & E1' & Hr1 & Hc1 & HB1 & HO1).
      rewrite E1'. cbn [bind].
      destruct (anc_loop_ok mb m W K (fd_dofPos s') Lpos Epos i Hi (S (nrJoints mb)) i H1 Fi) as
        (H' & F' & E & R1 & R2 & R3 & R4 & R5); auto; [lia|constructor|].
      rewrite E. cbn [bind fst snd]. gets. exists H', (upd (fd_F s') i F'). split; [reflexivity|].
      repeat split; auto.
      - apply sized_of_nth; [rewrite upd_length; lia|]. intros k Hk. destruct (Nat.eq_dec k i) as [->|]; nthupd.
        + exact R3.
        + apply (sized_nth _ _ _ _ SF). lia.
      - assert (PD : forall k j', (j' < nrBodies mb)%nat -> {panc mb k j'} + {~ panc mb k j'}).
        { intros k j' L. unfold panc. destruct (par mb j') as [p|] eqn:E'.
          - destruct (tanc_dec (nrBodies mb) (par mb) PL k p) as [T|T]; [pose proof (PL j' p L E'); lia| |].
            + left. exists p; auto.
            + right. intros (p' & E2' & T2). injection E2' as <-. auto.
          - right. intros (p' & E2' & T2). discriminate. }
        assert (panc_lt : forall k j', (j' < nrBodies mb)%nat -> panc mb k j' -> (k < j')%nat).
        { intros k j' L (p' & E' & T'). pose proof (PL j' p' L E'). pose proof (tanc_le _ _ PL k p' T' ltac:(lia)). lia. }
        assert (UN : forall k a b, (k < i)%nat -> ~ panc mb k i -> Msp mb m i a k b = 0).
        { intros k a b Lk NP. unfold Msp, Fu.
          rewrite (unrelated_force (nrBodies mb) (par mb) PL (ptsn m) (Ib mb) i (axis m i a)
             (unitA (par mb) (ptsn m) i (axis m i a))); auto using unitA_fwd, unitF_acc.
          - apply svdot_0_l.
          - lia.
          - intros T. inversion T; subst; [lia|]. apply NP. exists p; auto.
          - intros T. pose proof (tanc_le _ _ PL i k T ltac:(lia)). lia. }
        intros i' j' a b Li' Lj' Ha Hb.
        destruct (Nat.eq_dec i' i) as [->|Ni].
        { destruct (Nat.leb_spec i (Nat.max i j')); [|lia].
          destruct (PD j' i Hi) as [PA|PA]; [now apply R4|].
          rewrite R5; auto; try (intros [? ?]; auto; subst; tauto).
          destruct (Nat.eq_dec j' i) as [->|Nj].
          - rewrite HB1 by auto. unfold B. rewrite HFi by auto. rewrite svdot_comm. fold (axis m i a).
            change (Msp mb m i b i a = Msp mb m i a i b). apply Msp_sym; auto.
          - rewrite HO1 by (auto; intros [? ?]; auto). rewrite HH by auto.
            destruct (Nat.leb_spec (S i) (Nat.max i j')); auto. rewrite UN; auto. lia. }
        destruct (Nat.eq_dec j' i) as [->|Nj].
        { destruct (Nat.leb_spec i (Nat.max i' i)); [|lia].
          destruct (PD i' i Hi) as [PA|PA]; [now apply R4|].
          rewrite R5; auto; try (intros [? ?]; auto; subst; tauto).
          rewrite HO1 by (auto; intros [? ?]; auto). rewrite HH by auto.
          destruct (Nat.leb_spec (S i) (Nat.max i' i)); auto. rewrite Msp_sym by auto. rewrite UN; auto. lia. }
        rewrite R5; auto; try (intros [? ?]; auto).
        rewrite HO1 by (auto; intros [? ?]; auto). rewrite HH by auto.
        destruct (Nat.leb_spec (S i) (Nat.max i' j')), (Nat.leb_spec i (Nat.max i' j')); auto; lia. }
    predcase W Hi.
    - cbn [bind]. destruct (Core s' eq_refl eq_refl eq_refl LIs eq_refl) as (H' & F' & E & R1 & R2 & R3 & R4).
      rewrite E. eexists; split; [reflexivity|]. unfold Q. cbn [fd_H fd_F fd_I with_F with_H].
      repeat (split; auto).
      + rewrite Es. reflexivity.
      + intros. now apply compI_step_none.
    - gets.
      set (s3 := with_I (upd (fd_I s') p (rbiadd (nth p (fd_I s') rbi0)
                      (pttransI (nth i (parentToSon m) ptid) (nth i (fd_I s') rbi0)))) s').
      destruct (Core s3 eq_refl eq_refl eq_refl) as (H' & F' & E & R1 & R2 & R3 & R4).
      { unfold s3; cbn. now rewrite upd_length. }
      { unfold s3; cbn. rewrite nth_upd_neq by lia. auto. }
      fold s3. rewrite E. eexists; split; [reflexivity|]. unfold Q. cbn [fd_H fd_F fd_I with_F with_H].
      repeat (split; auto).
      + unfold s3. rewrite Es. reflexivity.
      + unfold s3; cbn [fd_I with_I]. now rewrite upd_length.
      + intros. unfold s3; cbn [fd_I with_I]. apply (compI_step_some mb (ptsn m)); auto. }
  exists s2. split; auto. destruct (HC) as [LI2 _]. constructor.
  - rewrite Es2. destruct O1. constructor; cbn in *; auto.
  - rewrite Es2. reflexivity.
  - rewrite Es2. reflexivity.
  - intros. rewrite HH by auto. auto.
Qed.
