(** Proofs about fullJacobian, expand and compactPath. *)
From Coq Require Import Reals String ZArith Bool Arith List Lia Lra.
From Verif Require Import Res ResP SMap Vec VecP Sva SvaP Mat JointM MultiBodyM KinM DynM JacM Spec SpecDyn SpecJac
  JointP KinP KinPathP MbP TreeP DynP DynCP ConvP KinFinP DerivTreeP JacP JacFinP JacFin2P.
Import ListNotations.
Open Scope R_scope.

(** One block per joint of the path. *)
Fixpoint pblocks (mb : MultiBody) (l : list nat) (off : nat) : list Block :=
  match l with
  | [] => []
  | k :: l => mkBlock (pos mb k) off (dofi mb k) :: pblocks mb l (off + dofi mb k)
  end.

Lemma get_posDof mb k : wf_mb mb -> (k < nrBodies mb)%nat -> get (mb_posDof mb) k = Ok (pos mb k).
Proof. intros W H. unfold get. now rewrite (wf_posDof _ W k H). Qed.
Lemma get_joint mb k : wf_mb mb -> (k < nrBodies mb)%nat -> get (mb_joints mb) k = Ok (nth k (mb_joints mb) jd).
Proof. intros W H. apply get_nth. rewrite (wf_joints _ W). auto. Qed.

Lemma addFull_blocks mb J jac r : wf_mb mb -> (forall k, In k (jc_path J) -> (k < nrBodies mb)%nat) ->
  addFullJacobian mb J jac r = addFullJacobian_compact (pblocks mb (jc_path J) 0) jac r.
Proof.
  intros W. unfold addFullJacobian, addFullJacobian_compact.
  match goal with |- _ -> bind (for_each _ ?f _) _ = for_each _ ?g _ => set (F := f); set (G := g) end.
  generalize 0%nat as off. revert r.
  generalize (jc_path J) as l. clear J. induction l as [|k l IH]; intros r off IN; cbn [for_each pblocks]; auto.
  unfold F at 1, G at 1.
  rewrite get_joint, get_posDof by (auto; apply IN; cbn; auto). cbn [bind fst snd bl_jac bl_len bl_dof].
  change (jdof (nth k (mb_joints mb) jd)) with (dofi mb k).
  destruct (get_block jac 0 off (mrows jac) (dofi mb k)); cbn [bind]; auto.
  destruct (add_block r 0 (pos mb k) (mrows jac) (dofi mb k) a); cbn [bind]; auto.
  apply IH. intros; apply IN; cbn; auto.
Qed.
Lemma expandAdd_blocks mb J jac r : wf_mb mb -> (forall k, In k (jc_path J) -> (k < nrBodies mb)%nat) ->
  expandAdd mb J jac r = expandAdd_compact (pblocks mb (jc_path J) 0) jac r.
Proof.
  intros W IN0. unfold expandAdd, expandAdd_compact.
  assert (INNER : forall ro ri di l off r, (forall k, In k l -> (k < nrBodies mb)%nat) ->
    (t <- for_each l (fun j t => jj <- get (mb_joints mb) j ;; pj <- get (mb_posDof mb) j ;;
                      B <- get_block jac ro (fst t) di (jdof jj) ;;
                      M <- add_block (snd t) ri pj di (jdof jj) B ;;
                      Ok ((fst t + jdof jj)%nat, M)) (off, r) ;; Ok (snd t)) =
    for_each (pblocks mb l off) (fun b2 M => B <- get_block jac ro (bl_jac b2) di (bl_len b2) ;;
                    add_block M ri (bl_dof b2) di (bl_len b2) B) r).
  { intros ro ri di. induction l as [|k l IH]; intros off r0 IN; cbn [for_each pblocks]; auto.
    rewrite get_joint, get_posDof by (auto; apply IN; cbn; auto). cbn [bind fst snd bl_jac bl_len bl_dof].
    change (jdof (nth k (mb_joints mb) jd)) with (dofi mb k).
    destruct (get_block jac ro off di (dofi mb k)); cbn [bind]; auto.
    destruct (add_block r0 ri (pos mb k) di (dofi mb k) a); cbn [bind]; auto.
    apply IH. intros; apply IN; cbn; auto. }
  set (bs := pblocks mb (jc_path J) 0).
  assert (GEN : forall l off r, (forall k, In k l -> (k < nrBodies mb)%nat) ->
    (s <- for_each l (fun i s =>
            ji <- get (mb_joints mb) i ;; pi <- get (mb_posDof mb) i ;;
            t <- for_each (jc_path J)
                   (fun j t =>
                      jj <- get (mb_joints mb) j ;; pj <- get (mb_posDof mb) j ;;
                      B <- get_block jac (fst s) (fst t) (jdof ji) (jdof jj) ;;
                      M <- add_block (snd t) pi pj (jdof ji) (jdof jj) B ;;
                      Ok ((fst t + jdof jj)%nat, M)) (0%nat, snd s) ;;
            Ok ((fst s + jdof ji)%nat, snd t)) (off, r) ;; Ok (snd s)) =
    for_each (pblocks mb l off) (fun b1 M => for_each bs
       (fun b2 M => B <- get_block jac (bl_jac b1) (bl_jac b2) (bl_len b1) (bl_len b2) ;;
                    add_block M (bl_dof b1) (bl_dof b2) (bl_len b1) (bl_len b2) B) M) r).
  { induction l as [|k l IH]; intros off r0 IN; cbn [for_each pblocks]; auto.
    rewrite get_joint, get_posDof by (auto; apply IN; cbn; auto). cbn [bind fst snd bl_jac bl_len bl_dof].
    change (jdof (nth k (mb_joints mb) jd)) with (dofi mb k).
    unfold bs at 1. rewrite <- INNER by auto.
    match goal with |- context [for_each (jc_path J) ?f (0%nat, r0)] => destruct (for_each (jc_path J) f (0%nat, r0)) end; cbn [bind]; auto.
    apply IH. intros; apply IN; cbn; auto. }
  apply GEN. auto.
Qed.

(** Contribution of the blocks at coordinate c. *)
Fixpoint ctr (bs : list Block) (g : nat -> R) (c : nat) : R :=
  match bs with
  | [] => 0
  | b :: bs => (if ((bl_dof b <=? c) && (c <? bl_dof b + bl_len b))%nat then g (bl_jac b + (c - bl_dof b))%nat else 0) + ctr bs g c
  end.
Definition fits (bs : list Block) (nj nd : nat) : Prop :=
  forall b, In b bs -> (bl_jac b + bl_len b <= nj /\ bl_dof b + bl_len b <= nd)%nat.

Lemma ctr_app bs bs' g c : ctr (bs ++ bs') g c = ctr bs g c + ctr bs' g c.
Proof. induction bs; cbn [ctr app]; [ring|]. rewrite IHbs. ring. Qed.
Lemma fits_app bs bs' nj nd : fits (bs ++ bs') nj nd <-> fits bs nj nd /\ fits bs' nj nd.
Proof.
  unfold fits. split.
  - intro H. split; intros b B; apply H, in_or_app; auto.
  - intros (H & H') b B. apply in_app_or in B. destruct B; auto.
Qed.
Lemma pblocks_app mb l l' off : pblocks mb (l ++ l') off = pblocks mb l off ++ pblocks mb l' (off + path_dof mb l).
Proof.
  revert off. induction l as [|k l IH]; intro off; cbn [app pblocks].
  - change (path_dof mb []) with 0%nat. now rewrite Nat.add_0_r.
  - rewrite IH. change (path_dof mb (k :: l)) with (dofi mb k + path_dof mb l)%nat. now rewrite Nat.add_assoc.
Qed.
Lemma pblocks_fits mb l off : wf_mb mb -> (forall k, In k l -> (k < nrBodies mb)%nat) ->
  fits (pblocks mb l off) (off + path_dof mb l) (mb_nrDof mb).
Proof.
  intro W. revert off. induction l as [|k l IH]; intros off IN b B; cbn [pblocks In] in *; [tauto|].
  assert (PD : path_dof mb (k :: l) = (dofi mb k + path_dof mb l)%nat) by reflexivity.
  destruct B as [<-|B]; cbn [bl_jac bl_len bl_dof].
  - pose proof (pos_le mb k W ltac:(auto)). lia.
  - apply (IH (off + dofi mb k)%nat) in B; auto. lia.
Qed.

Definition sameM (A B : Mat) : Prop :=
  mrows A = mrows B /\ mcols A = mcols B /\ forall r c, ment A r c = ment B r c.

Lemma addC_ok bs jac : forall r, fits bs (mcols jac) (mcols r) -> (mrows jac <= mrows r)%nat ->
  exists M, addFullJacobian_compact bs jac r = Ok M /\ mrows M = mrows r /\ mcols M = mcols r /\
    forall x c, ment M x c = if (x <? mrows jac)%nat then ment r x c + ctr bs (ment jac x) c else ment r x c.
Proof.
  unfold addFullJacobian_compact. induction bs as [|b bs IH]; intros r F L; cbn [for_each].
  - exists r. do 3 (split; [auto|]). intros x c. cbn [ctr]. rewrite Rplus_0_r. now destruct (x <? mrows jac)%nat.
  - destruct (F b (or_introl eq_refl)) as (F1 & F2).
    unfold get_block at 1. rewrite (proj2 (andb_true_iff _ _)) by (split; apply Nat.leb_le; lia). cbn [bind].
    unfold add_block at 1. rewrite (proj2 (andb_true_iff _ _)) by (split; apply Nat.leb_le; lia). cbn [bind].
    match goal with |- exists M, for_each bs _ ?r1 = _ /\ _ => set (r1' := r1) end.
    destruct (IH r1') as (M & E & A & B & C).
    + intros b' B'. cbn [mcols r1']. apply F. cbn; auto.
    + cbn [mrows r1']. auto.
    + exists M. rewrite E. split; [reflexivity|]. split; [exact A|]. split; [exact B|].
      intros x c. rewrite C. unfold r1'. cbn [ment ctr]. unfold in_block. cbn [Nat.leb].
      destruct (x <? 0 + mrows jac)%nat eqn:X; cbn [plus] in X; rewrite X; cbn [andb].
      * destruct ((bl_dof b <=? c)%nat) eqn:B1; cbn [andb]; [|ring].
        destruct ((c <? bl_dof b + bl_len b)%nat) eqn:B2; cbn [andb]; [|ring].
        rewrite Nat.sub_0_r. cbn [plus]. ring.
      * reflexivity.
Qed.

Lemma expC_inner b1 bs jac : forall r, fits bs (mcols jac) (mcols r) ->
  (bl_jac b1 + bl_len b1 <= mrows jac)%nat -> (bl_dof b1 + bl_len b1 <= mrows r)%nat ->
  exists M, for_each bs (fun b2 M => B <- get_block jac (bl_jac b1) (bl_jac b2) (bl_len b1) (bl_len b2) ;;
                    add_block M (bl_dof b1) (bl_dof b2) (bl_len b1) (bl_len b2) B) r = Ok M /\
    mrows M = mrows r /\ mcols M = mcols r /\
    forall x c, ment M x c = ment r x c +
      (if ((bl_dof b1 <=? x) && (x <? bl_dof b1 + bl_len b1))%nat then ctr bs (ment jac (bl_jac b1 + (x - bl_dof b1))%nat) c else 0).
Proof.
  induction bs as [|b bs IH]; intros r F L1 L2; cbn [for_each].
  - exists r. do 3 (split; [auto|]). intros x c. cbn [ctr]. destruct ((bl_dof b1 <=? x) && (x <? bl_dof b1 + bl_len b1))%nat; ring.
  - destruct (F b (or_introl eq_refl)) as (F1 & F2).
    unfold get_block at 1. rewrite (proj2 (andb_true_iff _ _)) by (split; apply Nat.leb_le; lia). cbn [bind].
    unfold add_block at 1. rewrite (proj2 (andb_true_iff _ _)) by (split; apply Nat.leb_le; lia). cbn [bind].
    match goal with |- exists M, for_each bs _ ?r1 = _ /\ _ => set (r1' := r1) end.
    destruct (IH r1') as (M & E & A & B & C); auto.
    + intros b' B'. cbn [mcols r1']. apply F. cbn; auto.
    + exists M. rewrite E. split; [reflexivity|]. split; [exact A|]. split; [exact B|].
      intros x c. rewrite C. unfold r1'. cbn [ment ctr]. unfold in_block.
      destruct ((bl_dof b1 <=? x)%nat); cbn [andb]; [|ring].
      destruct ((x <? bl_dof b1 + bl_len b1)%nat); cbn [andb]; [|ring].
      destruct ((bl_dof b <=? c)%nat); cbn [andb]; [|ring].
      destruct ((c <? bl_dof b + bl_len b)%nat); cbn [andb]; ring.
Qed.
Lemma expC_ok bs bs' jac : forall r, fits bs (mrows jac) (mrows r) -> fits bs' (mcols jac) (mcols r) ->
  exists M, for_each bs
    (fun b1 M => for_each bs'
       (fun b2 M => B <- get_block jac (bl_jac b1) (bl_jac b2) (bl_len b1) (bl_len b2) ;;
                    add_block M (bl_dof b1) (bl_dof b2) (bl_len b1) (bl_len b2) B) M) r = Ok M /\
    mrows M = mrows r /\ mcols M = mcols r /\
    forall x c, ment M x c = ment r x c + ctr bs (fun jr => ctr bs' (ment jac jr) c) x.
Proof.
  induction bs as [|b bs IH]; intros r F F'; cbn [for_each].
  - exists r. do 3 (split; [auto|]). intros x c. cbn [ctr]. ring.
  - destruct (F b (or_introl eq_refl)) as (F1 & F2).
    destruct (expC_inner b bs' jac r F' F1 F2) as (M1 & E1 & A1 & B1 & C1). rewrite E1. cbn [bind].
    destruct (IH M1) as (M & E & A & B & C).
    + intros b' B'. rewrite A1. apply F. cbn; auto.
    + rewrite B1. auto.
    + exists M. rewrite E. split; [reflexivity|]. split; [congruence|]. split; [congruence|].
      intros x c. rewrite C, C1. cbn [ctr]. ring.
Qed.

(** ** compactPath *)
Lemma ctr_merge a j l l' g c :
  ctr [mkBlock a j (l + l')] g c = ctr [mkBlock a j l; mkBlock (a + l) (j + l) l'] g c.
Proof.
  cbn [ctr bl_dof bl_jac bl_len].
  destruct (Nat.leb_spec a c), (Nat.ltb_spec c (a + (l + l'))), (Nat.ltb_spec c (a + l)), (Nat.leb_spec (a + l) c),
    (Nat.ltb_spec c (a + l + l')); cbn [andb]; try lia; try ring.
  rewrite Rplus_0_l. do 2 f_equal. lia.
Qed.
Lemma compactPath_ok mb J k0 l : wf_mb mb -> jc_path J = k0 :: l -> (forall k, In k (jc_path J) -> (k < nrBodies mb)%nat) ->
  exists bs, compactPath mb J = Ok bs /\ fits bs (path_dof mb (jc_path J)) (mb_nrDof mb) /\
    forall g c, ctr bs g c = ctr (pblocks mb (jc_path J) 0) g c.
Proof.
  intros W EP IN. unfold compactPath. rewrite EP in *. clear EP J.
  unfold get at 1. cbn [nth_error bind tl].
  assert (H0 : (k0 < nrBodies mb)%nat) by (apply IN; cbn; auto).
  rewrite get_posDof, get_joint by auto. cbn [bind]. change (jdof (nth k0 (mb_joints mb) jd)) with (dofi mb k0).
  match goal with |- exists bs, bind (for_each l ?f _) _ = _ /\ _ => set (body := f) end.
  assert (STEP : forall l pre bl sb sj lb, (forall k, In k (pre ++ l) -> (k < nrBodies mb)%nat) ->
    fits (bl ++ [mkBlock sb sj lb]) (path_dof mb pre) (mb_nrDof mb) ->
    (sj + lb = path_dof mb pre)%nat ->
    (forall g c, ctr (bl ++ [mkBlock sb sj lb]) g c = ctr (pblocks mb pre 0) g c) ->
    exists bl' sb' sj' lb', for_each l body (bl, sb, sj, lb) = Ok (bl', sb', sj', lb') /\
      fits (bl' ++ [mkBlock sb' sj' lb']) (path_dof mb (pre ++ l)) (mb_nrDof mb) /\
      (forall g c, ctr (bl' ++ [mkBlock sb' sj' lb']) g c = ctr (pblocks mb (pre ++ l) 0) g c)).
  { clear -W. intro l0. induction l0 as [|k l0 IH]; intros pre bl sb sj lb IN F Q C; cbn [for_each].
    - rewrite app_nil_r. exists bl, sb, sj, lb. split; [reflexivity|]. split; [exact F|exact C].
    - assert (Hk : (k < nrBodies mb)%nat) by (apply IN, in_or_app; cbn; auto).
      assert (EQ : forall g c, ctr (pblocks mb (pre ++ [k]) 0) g c =
         ctr bl g c + ctr [mkBlock sb sj lb] g c + ctr [mkBlock (pos mb k) (sj + lb) (dofi mb k)] g c).
      { intros. rewrite pblocks_app, ctr_app, <- C, ctr_app. cbn [pblocks plus]. now rewrite Q. }
      assert (PD : path_dof mb (pre ++ [k]) = (path_dof mb pre + dofi mb k)%nat).
      { rewrite path_dof_app. unfold path_dof at 2, dofi. cbn. lia. }
      pose proof (pos_le mb k W Hk) as PL.
      unfold body at 1. rewrite get_posDof, get_joint by auto. cbn [bind]. change (jdof (nth k (mb_joints mb) jd)) with (dofi mb k).
      replace (pre ++ k :: l0) with ((pre ++ [k]) ++ l0) in * by (now rewrite <- app_assoc).
      apply fits_app in F. destruct F as (F1 & F2).
      pose proof (F2 _ (or_introl eq_refl)) as (F3 & F4). cbn [bl_jac bl_dof bl_len] in F3, F4.
      assert (G1 : fits bl (path_dof mb (pre ++ [k])) (mb_nrDof mb)).
      { intros b B. apply F1 in B. lia. }
      destruct (Nat.eqb_spec (pos mb k) (sb + lb)) as [E|NE]; cbn [negb bind].
      + apply IH; auto.
        * apply fits_app. split; [exact G1|]. intros b [<-|[]]. cbn [bl_jac bl_dof bl_len]. lia.
        * lia.
        * intros g c. rewrite EQ, ctr_app, ctr_merge. change [mkBlock sb sj lb; mkBlock (sb + lb) (sj + lb) (dofi mb k)] with ([mkBlock sb sj lb] ++ [mkBlock (sb + lb) (sj + lb) (dofi mb k)]). rewrite (ctr_app [_] [_]), E. ring.
      + apply IH; auto.
        * apply fits_app. split; [apply fits_app; split; [exact G1|]|]; intros b [<-|[]]; cbn [bl_jac bl_dof bl_len]; lia.
        * lia.
        * intros g c. now rewrite EQ, !ctr_app. }
  destruct (STEP l [k0] [] (pos mb k0) 0%nat (dofi mb k0)) as (bl & sb & sj & lb & E & F & C).
  - exact IN.
  - intros b [<-|[]]. cbn [bl_jac bl_dof bl_len]. pose proof (pos_le mb k0 W H0).
    assert (path_dof mb [k0] = dofi mb k0) by (unfold path_dof, dofi; cbn; lia). lia.
  - unfold path_dof, dofi; cbn; lia.
  - reflexivity.
  - rewrite E. cbn [bind]. eexists. split; [reflexivity|]. split; [exact F|exact C].
Qed.

(** ** Reading the contributions *)
Lemma ctr_absent mb l off g k d : wf_mb mb -> (forall k, In k l -> (k < nrBodies mb)%nat) -> (k < nrBodies mb)%nat ->
  ~ In k l -> (d < dofi mb k)%nat -> ctr (pblocks mb l off) g (pos mb k + d) = 0.
Proof.
  intros W. revert off. induction l as [|k' l IH]; intros off IN Hk N Hd; cbn [pblocks ctr]; auto.
  rewrite IH; cbn [In] in *; auto. cbn [bl_dof bl_jac bl_len].
  destruct (Nat.leb_spec (pos mb k') (pos mb k + d)), (Nat.ltb_spec (pos mb k + d) (pos mb k' + dofi mb k')); cbn [andb]; try ring.
  exfalso. destruct (pos_inj mb k k' d (pos mb k + d - pos mb k') W) as (E & _); auto; try lia.
Qed.
Lemma ctr_present mb l1 k l2 off g d : wf_mb mb -> (forall k', In k' (l1 ++ k :: l2) -> (k' < nrBodies mb)%nat) ->
  NoDup (l1 ++ k :: l2) -> (d < dofi mb k)%nat ->
  ctr (pblocks mb (l1 ++ k :: l2) off) g (pos mb k + d) = g (off + path_dof mb l1 + d)%nat.
Proof.
  intros W IN ND Hd. pose proof (NoDup_remove_2 _ _ _ ND) as N.
  assert (Hk : (k < nrBodies mb)%nat) by (apply IN, in_or_app; cbn; auto).
  rewrite pblocks_app, ctr_app. rewrite ctr_absent; auto.
  - cbn [pblocks ctr]. rewrite ctr_absent; auto.
    + cbn [bl_dof bl_jac bl_len]. rewrite (proj2 (andb_true_iff _ _)) by (split; [apply Nat.leb_le|apply Nat.ltb_lt]; lia).
      replace (pos mb k + d - pos mb k)%nat with d by lia. ring.
    + intros; apply IN, in_or_app; cbn; auto.
    + intro; apply N, in_or_app; auto.
  - intros; apply IN, in_or_app; auto.
  - intro; apply N, in_or_app; auto.
Qed.

Fixpoint bsum (bs : list Block) (g x : nat -> R) : R :=
  match bs with
  | [] => 0
  | b :: bs => rsum (bl_len b) (fun d => g (bl_jac b + d)%nat * x (bl_dof b + d)%nat) + bsum bs g x
  end.
Lemma rsum_window n a l f : (a + l <= n)%nat ->
  rsum n (fun c => if ((a <=? c) && (c <? a + l))%nat then f c else 0) = rsum l (fun d => f (a + d)%nat).
Proof.
  intro H. replace n with (a + (l + (n - a - l)))%nat by lia. rewrite rsum_app, rsum_app.
  rewrite (rsum_eq0 a).
  2:{ intros i Hi. destruct (Nat.leb_spec a i); [lia|auto]. }
  rewrite (rsum_eq0 (n - a - l)).
  2:{ intros i Hi. destruct (Nat.ltb_spec (a + (l + i)) (a + l)); [lia|]. now rewrite andb_false_r. }
  rewrite Rplus_0_l, Rplus_0_r. apply rsum_ext. intros i Hi.
  rewrite (proj2 (andb_true_iff _ _)) by (split; [apply Nat.leb_le|apply Nat.ltb_lt]; lia). reflexivity.
Qed.
Lemma ctr_times bs nj nd g x : fits bs nj nd -> rsum nd (fun c => ctr bs g c * x c) = bsum bs g x.
Proof.
  induction bs as [|b bs IH]; intro F; cbn [ctr bsum].
  - apply rsum_eq0. intros. ring.
  - rewrite <- IH by (intros b' B'; apply F; cbn; auto).
    rewrite (rsum_ext nd _ (fun c => (if ((bl_dof b <=? c) && (c <? bl_dof b + bl_len b))%nat
        then g (bl_jac b + (c - bl_dof b))%nat * x c else 0) + ctr bs g c * x c)).
    2:{ intros. destruct ((bl_dof b <=? i) && (i <? bl_dof b + bl_len b))%nat; ring. }
    rewrite rsum_plus. f_equal. destruct (F b (or_introl eq_refl)).
    rewrite (rsum_window nd (bl_dof b) (bl_len b) (fun c => g (bl_jac b + (c - bl_dof b))%nat * x c)) by auto.
    apply rsum_ext. intros i Hi. do 3 f_equal. lia.
Qed.
Lemma bsum_path mb l off g a : wf_mb mb -> (forall k, In k l -> (k < nrBodies mb)%nat) -> sized mb jdof a ->
  bsum (pblocks mb l off) g (fun c => nth c (concat a) 0) =
  rsum (path_dof mb l) (fun e => g (off + e)%nat * nth e (on_path l a) 0).
Proof.
  intros W. revert off. induction l as [|k l IH]; intros off IN SA; cbn [pblocks bsum]; auto.
  assert (Hk : (k < nrBodies mb)%nat) by (apply IN; cbn; auto).
  rewrite IH by (auto; intros; apply IN; cbn; auto).
  replace (path_dof mb (k :: l)) with (dofi mb k + path_dof mb l)%nat by reflexivity.
  assert (LK : length (nth k a []) = dofi mb k) by (apply (sized_nth _ _ _ _ SA); now rewrite (wf_nrJoints _ W)).
  rewrite rsum_app. cbn [bl_len bl_jac bl_dof]. f_equal; apply rsum_ext; intros d Hd.
  - rewrite (concat_tile mb a k d 0 SA) by (auto; rewrite (wf_nrJoints _ W); auto). f_equal.
    unfold on_path. cbn [map concat]. now rewrite app_nth1 by lia.
  - f_equal; [f_equal; lia|]. unfold on_path. cbn [map concat]. rewrite app_nth2 by lia. f_equal. lia.
Qed.

(** ** Final statements *)
Section Path.
Variables (mb : MultiBody) (i : nat) (p : V3) (J : Jac).
Hypothesis W : wf_mb mb.
Hypothesis H : jacobian_of mb i p J.
Let RP := jo_path _ _ _ _ H.
Let IN : forall k, In k (jc_path J) -> (k < nrBodies mb)%nat := root_path_in _ _ _ W RP.
Let ND : NoDup (jc_path J) := root_path_increasing _ _ _ W RP.

Lemma pfits : fits (pblocks mb (jc_path J) 0) (path_dof mb (jc_path J)) (mb_nrDof mb).
Proof. apply pblocks_fits; auto. Qed.

Lemma compact_ex : exists bs, compactPath mb J = Ok bs /\ fits bs (path_dof mb (jc_path J)) (mb_nrDof mb) /\
    forall g c, ctr bs g c = ctr (pblocks mb (jc_path J) 0) g c.
Proof.
  assert (EP : exists k0 l, jc_path J = k0 :: l).
  { pose proof (root_path_back _ _ _ RP) as B. clear -B. destruct (jc_path J) as [|k0 l]; [discriminate B|eauto]. }
  destruct EP as (k0 & l & EP). eapply compactPath_ok; eauto.
Qed.

Lemma addFull_ok jac r : mcols jac = path_dof mb (jc_path J) -> (mrows jac <= mrows r)%nat -> mcols r = mb_nrDof mb ->
  exists M, addFullJacobian mb J jac r = Ok M /\ mrows M = mrows r /\ mcols M = mb_nrDof mb /\
   (forall x l1 k l2 d, (x < mrows jac)%nat -> jc_path J = l1 ++ k :: l2 -> (d < dofi mb k)%nat ->
      ment M x (pos mb k + d) = ment r x (pos mb k + d) + ment jac x (path_dof mb l1 + d)) /\
   (forall x k d, (k < nrBodies mb)%nat -> ~ In k (jc_path J) -> (d < dofi mb k)%nat ->
      ment M x (pos mb k + d) = ment r x (pos mb k + d)) /\
   (forall x a, (x < mrows jac)%nat -> sized mb jdof a ->
      mat_vec M (concat a) x = mat_vec r (concat a) x + mat_vec jac (on_path (jc_path J) a) x) /\
   exists bs M', compactPath mb J = Ok bs /\ addFullJacobian_compact bs jac r = Ok M' /\ sameM M M'.
Proof.
  intros Cj Rr Cr.
  assert (F : fits (pblocks mb (jc_path J) 0) (mcols jac) (mcols r)) by (rewrite Cj, Cr; apply pfits).
  destruct (addC_ok (pblocks mb (jc_path J) 0) jac r F Rr) as (M & E & A & B & C).
  exists M. rewrite addFull_blocks by auto. split; [exact E|]. split; [exact A|]. split; [congruence|].
  split; [|split; [|split]].
  - intros x l1 k l2 d Hx EP Hd. rewrite C, (proj2 (Nat.ltb_lt _ _) Hx). f_equal.
    rewrite EP in *. now rewrite (ctr_present mb l1 k l2 0 (ment jac x) d W).
  - intros x k d Hk N Hd. rewrite C, ctr_absent by auto. destruct (x <? mrows jac)%nat; [ring|auto].
  - intros x a Hx SA. unfold mat_vec. rewrite B, Cj.
    rewrite (rsum_ext (mcols r) _ (fun c => ment r x c * nth c (concat a) 0 + ctr (pblocks mb (jc_path J) 0) (ment jac x) c * nth c (concat a) 0)).
    2:{ intros c Hc. rewrite C, (proj2 (Nat.ltb_lt _ _) Hx). ring. }
    rewrite rsum_plus. f_equal. rewrite (ctr_times _ (mcols jac) (mcols r)) by auto. now rewrite bsum_path.
  - destruct compact_ex as (bs & E1 & F1 & C1).
    destruct (addC_ok bs jac r) as (M' & E' & A' & B' & C').
    + rewrite Cj, Cr. exact F1.
    + exact Rr.
    + exists bs, M'. split; [exact E1|]. split; [exact E'|]. split; [congruence|]. split; [congruence|].
      intros x c. rewrite C, C', C1. reflexivity.
Qed.

Lemma full_ok jac r : mcols jac = path_dof mb (jc_path J) -> (mrows jac <= mrows r)%nat -> mcols r = mb_nrDof mb ->
  exists M, fullJacobian mb J jac r = Ok M /\ mrows M = mrows r /\ mcols M = mb_nrDof mb /\
   (forall x l1 k l2 d, (x < mrows jac)%nat -> jc_path J = l1 ++ k :: l2 -> (d < dofi mb k)%nat ->
      ment M x (pos mb k + d) = ment jac x (path_dof mb l1 + d)) /\
   (forall x k d, (x < mrows jac)%nat -> (k < nrBodies mb)%nat -> ~ In k (jc_path J) -> (d < dofi mb k)%nat ->
      ment M x (pos mb k + d) = 0) /\
   (forall x a, (x < mrows jac)%nat -> sized mb jdof a ->
      mat_vec M (concat a) x = mat_vec jac (on_path (jc_path J) a) x).
Proof.
  intros Cj Rr Cr. unfold fullJacobian, set_block.
  rewrite (proj2 (andb_true_iff _ _)) by (split; apply Nat.leb_le; lia). cbn [bind].
  match goal with |- exists M, addFullJacobian mb J jac ?z = _ /\ _ => set (r0 := z) end.
  assert (Z : forall x c, (x < mrows jac)%nat -> (c < mb_nrDof mb)%nat -> ment r0 x c = 0).
  { intros x c Hx Hc. unfold r0, in_block. cbn [ment Nat.leb andb plus].
    rewrite (proj2 (Nat.ltb_lt _ _) Hx), (proj2 (Nat.ltb_lt _ _) Hc). reflexivity. }
  destruct (addFull_ok jac r0 Cj Rr Cr) as (M & E & A & B & C1 & C2 & C3 & _).
  exists M. split; [exact E|]. split; [exact A|]. split; [exact B|]. split; [|split].
  - intros x l1 k l2 d Hx EP Hd. rewrite (C1 x l1 k l2 d Hx EP Hd), Z; auto; [ring|].
    assert (Hk : (k < nrBodies mb)%nat) by (apply IN; rewrite EP; apply in_or_app; cbn; auto).
    pose proof (pos_le mb k W Hk). lia.
  - intros x k d Hx Hk N Hd. rewrite C2, Z; auto. pose proof (pos_le mb k W Hk). lia.
  - intros x a Hx SA. rewrite C3 by auto. unfold mat_vec at 1. rewrite rsum_eq0; [ring|].
    intros c Hc. rewrite Z; auto; [ring|]. unfold r0 in Hc. cbn [mcols] in Hc. congruence.
Qed.

Lemma expandAdd_ok jac r : mrows jac = path_dof mb (jc_path J) -> mcols jac = path_dof mb (jc_path J) ->
  mrows r = mb_nrDof mb -> mcols r = mb_nrDof mb ->
  exists M, expandAdd mb J jac r = Ok M /\ mrows M = mb_nrDof mb /\ mcols M = mb_nrDof mb /\
   (forall x y, sized mb jdof x -> sized mb jdof y ->
      quad (mb_nrDof mb) (ment M) (flat y) (flat x) =
      quad (mb_nrDof mb) (ment r) (flat y) (flat x) +
      quad (path_dof mb (jc_path J)) (ment jac) (fun e => nth e (on_path (jc_path J) y) 0) (fun e => nth e (on_path (jc_path J) x) 0)) /\
   exists bs M', compactPath mb J = Ok bs /\ expandAdd_compact bs jac r = Ok M' /\ sameM M M'.
Proof.
  intros Rj Cj Rr Cr.
  assert (F1 : fits (pblocks mb (jc_path J) 0) (mrows jac) (mrows r)) by (rewrite Rj, Rr; apply pfits).
  assert (F2 : fits (pblocks mb (jc_path J) 0) (mcols jac) (mcols r)) by (rewrite Cj, Cr; apply pfits).
  destruct (expC_ok (pblocks mb (jc_path J) 0) (pblocks mb (jc_path J) 0) jac r F1 F2) as (M & E & A & B & C).
  exists M. rewrite expandAdd_blocks by auto. split; [exact E|]. split; [congruence|]. split; [congruence|]. split.
  - intros x y SX SY. unfold quad, flat.
    transitivity (rsum (mb_nrDof mb) (fun r0 => nth r0 (concat x) 0 * rsum (mb_nrDof mb) (fun c => ment r r0 c * nth c (concat y) 0) +
       ctr (pblocks mb (jc_path J) 0) (fun jr => rsum (path_dof mb (jc_path J)) (fun e => ment jac jr e * nth e (on_path (jc_path J) y) 0)) r0 * nth r0 (concat x) 0)).
    + apply rsum_ext. intros r0 Hr0.
      rewrite (rsum_ext _ (fun c => ment M r0 c * nth c (concat y) 0) (fun c => ment r r0 c * nth c (concat y) 0 +
         ctr (pblocks mb (jc_path J) 0) (fun jr => ctr (pblocks mb (jc_path J) 0) (ment jac jr) c) r0 * nth c (concat y) 0)).
      2:{ intros c Hc. rewrite C. ring. }
      rewrite rsum_plus, Rmult_plus_distr_l. f_equal. rewrite Rmult_comm. f_equal.
      assert (SW : forall bs, rsum (mb_nrDof mb) (fun c => ctr bs (fun jr => ctr (pblocks mb (jc_path J) 0) (ment jac jr) c) r0 * nth c (concat y) 0) =
         ctr bs (fun jr => rsum (path_dof mb (jc_path J)) (fun e => ment jac jr e * nth e (on_path (jc_path J) y) 0)) r0).
      { induction bs as [|b bs IH]; cbn [ctr].
        - apply rsum_eq0. intros. ring.
        - rewrite <- IH. destruct ((bl_dof b <=? r0) && (r0 <? bl_dof b + bl_len b))%nat.
          + rewrite (rsum_ext _ _ _ (fun c Hc => Rmult_plus_distr_r _ _ _)). rewrite rsum_plus. f_equal.
            rewrite (ctr_times _ (path_dof mb (jc_path J)) (mb_nrDof mb)) by apply pfits. now rewrite bsum_path.
          + rewrite Rplus_0_l. apply rsum_ext. intros. ring. }
      apply SW.
    + rewrite rsum_plus. f_equal. rewrite (ctr_times _ (path_dof mb (jc_path J)) (mb_nrDof mb)) by apply pfits.
      rewrite bsum_path by auto. apply rsum_ext. intros. cbn [plus]. ring.
  - destruct compact_ex as (bs & E1 & G1 & C1).
    destruct (expC_ok bs bs jac r) as (M' & E' & A' & B' & C').
    + rewrite Rj, Rr. exact G1.
    + rewrite Cj, Cr. exact G1.
    + exists bs, M'. split; [exact E1|]. split; [exact E'|]. split; [congruence|]. split; [congruence|].
      intros x c. rewrite C, C'. f_equal. rewrite C1.
      assert (SW : forall bb, ctr bb (fun jr => ctr (pblocks mb (jc_path J) 0) (ment jac jr) c) x = ctr bb (fun jr => ctr bs (ment jac jr) c) x).
      { induction bb as [|b bb IH]; cbn [ctr]; auto. rewrite IH, C1. reflexivity. }
      apply SW.
Qed.
Lemma expand_ok jac : mrows jac = path_dof mb (jc_path J) -> mcols jac = path_dof mb (jc_path J) ->
  exists M, expand mb J jac = Ok M /\ mrows M = mb_nrDof mb /\ mcols M = mb_nrDof mb /\
   (forall x y, sized mb jdof x -> sized mb jdof y ->
      quad (mb_nrDof mb) (ment M) (flat y) (flat x) =
      quad (path_dof mb (jc_path J)) (ment jac) (fun e => nth e (on_path (jc_path J) y) 0) (fun e => nth e (on_path (jc_path J) x) 0)).
Proof.
  intros Rj Cj. destruct (expandAdd_ok jac (mat_zero (mb_nrDof mb) (mb_nrDof mb)) Rj Cj eq_refl eq_refl) as (M & E & A & B & C & _).
  exists M. split; [exact E|]. split; [exact A|]. split; [exact B|]. intros x y SX SY. rewrite C by auto.
  unfold quad at 1. rewrite rsum_eq0; [ring|]. intros. cbn [mat_zero ment]. rewrite rsum_eq0; [ring|]. intros. ring.
Qed.
End Path.
