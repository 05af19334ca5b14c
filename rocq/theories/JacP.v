(** Loops of the Jacobian model. *)
From Coq Require Import Reals String ZArith Bool Arith List Lia Lra.
From Verif Require Import Res ResP SMap Vec VecP Sva SvaP Mat JointM MultiBodyM KinM DynM JacM Spec SpecDyn SpecJac
  JointP KinP KinPathP MbP TreeP DynP DynCP ConvP KinFinP SpecDeriv DerivP DerivTreeP.
Import ListNotations.
Open Scope R_scope.

Definition splice {A} (l : list A) (p : nat) (v : list A) : list A := firstn p l ++ v ++ skipn (p + length v) l.

Lemma splice_length {A} (l : list A) p v : (p + length v <= length l)%nat -> length (splice l p v) = length l.
Proof. intro H. unfold splice. rewrite !app_length, firstn_length, skipn_length. lia. Qed.
Lemma upd_skip {A} (l : list A) p a : (p < length l)%nat -> upd l p a = firstn p l ++ a :: skipn (S p) l.
Proof.
  revert p. induction l as [|x l IH]; intros p H; [cbn in H; lia|].
  destruct p; [reflexivity|]. cbn in H |- *. f_equal. apply IH. lia.
Qed.
Lemma splice_snoc {A} (l : list A) p v a : (p + length v < length l)%nat ->
  upd (splice l p v) (p + length v) a = splice l p (v ++ [a]).
Proof.
  intro H. rewrite upd_skip by (rewrite splice_length; lia). unfold splice.
  assert (E : (p + length v)%nat = length (firstn p l ++ v)) by (rewrite app_length, firstn_length; lia).
  rewrite !app_assoc, app_length. cbn [length].
  rewrite E at 1. rewrite firstn_app, firstn_all, Nat.sub_diag, firstn_O, app_nil_r.
  rewrite skipn_app, skipn_all2 by (rewrite app_length, firstn_length; lia). cbn [app].
  rewrite skipn_skipn. rewrite <- !app_assoc. cbn [app]. do 3 f_equal. f_equal. rewrite app_length, firstn_length. lia.
Qed.
Lemma splice_nil {A} (l : list A) p : splice l p [] = l.
Proof. unfold splice. cbn. rewrite Nat.add_0_r. apply firstn_skipn. Qed.

Lemma firstn_S_nth {A} (v : list A) i d : (i < length v)%nat -> firstn (S i) v = firstn i v ++ [nth i v d].
Proof.
  revert i. induction v; intros i H; [cbn in H; lia|]. destruct i; [reflexivity|].
  cbn in H |- *. f_equal. apply IHv. lia.
Qed.

Lemma fill_seg {A} (body : nat -> list A -> res (list A)) (p : nat) (v l : list A) d0 :
  (p + length v <= length l)%nat ->
  (forall d l', (d < length v)%nat -> length l' = length l -> body d l' = set l' (p + d) (nth d v d0)) ->
  for_up (length v) body l = Ok (splice l p v).
Proof.
  intros H B.
  destruct (for_up_inv (fun i s => s = splice l p (firstn i v)) body (length v) l) as (s & E & P).
  - cbn [firstn]. now rewrite splice_nil.
  - intros i s Hi ->.
    assert (Lf : length (firstn i v) = i) by (rewrite firstn_length; lia).
    rewrite B; [|auto|rewrite splice_length; lia].
    rewrite set_ok by (rewrite splice_length; lia). eexists. split; [reflexivity|].
    rewrite (firstn_S_nth v i d0) by auto. rewrite <- splice_snoc by lia. now rewrite Lf.
  - rewrite E, P, firstn_all. reflexivity.
Qed.

Lemma fill_path {A} (body : nat -> nat * list A -> res (nat * list A)) (n : nat) (cols : nat -> list A) (l : list A) :
  length (concat (map cols (seq 0 n))) = length l ->
  (forall idx cur l', (idx < n)%nat -> length l' = length l -> (cur + length (cols idx) <= length l')%nat ->
      body idx (cur, l') = Ok ((cur + length (cols idx))%nat, splice l' cur (cols idx))) ->
  for_up n body (0%nat, l) = Ok (length l, concat (map cols (seq 0 n))).
Proof.
  intros H B.
  set (C k := concat (map cols (seq 0 k))).
  assert (CS : forall k, C (S k) = C k ++ cols k).
  { intro k. unfold C. rewrite seq_S, map_app, concat_app. cbn. now rewrite app_nil_r. }
  assert (CL : forall k, (k <= n)%nat -> (length (C k) <= length l)%nat).
  { intros k Hk. rewrite <- H. fold (C n). clear -Hk CS. induction Hk; [lia|]. rewrite CS, app_length. lia. }
  destruct (for_up_inv (fun i s => s = (length (C i), splice l 0 (C i))) body n (0%nat, l)) as (s & E & P).
  - unfold C. cbn [seq map concat length]. now rewrite splice_nil.
  - intros i s Hi ->. pose proof (CL (S i) Hi) as L. rewrite CS, app_length in L.
    assert (L' : length (splice l 0 (C i)) = length l) by (apply splice_length; lia).
    rewrite B; [|auto|auto|lia]. eexists. split; [reflexivity|].
    rewrite CS, app_length. f_equal.
    unfold splice. cbn [firstn app plus].
    rewrite firstn_app, firstn_all, Nat.sub_diag, firstn_O, app_nil_r, <- app_assoc. f_equal. f_equal.
    rewrite skipn_app, skipn_all2 by lia. cbn [app]. rewrite skipn_skipn, app_length. f_equal. lia.
  - rewrite E, P. fold (C n) in H. rewrite H. unfold splice. cbn [firstn app plus].
    rewrite skipn_all2 by lia. now rewrite app_nil_r.
Qed.

Lemma map_seq_lift {A B} (f : A -> B) (l : list A) d :
  map (fun idx => f (nth idx l d)) (seq 0 (length l)) = map f l.
Proof. apply map_seq_nth. Qed.

Lemma back_last {A} (l : list A) x : back (l ++ [x]) = Ok x.
Proof. unfold back. now rewrite rev_app_distr. Qed.
Lemma root_path_last mb i l : root_path mb i l -> exists l', l = l' ++ [i].
Proof. destruct 1; [exists []|]; eauto. Qed.
Lemma root_path_back mb i l : root_path mb i l -> back l = Ok i.
Proof. intro H. destruct (root_path_last _ _ _ H) as (l' & ->). apply back_last. Qed.

(** ** Linear algebra of column lists *)
Lemma smul_app A B x y : length A = length x -> smul (A ++ B) (x ++ y) = svadd (smul A x) (smul B y).
Proof.
  revert x. induction A as [|a A IH]; intros [|k x] H; try discriminate; cbn.
  - now rewrite svadd_0_l.
  - rewrite IH by (cbn in H; lia). now rewrite svadd_assoc.
Qed.
Lemma smul_ptm X A x : smul (map (ptm X) A) x = ptm X (smul A x).
Proof.
  revert x. induction A as [|a A IH]; intros [|k x]; cbn; rewrite ?ptm_sv0; auto.
  now rewrite IH, ptm_add, ptm_scale.
Qed.
Lemma smul_lin (f : SV -> SV) A x : (forall a b, f (svadd a b) = svadd (f a) (f b)) ->
  (forall k a, f (svscale k a) = svscale k (f a)) -> smul (map f A) x = f (smul A x).
Proof.
  intros Fa Fs. assert (F0 : f sv0 = sv0) by (rewrite <- (svscale_0 sv0), Fs, !svscale_0; reflexivity).
  revert x. induction A as [|a A IH]; intros [|k x]; cbn; auto.
  now rewrite IH, Fa, Fs.
Qed.
Lemma smul_concat_gen (cols : nat -> list SV) (x : nat -> list R) l acc :
  (forall k, In k l -> length (cols k) = length (x k)) ->
  svadd acc (smul (concat (map cols l)) (concat (map x l))) =
  fold_left (fun s k => svadd s (smul (cols k) (x k))) l acc.
Proof.
  revert acc. induction l as [|k l IH]; intros acc H.
  - cbn. apply svadd_0_r.
  - cbn [map concat fold_left]. rewrite smul_app by (apply H; now left).
    rewrite svadd_assoc. apply IH. intros; apply H; now right.
Qed.
Lemma smul_concat (cols : nat -> list SV) (x : nat -> list R) l :
  (forall k, In k l -> length (cols k) = length (x k)) ->
  smul (concat (map cols l)) (concat (map x l)) = path_sum (fun k => smul (cols k) (x k)) l.
Proof. intro H. rewrite <- (svadd_0_l (smul _ _)). now apply smul_concat_gen. Qed.
Lemma concat_map_length {A} (cols : nat -> list A) (d : nat -> nat) l :
  (forall k, In k l -> length (cols k) = d k) -> length (concat (map cols l)) = list_sum (map d l).
Proof.
  induction l; intro H; cbn; auto. rewrite app_length, IHl by (intros; apply H; now right). rewrite H by now left. reflexivity.
Qed.

(** ** The loops *)
(** What the loops over a path need. *)
Record path_ok (mb : MultiBody) (m : MBC) (J : Jac) : Prop := {
  po_in : forall k, In k (jc_path J) -> (k < nrBodies mb)%nat;
  po_sign : length (jc_sign J) = length (jc_path J);
  po_jac : length (jc_jac J) = path_dof mb (jc_path J);
  po_dot : length (jc_dot J) = path_dof mb (jc_path J);
  po_pos : length (bodyPosW m) = nrBodies mb;
  po_ms : sized mb jdof (motionSubspace m)
}.
Notation posW m k := (nth k (bodyPosW m) ptid).
Notation subsp m k := (nth k (motionSubspace m) []).

Definition jcols (m : MBC) (X : PT) (J : Jac) (idx : nat) : list SV :=
  map (fun c => ptm (ptmul X (ptinv (posW m (nth idx (jc_path J) 0%nat)))) (svscale (nth idx (jc_sign J) 0) c))
      (subsp m (nth idx (jc_path J) 0%nat)).

Lemma path_dof_idx mb (m : MBC) (J : Jac) (cols : nat -> list SV) : wf_mb mb -> path_ok mb m J ->
  (forall idx, (idx < length (jc_path J))%nat -> length (cols idx) = dofi mb (nth idx (jc_path J) 0%nat)) ->
  length (concat (map cols (seq 0 (length (jc_path J))))) = path_dof mb (jc_path J).
Proof.
  intros W P H. rewrite (concat_map_length cols (fun idx => dofi mb (nth idx (jc_path J) 0%nat))).
  - unfold path_dof. f_equal. apply (map_seq_nth (fun k => jdof (nth k (mb_joints mb) jd))).
  - intros k Hk. apply H. apply in_seq in Hk. lia.
Qed.
Lemma path_get J idx : (idx < length (jc_path J))%nat -> get (jc_path J) idx = Ok (nth idx (jc_path J) 0%nat).
Proof. apply get_nth. Qed.

Lemma jacobian__ok mb m X J : wf_mb mb -> path_ok mb m J ->
  jacobian_ mb m X J = Ok (with_jac (concat (map (jcols m X J) (seq 0 (length (jc_path J))))) J).
Proof.
  intros W P. unfold jacobian_.
  pose proof (wf_nrJoints _ W) as NJ. pose proof (sized_length _ _ _ (po_ms _ _ _ P)) as Lm.
  assert (IN : forall idx, (idx < length (jc_path J))%nat -> (nth idx (jc_path J) 0%nat < nrBodies mb)%nat)
    by (intros; apply (po_in _ _ _ P), nth_In; auto).
  assert (LC : forall idx, (idx < length (jc_path J))%nat -> length (jcols m X J idx) = dofi mb (nth idx (jc_path J) 0%nat)).
  { intros idx Hi. unfold jcols. rewrite map_length. apply (sized_nth _ _ _ _ (po_ms _ _ _ P)). rewrite NJ. auto. }
  rewrite (fill_path _ _ (jcols m X J)).
  - reflexivity.
  - rewrite (path_dof_idx mb m J _ W P LC). symmetry. apply (po_jac _ _ _ P).
  - intros idx cur l' Hi Ll Hc. unfold jac_step. rewrite path_get by auto. cbn [bind].
    pose proof (IN idx Hi) as Hk. pose proof (LC idx Hi) as LCi. set (k := nth idx (jc_path J) 0%nat) in *.
    rewrite (get_nth (bodyPosW m) k ptid) by (rewrite (po_pos _ _ _ P); auto). cbn [bind].
    rewrite (get_nth (mb_joints mb) k jd) by (fold (nrJoints mb); lia). cbn [bind fst snd].
    change (jdof (nth k (mb_joints mb) jd)) with (dofi mb k).
    rewrite <- LCi.
    rewrite (fill_seg _ cur (jcols m X J idx) l' sv0); [reflexivity|auto|].
    intros d l'' Hd Hl''.
    rewrite (get_nth (jc_sign J) idx 0) by (rewrite (po_sign _ _ _ P); auto). cbn [bind].
    rewrite (get_nth (motionSubspace m) k []) by lia. cbn [bind].
    unfold jcols in *. fold k in Hd |- *. rewrite map_length in Hd.
    rewrite (get_nth _ d sv0) by auto. cbn [bind].
    now rewrite (nth_map_lt _ _ _ sv0) by auto.
Qed.

(** jacobianDot and bodyJacobianDot *)
Definition dcols (m : MBC) (col : PT -> SV -> SV -> SV) (X : PT) (V : SV) (k : nat) : list SV :=
  let Xk := ptmul X (ptinv (posW m k)) in
  map (fun c => col Xk (svsub (ptm Xk (vb m k)) V) c) (subsp m k).

Lemma count_fill {A} (body : nat -> nat * list A -> res (nat * list A)) (p : nat) (v l : list A) d0 :
  (p + length v <= length l)%nat ->
  (forall d s, (d < length v)%nat -> length (snd s) = length l ->
      body d s = (jac <- set (snd s) (fst s) (nth d v d0) ;; Ok (S (fst s), jac))) ->
  for_up (length v) body (p, l) = Ok ((p + length v)%nat, splice l p v).
Proof.
  intros H B.
  destruct (for_up_inv (fun i s => s = ((p + i)%nat, splice l p (firstn i v))) body (length v) (p, l)) as (s & E & P).
  - cbn [firstn]. now rewrite splice_nil, Nat.add_0_r.
  - intros i s Hi ->.
    assert (Lf : length (firstn i v) = i) by (rewrite firstn_length; lia).
    rewrite B; [|auto|cbn [snd]; rewrite splice_length; lia]. cbn [fst snd].
    rewrite set_ok by (rewrite splice_length; lia). cbn [bind]. eexists. split; [reflexivity|].
    rewrite (firstn_S_nth v i d0) by auto. rewrite <- splice_snoc by lia. rewrite Lf. f_equal. lia.
  - rewrite E, P, firstn_all. reflexivity.
Qed.

Lemma dot_loop_ok mb m col X V J : wf_mb mb -> path_ok mb m J -> length (bodyVelB m) = nrBodies mb ->
  for_up (length (jc_path J)) (dot_step mb m col X V J) (0%nat, jc_dot J) =
  Ok (length (jc_dot J), concat (map (dcols m col X V) (jc_path J))).
Proof.
  intros W P LV.
  pose proof (wf_nrJoints _ W) as NJ. pose proof (sized_length _ _ _ (po_ms _ _ _ P)) as Lm.
  assert (IN : forall idx, (idx < length (jc_path J))%nat -> (nth idx (jc_path J) 0%nat < nrBodies mb)%nat)
    by (intros; apply (po_in _ _ _ P), nth_In; auto).
  set (cols idx := dcols m col X V (nth idx (jc_path J) 0%nat)).
  assert (LC : forall idx, (idx < length (jc_path J))%nat -> length (cols idx) = dofi mb (nth idx (jc_path J) 0%nat)).
  { intros idx Hi. unfold cols, dcols. rewrite map_length. apply (sized_nth _ _ _ _ (po_ms _ _ _ P)). rewrite NJ. auto. }
  rewrite <- (map_seq_nth (dcols m col X V) (jc_path J) 0%nat). fold cols.
  rewrite (fill_path _ _ cols).
  - reflexivity.
  - rewrite (path_dof_idx mb m J _ W P LC). symmetry. apply (po_dot _ _ _ P).
  - intros idx cur l' Hi Ll Hc. unfold dot_step. rewrite path_get by auto. cbn [bind].
    pose proof (IN idx Hi) as Hk. pose proof (LC idx Hi) as LCi. set (k := nth idx (jc_path J) 0%nat) in *.
    rewrite (get_nth (bodyPosW m) k ptid) by (rewrite (po_pos _ _ _ P); auto). cbn [bind].
    rewrite (get_nth (bodyVelB m) k sv0) by lia. cbn [bind].
    rewrite (get_nth (mb_joints mb) k jd) by (fold (nrJoints mb); lia). cbn [bind].
    change (jdof (nth k (mb_joints mb) jd)) with (dofi mb k).
    rewrite <- LCi.
    rewrite (count_fill _ cur (cols idx) l' sv0); [reflexivity|auto|].
    intros d s Hd Hs.
    rewrite (get_nth (motionSubspace m) k []) by lia. cbn [bind].
    unfold cols, dcols in *. fold k in Hd |- *. rewrite map_length in Hd.
    rewrite (get_nth _ d sv0) by auto. cbn [bind].
    now rewrite (nth_map_lt _ _ _ sv0) by auto.
Qed.

(** vectorJacobian: the linear rows are written, the angular ones kept. *)
Definition vcols (m : MBC) (Ef : PT -> M3) (X : PT) (vec : V3) (k : nat) : list V3 :=
  let Xk := ptmul X (ptinv (posW m k)) in
  map (fun c => mapp (Ef Xk) (vcross (vsub (trR Xk) (trR (ptmul (pttr vec) Xk))) (sang c))) (subsp m k).

Lemma zip_sv (l l' : list SV) : map sang l = map sang l' -> map slin l = map slin l' -> l = l'.
Proof.
  revert l'. induction l as [|a l IH]; intros [|b l'] A B; cbn in *; try discriminate; auto.
  injection A as A1 A2. injection B as B1 B2. f_equal; auto. now apply SV_ext.
Qed.
Lemma map_upd {A B} (f : A -> B) l i a : map f (upd l i a) = upd (map f l) i (f a).
Proof. revert i. induction l; intros [|i]; cbn; auto. now rewrite IHl. Qed.
Lemma upd_same {A} (l : list A) i d : upd l i (nth i l d) = l.
Proof. revert i. induction l; intros [|i]; cbn; auto. now rewrite IHl. Qed.

Lemma vec_loop_ok mb m Ef X vec J : wf_mb mb -> path_ok mb m J ->
  exists jac, for_up (length (jc_path J)) (vec_step mb m Ef X vec J) (0%nat, jc_jac J) = Ok (length (jc_jac J), jac) /\
    map sang jac = map sang (jc_jac J) /\
    map slin jac = concat (map (vcols m Ef X vec) (jc_path J)).
Proof.
  intros W P.
  pose proof (wf_nrJoints _ W) as NJ. pose proof (sized_length _ _ _ (po_ms _ _ _ P)) as Lm.
  assert (IN : forall idx, (idx < length (jc_path J))%nat -> (nth idx (jc_path J) 0%nat < nrBodies mb)%nat)
    by (intros; apply (po_in _ _ _ P), nth_In; auto).
  set (cols idx := vcols m Ef X vec (nth idx (jc_path J) 0%nat)).
  assert (LC : forall idx, (idx < length (jc_path J))%nat -> length (cols idx) = dofi mb (nth idx (jc_path J) 0%nat)).
  { intros idx Hi. unfold cols, vcols. rewrite map_length. apply (sized_nth _ _ _ _ (po_ms _ _ _ P)). rewrite NJ. auto. }
  set (C k := concat (map cols (seq 0 k))).
  assert (CS : forall k, C (S k) = C k ++ cols k).
  { intro k. unfold C. rewrite seq_S, map_app, concat_app. cbn. now rewrite app_nil_r. }
  assert (CN : length (C (length (jc_path J))) = length (jc_jac J)).
  { unfold C. rewrite (concat_map_length cols (fun idx => dofi mb (nth idx (jc_path J) 0%nat))).
    - rewrite (po_jac _ _ _ P). unfold path_dof. f_equal. apply (map_seq_nth (fun k => jdof (nth k (mb_joints mb) jd))).
    - intros k Hk. apply LC. apply in_seq in Hk. lia. }
  assert (CL : forall k, (k <= length (jc_path J))%nat -> (length (C k) <= length (jc_jac J))%nat).
  { intros k Hk. rewrite <- CN. clear -Hk CS. induction Hk; [lia|]. rewrite CS, app_length. lia. }
  set (L0 := map slin (jc_jac J)).
  assert (LL0 : length L0 = length (jc_jac J)) by (unfold L0; apply map_length).
  destruct (for_up_inv (fun i s => fst s = length (C i) /\ map sang (snd s) = map sang (jc_jac J) /\
                                   map slin (snd s) = splice L0 0 (C i))
              (vec_step mb m Ef X vec J) (length (jc_path J)) (0%nat, jc_jac J)) as (s & E & E1 & E2 & E3).
  - cbn [fst snd]. repeat split.
  - intros idx [cur l'] Hi (A1 & A2 & A3). cbn [fst snd] in *.
    unfold vec_step. rewrite path_get by auto. cbn [bind].
    pose proof (CL (S idx) Hi) as CL'. rewrite CS, app_length in CL'.
    assert (Ll : length l' = length (jc_jac J)) by (rewrite <- (map_length sang l'), A2, map_length; auto).
    pose proof (IN idx Hi) as Hk. pose proof (LC idx Hi) as LCi. set (k := nth idx (jc_path J) 0%nat) in *.
    rewrite (get_nth (bodyPosW m) k ptid) by (rewrite (po_pos _ _ _ P); auto). cbn [bind].
    rewrite (get_nth (mb_joints mb) k jd) by (fold (nrJoints mb); lia). cbn [bind].
    change (jdof (nth k (mb_joints mb) jd)) with (dofi mb k).
    rewrite <- LCi. cbn [fst snd].
    match goal with |- exists s', bind (for_up _ ?b _) _ = _ /\ _ => set (bd := b) end.
    destruct (for_up_inv (fun d l => map sang l = map sang (jc_jac J) /\
                  map slin l = splice (map slin l') cur (firstn d (cols idx))) bd (length (cols idx)) l') as (l2 & F & F1 & F2).
    + split; auto. cbn [firstn]. now rewrite splice_nil.
    + intros d l2 Hd (B1 & B2). unfold bd.
      assert (Ll2 : length l2 = length (jc_jac J)) by (rewrite <- (map_length sang l2), B1, map_length; auto).
      assert (Lf : length (firstn d (cols idx)) = d) by (rewrite firstn_length; lia).
      rewrite (get_nth (motionSubspace m) k []) by lia. cbn [bind].
      assert (Hd' : (d < length (subsp m k))%nat) by (unfold cols, vcols in Hd; fold k in Hd; now rewrite map_length in Hd).
      rewrite (get_nth _ d sv0) by auto. cbn [bind].
      rewrite (get_nth _ (cur + d) sv0) by lia. cbn [bind].
      rewrite set_ok by lia. eexists. split; [reflexivity|]. rewrite !map_upd. cbn [sang slin]. split.
      * now rewrite <- (map_nth sang l2 sv0), upd_same.
      * rewrite B2. rewrite (firstn_S_nth _ d v0) by auto.
        rewrite <- splice_snoc by (rewrite map_length; lia). rewrite Lf. f_equal.
        unfold cols, vcols. fold k. now rewrite (nth_map_lt _ _ _ sv0) by auto.
    + rewrite F. cbn [bind]. eexists. split; [reflexivity|]. cbn [fst snd]. rewrite CS, app_length.
      split; [lia|]. split; [auto|]. rewrite F2, firstn_all, A3, A1.
      unfold splice. cbn [firstn app plus].
      rewrite firstn_app, firstn_all, Nat.sub_diag, firstn_O, app_nil_r, <- app_assoc. f_equal. f_equal.
      rewrite skipn_app, skipn_all2 by lia. cbn [app]. rewrite skipn_skipn, app_length. f_equal. lia.
  - destruct s as [c l]. cbn [fst snd] in *. exists l. rewrite E, E1, CN. split; [reflexivity|]. split; [auto|].
    rewrite E3. unfold splice. cbn [firstn app plus]. rewrite skipn_all2 by lia. rewrite app_nil_r.
    unfold C, cols. now rewrite (map_seq_nth (vcols m Ef X vec) (jc_path J) 0%nat).
Qed.
