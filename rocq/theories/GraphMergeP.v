(** mergeSubBodies: what is left and the inertia of the remaining body. *)
From Coq Require Import Reals String ZArith Bool Arith List Lia Lra Relations Permutation.
From Verif Require Import Res ResP SMap Vec VecP Mat Sva SvaP JointM JointP MultiBodyM KinM GraphM Spec SpecGraph SpecGraphOp GraphP GraphWalkP GraphTreeP GraphHistP GraphRmP GraphCutP GraphPoseP.
Import ListNotations.
Open Scope R_scope.
Local Open Scope nat_scope.

Lemma rbiadd_assoc A B C : rbiadd (rbiadd A B) C = rbiadd A (rbiadd B C).
Proof. apply RBI_ext. intro m. rewrite !rbim_rbiadd. svring. Qed.
Lemma rbiadd_comm A B : rbiadd A B = rbiadd B A.
Proof. apply RBI_ext. intro m. rewrite !rbim_rbiadd. svring. Qed.
Lemma rbiadd_0 A : rbiadd A rbi0 = A.
Proof. apply RBI_ext. intro m. rewrite !rbim_rbiadd, rbim_rbi0. svring. Qed.
Lemma rbiadd_0l A : rbiadd rbi0 A = A.
Proof. rewrite rbiadd_comm. apply rbiadd_0. Qed.
Lemma pttransI_id I : pttransI ptid I = I.
Proof. apply RBI_ext. intro m. rewrite pttransI_spec by apply rigid_id. rewrite ptm_id. generalize (rbim I m). intros [w v]. svring. Qed.
Lemma pttransI_0 X : rigid X -> pttransI X rbi0 = rbi0.
Proof. intro H. apply RBI_ext. intro m. rewrite pttransI_spec by auto. rewrite !rbim_rbi0. svring. Qed.
Lemma isum_app {A} (f : A -> RBI) l l' : isum f (l ++ l') = rbiadd (isum f l) (isum f l').
Proof. induction l as [|a l IH]; cbn; [now rewrite rbiadd_0l|]. unfold isum in *. cbn. now rewrite IH, rbiadd_assoc. Qed.
Lemma isum_ext {A} (f g : A -> RBI) l : (forall a, In a l -> f a = g a) -> isum f l = isum g l.
Proof. intro H. unfold isum. induction l as [|a l IH]; cbn; auto. rewrite H by (now left). f_equal. apply IH. intros. apply H. now right. Qed.
Lemma isum_perm {A} (f : A -> RBI) l l' : Permutation l l' -> isum f l = isum f l'.
Proof. unfold isum. induction 1; cbn; auto; [congruence| |congruence]. rewrite <- !rbiadd_assoc. f_equal. apply rbiadd_comm. Qed.
Lemma isum_trans {A} (f : A -> RBI) X l : rigid X -> isum (fun a => pttransI X (f a)) l = pttransI X (isum f l).
Proof. intro H. unfold isum. induction l as [|a l IH]; cbn; [now rewrite pttransI_0|]. rewrite pttransI_add by auto. congruence. Qed.

Section Msn.
Variable s : GSt.
Hypothesis GK : gok s.
Notation V := (gNodes (snd s)).
Notation h := (fst s).
Let G : graph_ok s := proj1 GK.
Let CF : cycle_free h (snd s) := proj2 GK.
Variable pos : smap (list R).

(** *** When it succeeds. *)
Hypothesis JO : link_joints joint_ok s.
Lemma msn_runs t : forall from pj fuel, unf h from t -> skip_ok s from pj (groot t) -> gheight t <= fuel -> (forall x, In x (gnodes t) -> In x V) ->
  ((forall a e t1, tedge t a e t1 -> pos_ok pos e) /\ exists c, mergeSubNodes fuel h (groot t) pj pos = Ok c) \/
  (~ (forall a e t1, tedge t a e t1 -> pos_ok pos e) /\ exists x, mergeSubNodes fuel h (groot t) pj pos = Throw x).
Proof.
  induction t as [a ks IH] using gtree_rect'. intros from pj fuel U SK Hf InV. assert (Ua := U). apply unf_iff in U as (L & K & U).
  destruct fuel as [|f]; [cbn in Hf; lia|]. cbn [mergeSubNodes groot].
  destruct (unf_get h from (GT a ks) Ua) as (nd & Eg & En & Eb). cbn [groot] in *. rewrite Eg. cbn [bind]. rewrite for_each_filter, En, (skip_out s _ _ _ SK), <- K.
  assert (Va : In a V) by (apply InV; now left).
  assert (LOOP : forall l I, (forall k, In k l -> In k ks) ->
    ((forall e t, In (e, t) l -> pos_ok pos e /\ forall b e1 t1, tedge t b e1 t1 -> pos_ok pos e1) /\
       exists c, for_each (map fst l) (fun e I => c <- mergeSubNodes f h (aNext e) (ajn e) pos ;; mergeInertia I c (aJoint e) (aX e) pos) I = Ok c) \/
    ((exists e t, In (e, t) l /\ (~ pos_ok pos e \/ ~ forall b e1 t1, tedge t b e1 t1 -> pos_ok pos e1)) /\
       exists x, for_each (map fst l) (fun e I => c <- mergeSubNodes f h (aNext e) (ajn e) pos ;; mergeInertia I c (aJoint e) (aX e) pos) I = Throw x)).
  { induction l as [|(e, t) l IHl]; intros I Sub.
    - left. split; [intros e t []|exists I; reflexivity].
    - assert (Hk : In (e, t) ks) by (apply Sub; now left). destruct (U e t Hk) as (Re & Ut). cbn [map fst for_each].
      assert (He : In e (arcs_at h a)). { destruct (tedge_unf _ _ _ Ua a e t (te_here _ _ _ _ Hk)) as (_ & X & _). exact X. }
      rewrite <- Re. destruct (IH e t Hk (Some a) (ajn e) f Ut) as [(M1 & c & M2)|(M1 & x & M2)].
      + rewrite Re. now apply skip_child.
      + pose proof (gheight_kid e t ks a Hk). lia.
      + intros x Hx. apply InV. right. apply in_flat_map. exists (e, t). auto.
      + rewrite M2. cbn [bind]. unfold mergeInertia at 1 3. fold (ajn e). destruct (mfind pos (ajn e)) as [x|] eqn:Fx.
        * destruct (Nat.eqb_spec (length x) (jparams (aJoint e))) as [Lx|Lx].
          -- destruct (pose_total (aJoint e) x (JO a e Va He) Lx) as (X & EX). rewrite EX. cbn [bind].
             destruct (IHl (rbiadd I (pttransI (ptmul X (aX e)) c))) as [(Q1 & Q2)|((e1 & t1 & Q1 & Q3) & Q2)]; [intros k Hkk; apply Sub; now right| |].
             ++ left. split; auto. intros e1 t1 [Q|Q]; [injection Q as <- <-; split; auto; exists x; auto|auto].
             ++ right. split; auto. exists e1, t1. split; auto. now right.
          -- right. split; [|eexists; reflexivity]. exists e, t. split; [now left|]. left. intros (x' & Fx' & Lx'). congruence.
        * right. split; [|eexists; reflexivity]. exists e, t. split; [now left|]. left. intros (x' & Fx' & Lx'). congruence.
      + rewrite M2. cbn [bind]. right. split; [|eexists; reflexivity]. exists e, t. split; [now left|auto]. }
  destruct (LOOP ks (binertia (nBody nd)) (fun k Hk => Hk)) as [(Q1 & c & Q2)|((e & t & Q1 & Q3) & x & Q2)]; rewrite Q2; cbn [bind].
  - left. split; [|eexists; reflexivity]. intros b e1 t1 E. inversion E as [? ? ? ? H|? ? e2 t2 ? ? ? H1 H2]; subst; [apply (Q1 e1 t1 H)|eapply (proj2 (Q1 e2 t2 H1)); eauto].
  - right. split; [|eexists; reflexivity]. intro A. destruct Q3 as [Q3|Q3]; apply Q3; [apply (A a e t); now constructor|]. intros b e1 t1 E. apply (A b e1 t1). eapply te_deep; eauto.
Qed.

(** *** The mass it returns. *)
Notation mass := (fun b => imass (binertia (body_at h b))).
Lemma msn_mass t : forall from pj fuel c, unf h from t -> skip_ok s from pj (groot t) -> gheight t <= fuel -> (forall x, In x (gnodes t) -> In x V) ->
  mergeSubNodes fuel h (groot t) pj pos = Ok c -> imass c = lsum mass (gnodes t).
Proof.
  induction t as [a ks IH] using gtree_rect'. intros from pj fuel c U SK Hf InV. assert (Ua := U). apply unf_iff in U as (L & K & U).
  destruct fuel as [|f]; [cbn in Hf; lia|]. cbn [mergeSubNodes groot].
  destruct (unf_get h from (GT a ks) Ua) as (nd & Eg & En & Eb). cbn [groot] in *. rewrite Eg. cbn [bind]. rewrite for_each_filter, En, (skip_out s _ _ _ SK), <- K.
  assert (LOOP : forall l I c, (forall k, In k l -> In k ks) ->
    for_each (map fst l) (fun e I => c <- mergeSubNodes f h (aNext e) (ajn e) pos ;; mergeInertia I c (aJoint e) (aX e) pos) I = Ok c ->
    imass c = (imass I + lsum mass (flat_map (fun k => gnodes (snd k)) l))%R).
  { induction l as [|(e, t) l IHl]; intros I c0 Sub E; [injection E as <-; unfold lsum; cbn; now rewrite Rplus_0_r|].
    assert (Hk : In (e, t) ks) by (apply Sub; now left). destruct (U e t Hk) as (Re & Ut). cbn [map fst for_each flat_map snd] in *.
    assert (He : In e (arcs_at h a)). { destruct (tedge_unf _ _ _ Ua a e t (te_here _ _ _ _ Hk)) as (_ & X & _). exact X. }
    apply bind_Ok in E as (I1 & E & E2). apply bind_Ok in E as (c1 & E & E1). rewrite <- Re in E.
    apply (IH e t Hk (Some a)) in E; auto; [|rewrite Re; apply skip_child; auto; apply InV; now left|pose proof (gheight_kid e t ks a Hk); lia|intros x Hx; apply InV; right; apply in_flat_map; exists (e, t); auto].
    apply IHl in E2; [|intros k Hkk; apply Sub; now right]. rewrite E2. unfold mergeInertia in E1. destruct (mfind pos _) as [x|]; [|discriminate]. destruct (_ =? _); [|discriminate].
    apply bind_Ok in E1 as (X & _ & E1). injection E1 as <-. cbn [rbiadd pttransI imass]. rewrite E.
    assert (LA : forall (l1 l2 : list nat), lsum mass (l1 ++ l2) = (lsum mass l1 + lsum mass l2)%R).
    { intros l1 l2. unfold lsum. induction l1 as [|z l1 IHz]; cbn; [ring|]. rewrite IHz. ring. }
    rewrite LA. ring. }
  intro E. apply bind_Ok in E as (I1 & E & E2). apply LOOP in E; auto. injection E2 as <-. cbn [ptdualI imass]. rewrite E, Eb. reflexivity.
Qed.

(** *** What it returns. *)
Variable r : nat.
Variable qn : string -> list R.
Variable P : nat -> PT.
Hypothesis PL : placement s r qn P.
Hypothesis PR : forall a, conn h r a -> rigid (P a).
Hypothesis GR : graph_rigid s.
Hypothesis Hr : In r V.
Lemma msn_value t : forall p e e' fuel, conn h r p -> In e (arcs_at h p) -> aNext e = groot t -> In e' (arcs_at h (groot t)) -> aNext e' = p -> ajn e' = ajn e ->
  unf h (Some p) t -> gheight t <= fuel -> (forall x, In x (gnodes t) -> conn h r x) ->
  (forall a e t1, tedge t a e t1 -> mfind pos (ajn e) = Some (qn (ajn e)) /\ length (qn (ajn e)) = jparams (aJoint e)) ->
  mergeSubNodes fuel h (groot t) (ajn e) pos = Ok (ptdualI (aX e') (isum (fun b => pttransI (ptmul (P b) (ptinv (P (groot t)))) (binertia (body_at h b))) (gnodes t))).
Proof.
  induction t as [a ks IH] using gtree_rect'. intros p e e' fuel Cp He Ne He' Ne' Qe U Hf InC PO. assert (Ua := U). apply unf_iff in U as (L & K & U).
  assert (InV : forall x, conn h r x -> In x V) by (intros x Cx; exact (proj2 (conn_sym' s r x G Hr Cx))).
  assert (Ca : conn h r a) by (apply InC; now left). assert (Ra := PR a Ca).
  assert (SK : skip_ok s (Some p) (ajn e) a) by (cbn [groot] in Ne; rewrite <- Ne; apply skip_child; auto).
  destruct fuel as [|f]; [cbn in Hf; lia|]. cbn [mergeSubNodes groot] in *.
  destruct (unf_get h (Some p) (GT a ks) Ua) as (nd & Eg & En & Eb). cbn [groot] in *. rewrite Eg. cbn [bind]. rewrite for_each_filter, En, (skip_out s _ _ _ SK), <- K.
  set (F := fun b => pttransI (ptmul (P b) (ptinv (P a))) (binertia (body_at h b))).
  assert (LOOP : forall l I, (forall k, In k l -> In k ks) ->
    for_each (map fst l) (fun e I => c <- mergeSubNodes f h (aNext e) (ajn e) pos ;; mergeInertia I c (aJoint e) (aX e) pos) I = Ok (rbiadd I (isum F (flat_map (fun k => gnodes (snd k)) l)))).
  { induction l as [|(e1, t) l IHl]; intros I Sub; [cbn; now rewrite rbiadd_0|].
    assert (Hk : In (e1, t) ks) by (apply Sub; now left). destruct (U e1 t Hk) as (Re & Ut). cbn [map fst for_each flat_map snd].
    destruct (tedge_unf _ _ _ Ua a e1 t (te_here _ _ _ _ Hk)) as (_ & H1 & _).
    destruct (gk_pair _ G a e1 (InV a Ca) H1) as (e1' & B1 & B2 & B3).
    assert (Q1 : ajn e1' = ajn e1) by (unfold ajn; rewrite B3; reflexivity).
    assert (Ck : conn h r (aNext e1)) by (apply rt_trans with a; auto; apply rt_step; exists e1; auto). assert (Rk := PR _ Ck).
    destruct (PO a e1 t (te_here _ _ _ _ Hk)) as (Fx & Lx).
    rewrite <- Re. rewrite (IH e1 t Hk a e1 e1' f); auto; try congruence.
    2:{ pose proof (gheight_kid e1 t ks a Hk). lia. }
    2:{ intros x Hx. apply InC. right. apply in_flat_map. exists (e1, t). auto. }
    2:{ intros b e2 t2 E2. apply (PO b e2 t2). eapply te_deep; eauto. }
    cbn [bind]. unfold mergeInertia at 1. fold (ajn e1). rewrite Fx, (proj2 (Nat.eqb_eq _ _) Lx).
    destruct (PL a e1 e1' Ca H1 B1 B2 Q1) as (X & EX & EQ). rewrite EX. cbn [bind]. rewrite IHl by (intros k Hkk; apply Sub; now right). f_equal.
    rewrite isum_app, rbiadd_assoc. f_equal. f_equal.
    assert (R1 : rigid (aX e1')) by (apply (GR (aNext e1) e1'); auto).
    assert (EQ2 : ptmul X (aX e1) = ptmul (aX e1') (ptmul (P (aNext e1)) (ptinv (P a)))).
    { rewrite ptmul_assoc, EQ, <- ptmul_assoc, ptinv_r by auto. now rewrite ptmul_id_r. }
    rewrite EQ2. set (Y := ptmul (P (aNext e1)) (ptinv (P a))). assert (RY : rigid Y) by (apply rigid_mul; auto; now apply rigid_inv).
    rewrite pttransI_mul by auto. rewrite ptdualI_transI by auto. rewrite <- (pttransI_mul (ptinv (aX e1')) (aX e1')) by (auto; now apply rigid_inv).
    rewrite ptinv_l, pttransI_id by auto. rewrite <- isum_trans by auto. apply isum_ext. intros b Hb. unfold F, Y.
    assert (Cb : conn h r b) by (apply InC; right; apply in_flat_map; exists (e1, t); auto). assert (Rb := PR _ Cb).
    rewrite Re. rewrite <- pttransI_mul by (repeat apply rigid_mul; auto; now apply rigid_inv). f_equal.
    rewrite <- ptmul_assoc. f_equal. rewrite ptmul_assoc, ptinv_l by auto. now rewrite ptmul_id_l. }
  rewrite (LOOP ks _ (fun k Hk => Hk)). cbn [bind]. f_equal.
  assert (FD : find (fun e0 => String.eqb (ajn e0) (ajn e)) (arcs_at h a) = Some e').
  { destruct (find _ _) as [e2|] eqn:Fd.
    - apply find_some in Fd as (F1 & F2). apply String.eqb_eq in F2. f_equal. apply (NoDup_map_eq ajn (arcs_at h a)); auto; [apply (gk_once _ G); auto|congruence].
    - exfalso. apply (find_none _ _ Fd e') in He'. rewrite Qe, String.eqb_refl in He'. discriminate. }
  rewrite FD. f_equal. cbn [gnodes]. unfold isum at 2. cbn [fold_right]. fold (isum F (flat_map (fun k => gnodes (snd k)) ks)). f_equal.
  unfold F. rewrite ptinv_r by auto. now rewrite pttransI_id, Eb.
Qed.
End Msn.

(** *** Changing the inertia of a body. *)
Lemma adj_ext h h' : (forall a, arcs_at h' a = arcs_at h a) -> forall a b, adj h' a b -> adj h a b.
Proof. intros H a b (e & A & B). rewrite H in A. exists e. auto. Qed.
Lemma conn_ext h h' : (forall a, arcs_at h' a = arcs_at h a) -> forall a b, conn h' a b -> conn h a b.
Proof. intros H a b C. induction C as [x y A|x|]; [apply rt_step; eapply adj_ext; eauto|apply rt_refl|eapply rt_trans; eauto]. Qed.
Lemma conn_no_ext h h' jn : (forall a, arcs_at h' a = arcs_at h a) -> forall a b, conn_no h' jn a b -> conn_no h jn a b.
Proof. intros H a b C. induction C as [x y (e & A & B)|x|]; [apply rt_step; exists e; rewrite <- H; auto|apply rt_refl|eapply rt_trans; eauto]. Qed.
Lemma behind_ext h h' r jn x : (forall a, arcs_at h' a = arcs_at h a) -> behind h' r jn x <-> behind h r jn x.
Proof.
  intro H. assert (H' : forall a, arcs_at h a = arcs_at h' a) by auto. split; intros (A & B); split; [eapply conn_ext; eauto| |eapply conn_ext; eauto|]; intro C; apply B; eapply conn_no_ext; eauto.
Qed.
Lemma unf_ext h h' t : (forall a, arcs_at h' a = arcs_at h a) -> length (hNodes h') = length (hNodes h) -> forall from, unf h from t -> unf h' from t.
Proof.
  intros H L. induction t as [a ks IH] using gtree_rect'. intros from U. apply unf_iff in U as (U1 & U2 & U3). apply unf_iff. split; [lia|]. split.
  - rewrite U2. unfold out_arcs. now rewrite H.
  - intros e t Hk. destruct (U3 e t Hk). split; auto. eapply IH; eauto.
Qed.
Lemma gok_setbody s s1 : gok s -> hJoints (fst s1) = hJoints (fst s) -> length (hNodes (fst s1)) = length (hNodes (fst s)) -> snd s1 = snd s ->
  (forall a, arcs_at (fst s1) a = arcs_at (fst s) a) -> (forall a, bname (body_at (fst s1) a) = bname (body_at (fst s) a)) -> gok s1.
Proof.
  intros (G & CF) HJ HL HS HA HB. destruct G as [N G1 G2 G3 G4 G5]. destruct CF as [F1 F2 F3].
  assert (JN : joint_names s1 = joint_names s) by (unfold joint_names, joint_at; now rewrite HJ, HS).
  split; constructor.
  - destruct N as [A B C E F K]. constructor.
    + unfold body_names in *. rewrite HS. now rewrite (map_ext _ _ HB).
    + now rewrite JN.
    + intros n a. rewrite HS, HB. apply C.
    + intros n p. rewrite HS. unfold joint_at. rewrite HJ. apply E.
    + intros a Ha. rewrite HS in Ha. rewrite HL. auto.
    + intros a Ha. rewrite HS in Ha. rewrite HJ. auto.
  - intros a e. rewrite HS, HA. apply G1.
  - intros a e. rewrite HS, HA, JN. apply G2.
  - intros a e. rewrite HS, !HA. intros Ha He. apply G3; auto.
  - intros a. rewrite HS, HA. apply G4.
  - intros a b e e'. rewrite HS, !HA. apply G5.
  - intros a. rewrite HS. intros Ha A. apply (F1 a Ha). eapply adj_ext; eauto.
  - intros a. rewrite HS, HA. apply F2.
  - intros c Hc Cy. rewrite HS in Hc. apply (F3 c Hc). eapply cycle_ext; [|exact Cy]. intros x y _ _. now apply adj_ext.
Qed.
Lemma cut_setbody r jn s s1 s' : hJoints (fst s1) = hJoints (fst s) -> snd s1 = snd s -> (forall a, arcs_at (fst s1) a = arcs_at (fst s) a) -> cut r jn s1 s' -> cut r jn s s'.
Proof.
  intros HJ HS HA [C1 (keep & C2 & C3 & C4) (keepj & C5 & C6) C7]. rewrite HS in *. constructor.
  - auto.
  - exists keep. split; [intros a Ha; rewrite C2 by auto; now rewrite behind_ext by auto|]. split; auto. intros a Ha. rewrite C4 by auto. now rewrite HA.
  - exists keepj. split; auto. intros p Hp. rewrite C5 by auto. unfold joint_at. rewrite HJ. unfold joint_behind. split; intros N (x & e & B & X); apply N; exists x, e.
    + rewrite behind_ext by auto. rewrite HA. auto.
    + rewrite behind_ext in B by auto. rewrite HA in X. auto.
  - intros p Hp. rewrite C7 by auto. unfold joint_at. now rewrite HJ.
Qed.
Definition set_inertia (a : nat) (Ib : RBI) (h : Heap) : Heap :=
  mkHeap (upd (hNodes h) a (mkNode (mkBody Ib (bname (body_at h a))) (arcs_at h a))) (hJoints h).
Lemma set_inertia_arcs a Ib h b : arcs_at (set_inertia a Ib h) b = arcs_at h b.
Proof.
  unfold set_inertia. rewrite arcs_at_upd. cbn [nArcs]. destruct (Nat.eqb_spec a b) as [<-|]; cbn [andb]; auto. destruct (a <? length (hNodes h)); auto.
Qed.
Lemma set_inertia_body a Ib h b : a < length (hNodes h) -> body_at (set_inertia a Ib h) b = if a =? b then mkBody Ib (bname (body_at h a)) else body_at h b.
Proof.
  intro L. unfold set_inertia. rewrite body_at_upd. cbn [nBody]. rewrite (proj2 (Nat.ltb_lt _ _) L), andb_true_r. now destruct (a =? b).
Qed.

Lemma merge_hit_eq (s : GSt) nd F a n jn pos k e : nth_error (hNodes (fst s)) a = Some nd ->
  merge_hit F a n jn pos k e s =
  match (c <- mergeSubNodes F (fst s) (aNext e) jn pos ;; mergeInertia (binertia (nBody nd)) c (aJoint e) (aX e) pos) with
  | Ok Ib => rm_hit F a n k e (set_inertia a Ib (fst s), snd s)
  | Throw x => GExc x s
  | UB => GUB
  | Diverge => GDiv
  end.
Proof.
  intro En. destruct (node_at _ _ _ En) as (Eb & Ea & L). unfold merge_hit, gbind at 1, glift. rewrite (proj2 (get_Ok _ _ _) En).
  destruct (mergeSubNodes F (fst s) (aNext e) jn pos) as [c| | |]; cbn [bind]; auto. destruct (mergeInertia _ _ _ _ _) as [Ib| | |]; auto.
  unfold gbind at 1, gmod at 1. rewrite (proj2 (get_Ok _ _ _) En). cbn [bind]. unfold set_node. rewrite set_ok by auto. cbn [bind].
  unfold set_inertia. now rewrite Eb, Ea.
Qed.
(** The masses after a merge. *)
Definition merged_mass (s s' : GSt) (r : nat) (jn : string) : Prop :=
  forall l, NoDup l -> (forall x, In x l <-> behind (fst s) r jn x) -> forall b, In b (gNodes (snd s')) ->
    ((exists e, In e (arcs_at (fst s) b) /\ ajn e = jn) ->
       imass (binertia (body_at (fst s') b)) = (imass (binertia (body_at (fst s) b)) + lsum (fun x => imass (binertia (body_at (fst s) x))) l)%R) /\
    ((forall e, In e (arcs_at (fst s) b) -> ajn e <> jn) -> imass (binertia (body_at (fst s') b)) = imass (binertia (body_at (fst s) b))).
Section Merge.
Variable s : GSt.
Hypothesis GK : gok s.
Hypothesis JO : link_joints joint_ok s.
Notation h := (fst s).
Variables (r : nat) (jn : string) (pos : smap (list R)).
Hypothesis Hr : In r (gNodes (snd s)).
Hypothesis RN : root_name_free s r.

Lemma merge_runs F fuel : length (gNodes (snd s)) <= fuel -> length (gNodes (snd s)) <= F ->
  (merge_pos_ok s r jn pos /\ exists b s', findMergeSubNodes F fuel r (gRoot (snd s)) jn pos s = GRet b s' /\
     cut r jn s s' /\ gok s' /\ others_same s s' /\
     (forall qn P, placement s r qn P -> (forall a, conn h r a -> rigid (P a)) -> graph_rigid s ->
       (forall n, joint_behind h r jn n -> mfind pos n = Some (qn n)) -> merged s s' r jn P) /\ merged_mass s s' r jn) \/
  (~ merge_pos_ok s r jn pos /\ exists x, findMergeSubNodes F fuel r (gRoot (snd s)) jn pos s = GExc x s).
Proof.
  intros Hf HF. destruct GK as (G & CF). destruct (graph_unfolding s r G CF Hr) as (t & Tr & Tu & Th & Tn & Tc & Tv).
  rewrite merge_expl. rewrite <- Tr. destruct (gexpl_runs s G CF (fun a n k e => merge_hit F a n jn pos k e) jn t None (gRoot (snd s)) fuel Tu) as [(M & E)|(a & e & t1 & l1 & l2 & Te & Ej & Ea & E)]; auto.
  - rewrite Tr. now apply skip_root.
  - lia.
  - left. rewrite Tr. assert (NB := behind_none s r t Tr Tu Tc jn). split; [intros b e B; exfalso; eapply NB; eauto|].
    exists false, s. rewrite <- Tr at 1. split; auto. destruct (cut_refl s r t Tr Tu Tc jn M) as (C & B). split; auto. split; [now split|]. split; [repeat split; auto|]. split.
    + intros qn P _ _ _ _ l Nl Hl b Hb. split; auto. split; auto. intros _. destruct l as [|x l]; [cbn; now rewrite rbiadd_0|]. exfalso. eapply NB; [exact M|]. apply Hl. now left.
    + intros l Nl Hl b Hb. split; auto. intros _. destruct l as [|x l]; [unfold lsum; cbn; ring|]. exfalso. eapply NB; [exact M|]. apply Hl. now left.
  - rewrite E. clear E. rewrite Tr. destruct (tedge_unf _ _ _ Tu _ _ _ Te) as (A1 & A2 & A3 & A4 & A5 & A6). destruct (tedge_nodup _ Tn _ _ _ Te) as (N1 & Na).
    assert (Va := Tv a A1). assert (La := ng_node _ (gk_names _ G) a Va).
    assert (BT := fun x => behind_tree s (conj G CF) r t Tr Tu Tn Tc Tv jn a e t1 x Te Ej).
    destruct (gk_pair _ G a e Va A2) as (e' & P1 & P2 & P3). assert (Qe : ajn e' = ajn e) by (unfold ajn; rewrite P3; reflexivity).
    assert (PS : forall e2 e3, ajn e2 = ajn e3 -> jparams (aJoint e2) = jparams (aJoint e3) -> pos_ok pos e2 -> pos_ok pos e3).
    { intros e2 e3 Q1 Q2 (x & X1 & X2). exists x. split; congruence. }
    assert (PP : forall b e2, In b (gNodes (snd s)) -> In e2 (arcs_at h b) -> exists e3, In e3 (arcs_at h (aNext e2)) /\ aNext e3 = b /\ ajn e3 = ajn e2 /\ jparams (aJoint e3) = jparams (aJoint e2)).
    { intros b e2 Vb H2. destruct (gk_pair _ G b e2 Vb H2) as (e3 & X1 & X2 & X3). exists e3. do 2 (split; auto). unfold ajn. rewrite X3. auto. }
    (* positions for all the links behind are positions for the links of the subtree and for e *)
    assert (ALL : (pos_ok pos e /\ forall b e2 t2, tedge t1 b e2 t2 -> pos_ok pos e2) <-> merge_pos_ok s r jn pos).
    { split.
      - intros (Q1 & Q2) b e2 B H2. apply BT in B. destruct (unf_closed_root h t1 (Some a) A4 b (aNext e2) B (ex_intro _ e2 (conj H2 eq_refl))) as [_|(_ & Z)].
        + destruct (tree_edge_in h s t1 eq_refl G CF (Some a) A4 (fun x Hx => Tv x (A5 x Hx)) b e2 B H2) as [X|(Z1 & Z2)].
          * apply gjoints_edge in X as (b3 & e3 & t3 & T3 & X). destruct (tedge_unf _ _ _ A4 _ _ _ T3) as (Y1 & Y2 & _). destruct (Nat.eq_dec b b3) as [Eb|Nb].
            -- subst b3. assert (e3 = e2) by (apply (NoDup_map_eq ajn (arcs_at h b)); auto; apply (gk_once _ G); auto). subst e3. eapply Q2; eauto.
            -- destruct (gk_link _ G b b3 e2 e3) as (Z1 & Z2); auto. destruct (PP b e2 (Tv _ (A5 _ B)) H2) as (e4 & W1 & W2 & W3 & W4).
               rewrite Z1 in W1. assert (e4 = e3) by (apply (NoDup_map_eq ajn (arcs_at h b3)); auto; [apply (gk_once _ G); auto|congruence]). subst e4.
               apply (PS e3 e2); auto. eapply Q2; eauto.
          * subst b. cbn [is_from] in Z2. apply Nat.eqb_eq in Z2. rewrite <- A3 in *. assert (e2 = e') by (apply (single_arc h (aNext e)); auto; [apply (cf_single _ _ CF); eapply gk_next; eauto|congruence]). subst e2.
            apply (PS e e'); auto. rewrite P3. reflexivity.
        + injection Z as Z. assert (Q : b = groot t1). { destruct (unf_closed_root h t1 (Some a) A4 b (aNext e2) B (ex_intro _ e2 (conj H2 eq_refl))) as [W|(W & _)]; auto. rewrite <- Z in W. contradiction. }
          subst b. rewrite <- A3 in *. assert (e2 = e') by (apply (single_arc h (aNext e)); auto; [apply (cf_single _ _ CF); eapply gk_next; eauto|congruence]). subst e2.
          apply (PS e e'); auto. rewrite P3. reflexivity.
      - intro A. split.
        + apply (PS e' e); auto; [rewrite P3; reflexivity|]. apply (A (aNext e) e'); auto. apply BT. rewrite A3. apply groot_in.
        + intros b e2 t2 E2. destruct (tedge_unf _ _ _ A4 _ _ _ E2) as (Y1 & Y2 & _). apply (A b e2); auto. apply BT. auto. }
    assert (SK : skip_ok s (Some a) jn (groot t1)) by (rewrite <- A3, <- Ej; now apply skip_child).
    destruct (nth_error (hNodes h) a) as [nd|] eqn:En; [|apply nth_error_None in En; lia]. destruct (node_at _ _ _ En) as (Eb & Ear & _).
    set (N := length (arcs_at h a)). set (K := length l1).
    assert (HIT : merge_hit F a N jn pos K e s = match (c <- mergeSubNodes F h (groot t1) jn pos ;; mergeInertia (binertia (nBody nd)) c (aJoint e) (aX e) pos) with
      | Ok Ib => rm_hit F a N K e (set_inertia a Ib h, snd s) | Throw x => GExc x s | UB => GUB | Diverge => GDiv end) by (rewrite <- A3; now apply merge_hit_eq).
    destruct (msn_runs s (conj G CF) pos JO t1 (Some a) jn F A4 SK) as [(M1 & c & M2)|(M1 & x & M2)]; [lia|auto| |].
    + rewrite M2 in HIT. cbn [bind] in HIT. unfold mergeInertia in HIT. fold (ajn e) in HIT. rewrite Ej in HIT.
      destruct (mfind pos jn) as [x|] eqn:Fx; [destruct (Nat.eqb_spec (length x) (jparams (aJoint e))) as [Lx|Lx]|].
      2:{ right. split; [|unfold gbind; rewrite HIT; eexists; reflexivity]. intro A. apply ALL in A as ((x' & X1 & X2) & _). rewrite Ej in X1. congruence. }
      2:{ right. split; [|unfold gbind; rewrite HIT; eexists; reflexivity]. intro A. apply ALL in A as ((x' & X1 & X2) & _). rewrite Ej in X1. congruence. }
      left. split; [apply ALL; split; auto; exists x; rewrite Ej; auto|].
      destruct (pose_total (aJoint e) x (JO a e Va A2) Lx) as (X & EX). rewrite EX in HIT. cbn [bind] in HIT.
      set (Ib := rbiadd (binertia (nBody nd)) (pttransI (ptmul X (aX e)) c)) in *. set (s1 := (set_inertia a Ib h, snd s)) in *.
      assert (SA : forall b, arcs_at (fst s1) b = arcs_at h b) by (intro b; apply set_inertia_arcs).
      assert (SB : forall b, body_at (fst s1) b = if a =? b then mkBody Ib (bname (body_at h a)) else body_at h b) by (intro b; now apply set_inertia_body).
      assert (SL : length (hNodes (fst s1)) = length (hNodes h)) by (cbn; apply upd_length).
      assert (GK1 : gok s1). { apply (gok_setbody s s1); auto; try (now split). intro b. rewrite SB. destruct (Nat.eqb_spec a b) as [<-|]; auto. }
      destruct GK1 as (G1 & CF1).
      destruct (rm_hit_cuts s1 G1 CF1 F t a e t1 l1 l2) as (s' & E' & C); auto; [apply (unf_ext h); auto|lia|now rewrite SA|].
      rewrite SA in E'. fold N in E'. fold K in E'. rewrite E' in HIT. unfold gbind. rewrite HIT. exists true, s'. split; [reflexivity|].
      rewrite Ej in C. destruct (cutt_cut s1 (conj G1 CF1) r t Tr) with (jn := jn) (a := a) (e := e) (t1 := t1) (s' := s') as (C1 & C2); auto.
      { apply (unf_ext h); auto. }
      { intro z. rewrite Tc. split; [apply conn_ext; auto|apply conn_ext; auto]. }
      split; [apply (cut_setbody r jn s s1 s'); auto|]. split; [apply (gok_cut s1 s' r jn); [exact (conj G1 CF1)|exact Hr|exact (names_cut s1 (conj G1 CF1) _ _ _ _ _ C)|exact C1]|]. split.
      * split; [apply (ct_jnts _ _ _ _ _ _ C)|]. split; [rewrite (ct_len _ _ _ _ _ _ C); auto|]. intros y Hy. rewrite (ct_arcs _ _ _ _ _ _ C), (ct_bodyat _ _ _ _ _ _ C), SB, !SA.
        assert (Ny : a <> y) by (intro; subst; auto). rewrite (proj2 (Nat.eqb_neq a y)) by auto. rewrite (proj2 (Nat.eqb_neq y a)) by auto.
        rewrite (proj2 (inb_false _ _)); auto.
      * assert (BK : forall b, In b (gNodes (snd s')) -> (exists e2, In e2 (arcs_at h b) /\ ajn e2 = jn) -> b = a).
        { intros b Hb (e2 & H2 & Q2). rewrite (ct_nodes _ _ _ _ _ _ C) in Hb. apply filter_In in Hb as (Vb & Kb). apply negb_true_iff in Kb. apply inb_false in Kb.
          destruct (Nat.eq_dec b a) as [|Nb]; auto. exfalso. destruct (gk_link _ G a b e e2) as (Z & _); auto; [congruence|]. apply Kb. rewrite <- Z, A3. apply groot_in. }
        split; [|intros l Nl Hl b Hb; split].
        2:{ intro W. apply BK in W; auto. subst b. rewrite (ct_bodyat _ _ _ _ _ _ C), SB, Nat.eqb_refl. cbn [binertia]. unfold Ib. cbn [rbiadd pttransI imass]. rewrite Eb. f_equal.
            rewrite (msn_mass s (conj G CF) pos t1 (Some a) jn F c A4 SK); auto; [|lia]. apply lsum_perm. apply NoDup_Permutation; auto. intro y. rewrite Hl. symmetry. apply BT. }
        2:{ intro H2. rewrite (ct_bodyat _ _ _ _ _ _ C), SB. destruct (Nat.eqb_spec a b) as [<-|]; auto. exfalso. apply (H2 e A2 Ej). }
        intros qn P PL PR GR PN l Nl Hl b Hb.
        assert (Hb1 := Hb). rewrite (ct_nodes _ _ _ _ _ _ C) in Hb1. apply filter_In in Hb1 as (Vb & Kb). apply negb_true_iff in Kb. apply inb_false in Kb.
        assert (BB : body_at (fst s') b = if a =? b then mkBody Ib (bname (body_at h a)) else body_at h b) by (rewrite (ct_bodyat _ _ _ _ _ _ C); apply SB).
        split; [rewrite BB; destruct (Nat.eqb_spec a b) as [<-|]; auto|]. split.
        -- intros (e2 & H2 & Q2). assert (b = a).
           { destruct (Nat.eq_dec b a) as [|Nb]; auto. exfalso. destruct (gk_link _ G a b e e2) as (Z & _); auto; [congruence|]. apply Kb. rewrite <- Z, A3. apply groot_in. }
           subst b. rewrite BB, Nat.eqb_refl. cbn [binertia]. unfold Ib. rewrite Eb. f_equal.
           assert (Ca : conn h r a) by (apply Tc; auto). assert (Ra := PR a Ca).
           assert (JB : forall n, joint_behind h r jn n <-> In n (jn :: gjoints t1)) by (intro n; exact (joint_behind_tree s (conj G CF) r t Tr Tu Tn Tc Tv jn a e t1 n Te Ej)).
           assert (Xq : x = qn jn). { assert (Z : mfind pos jn = Some (qn jn)) by (apply PN, JB; now left). congruence. }
           assert (Vc : mergeSubNodes F h (groot t1) (ajn e) pos = Ok (ptdualI (aX e') (isum (fun b => pttransI (ptmul (P b) (ptinv (P (groot t1)))) (binertia (body_at h b))) (gnodes t1)))).
           { apply (msn_value s (conj G CF) pos r qn P PL PR GR Hr t1 a e e' F); auto; try congruence; [lia| |].
             - intros y Hy. apply Tc. auto.
             - intros b e3 t3 E3. assert (Z : mfind pos (ajn e3) = Some (qn (ajn e3))) by (apply PN, JB; right; apply gjoints_edge; eauto). split; auto.
               destruct (M1 b e3 t3 E3) as (x' & X1 & X2). congruence. }
           rewrite Ej, M2 in Vc. injection Vc as Vc. rewrite Vc.
           assert (Ck : conn h r (aNext e)) by (apply rt_trans with a; auto; apply rt_step; exists e; auto). assert (Rk := PR _ Ck).
           destruct (PL a e e' Ca A2) as (X' & EX' & EQ); auto. rewrite Ej, <- Xq, EX in EX'. injection EX' as <-.
           assert (R1 : rigid (aX e')) by (apply (GR (aNext e) e'); auto; eapply gk_next; eauto).
           assert (EQ2 : ptmul X (aX e) = ptmul (aX e') (ptmul (P (aNext e)) (ptinv (P a)))).
           { rewrite ptmul_assoc, EQ, <- ptmul_assoc, ptinv_r by auto. now rewrite ptmul_id_r. }
           rewrite EQ2. set (Y := ptmul (P (aNext e)) (ptinv (P a))). assert (RY : rigid Y) by (apply rigid_mul; auto; now apply rigid_inv).
           rewrite pttransI_mul by auto. rewrite ptdualI_transI by auto. rewrite <- (pttransI_mul (ptinv (aX e')) (aX e')) by (auto; now apply rigid_inv).
           rewrite ptinv_l, pttransI_id by auto. rewrite <- isum_trans by auto.
           rewrite <- (isum_perm _ (gnodes t1) l). 2:{ apply NoDup_Permutation; auto. intro y. rewrite Hl. symmetry. apply BT. }
           apply isum_ext. intros b Hb2. unfold Y.
           assert (Cb : conn h r b) by (apply Tc; auto). assert (Rb := PR _ Cb).
           rewrite A3. assert (Rg : rigid (P (groot t1))) by (rewrite <- A3; auto).
           assert (Rgi := rigid_inv _ Rg). assert (Rai := rigid_inv _ Ra).
           rewrite <- pttransI_mul by (apply rigid_mul; auto). f_equal.
           rewrite <- ptmul_assoc. f_equal. rewrite ptmul_assoc, ptinv_l by auto. now rewrite ptmul_id_l.
        -- intro H2. rewrite BB. destruct (Nat.eqb_spec a b) as [<-|]; auto. exfalso. apply (H2 e A2 Ej).
    + right. rewrite M2 in HIT. cbn [bind] in HIT. split; [|unfold gbind; rewrite HIT; eexists; reflexivity]. intro A. apply ALL in A as (_ & A). auto.
Qed.
Lemma merge_bodies root fuel : mfind (gBody (snd s)) root = Some r -> length (gNodes (snd s)) <= fuel ->
  (merge_pos_ok s r jn pos /\ exists s', mergeSubBodies fuel root jn pos s = GRet tt s' /\ cut r jn s s' /\ gok s' /\ others_same s s' /\
     (forall qn P, placement s r qn P -> (forall a, conn h r a -> rigid (P a)) -> graph_rigid s ->
       (forall n, joint_behind h r jn n -> mfind pos n = Some (qn n)) -> merged s s' r jn P) /\ merged_mass s s' r jn) \/
  (~ merge_pos_ok s r jn pos /\ exists x, mergeSubBodies fuel root jn pos s = GExc x s).
Proof.
  intros Fr Hf. assert (EQ : mergeSubBodies fuel root jn pos s = gbind (findMergeSubNodes fuel fuel r (gRoot (snd s)) jn pos) (fun _ => gret tt) s).
  { unfold mergeSubBodies, gbind at 1, glift, mat_. now rewrite Fr. }
  rewrite EQ. unfold gbind. destruct (merge_runs fuel fuel Hf Hf) as [(Q & b & s' & E & X)|(Q & x & E)]; rewrite E.
  - left. split; auto. exists s'. auto.
  - right. split; auto. exists x. reflexivity.
Qed.
End Merge.

(** *** Connected bodies after a cut, and the total mass. *)
Lemma not_behind_conn_no s r jn x : gok s -> In r (gNodes (snd s)) -> conn (fst s) r x -> ~ behind (fst s) r jn x -> conn_no (fst s) jn r x.
Proof.
  intros (G & CF) Hr Cx NB. destruct (graph_unfolding s r G CF Hr) as (t & Tr & Tu & Th & Tn & Tc & Tv). rewrite <- Tr. apply (tree_conn_no (fst s) jn t None Tu); [now apply Tc|].
  intros a e t1 E Q H. apply NB. now apply (behind_tree s (conj G CF) r t Tr Tu Tn Tc Tv jn a e t1).
Qed.
Lemma cut_conn s s' r jn x : gok s -> In r (gNodes (snd s)) -> cut r jn s s' -> (conn (fst s') r x <-> conn (fst s) r x /\ ~ behind (fst s) r jn x).
Proof.
  intros GK Hr C. assert (Hr' := cut_keeps_root _ _ _ _ C Hr). destruct C as [_ (keep & C2 & C3 & C4) _ _].
  assert (IV : forall y, conn (fst s) r y -> In y (gNodes (snd s))) by (intros y Cy; exact (proj2 (conn_sym' s r y (proj1 GK) Hr Cy))).
  assert (IN : forall a, In a (gNodes (snd s')) <-> In a (gNodes (snd s)) /\ keep a = true) by (intro a; rewrite C3; apply filter_In). split.
  - intro Cx. apply clos_rt_rtn1 in Cx. enough (X : conn (fst s) r x /\ In x (gNodes (snd s'))). { destruct X as (X & Y). split; auto. apply IN in Y as (Y1 & Y2). now apply C2. }
    induction Cx as [|y z (e & A & B) _ (I1 & I2)]; [split; auto; apply rt_refl|]. rewrite C4 in A by auto. apply filter_In in A as (A & A').
    assert (Cz : conn (fst s) r z) by (apply rt_trans with y; auto; apply rt_step; exists e; auto). split; auto. apply IN. rewrite B in A'. auto.
  - intros (Cx & NB). apply not_behind_conn_no in NB; auto. clear Cx. apply clos_rt_rtn1 in NB. induction NB as [|y z (e & A & B & Q) Cy IH]; [apply rt_refl|].
    assert (Cn : conn_no (fst s) jn r y) by (now apply clos_rtn1_rt). assert (Cz : conn_no (fst s) jn r z) by (apply rt_trans with y; auto; apply rt_step; exists e; auto).
    assert (K : forall w, conn_no (fst s) jn r w -> In w (gNodes (snd s)) /\ keep w = true).
    { intros w Cw. assert (V := IV w (conn_no_conn _ _ _ _ Cw)). split; auto. apply C2; auto. intros (_ & N). auto. }
    apply rt_trans with y; auto. apply rt_step. exists e. split; auto. rewrite C4 by (apply IN; auto). apply filter_In. split; auto. rewrite B. apply K. auto.
Qed.
Lemma lsum_app {A} (f : A -> R) l l' : lsum f (l ++ l') = (lsum f l + lsum f l')%R.
Proof. unfold lsum. induction l as [|a l IH]; cbn; [ring|]. rewrite IH. ring. Qed.
Lemma has_link_dec (h : Heap) jn b : (exists e, In e (arcs_at h b) /\ ajn e = jn) \/ (forall e, In e (arcs_at h b) -> ajn e <> jn).
Proof.
  induction (arcs_at h b) as [|e l [(e1 & A & B)|IH]].
  - right. intros e [].
  - left. exists e1. split; auto. now right.
  - destruct (string_dec (ajn e) jn) as [Q|Q]; [left; exists e; split; auto; now left|right]. intros e1 [<-|H]; auto.
Qed.
Lemma merge_keeps_mass s s' r jn l l' : gok s -> In r (gNodes (snd s)) -> cut r jn s s' -> merged_mass s s' r jn ->
  NoDup l -> (forall b, In b l <-> conn (fst s) r b) -> NoDup l' -> (forall b, In b l' <-> conn (fst s') r b) ->
  lsum (fun b => imass (binertia (body_at (fst s') b))) l' = lsum (fun b => imass (binertia (body_at (fst s) b))) l.
Proof.
  intros GK Hr C MM Nl Hl Nl' Hl'. destruct (GK) as (G & CF). destruct (graph_unfolding s r G CF Hr) as (t & Tr & Tu & Th & Tn & Tc & Tv).
  assert (KV : forall b, In b l' -> In b (gNodes (snd s'))).
  { intros b Hb. apply Hl' in Hb. apply (cut_conn s s' r jn b GK Hr C) in Hb as (X & Y). destruct C as [_ (keep & C2 & C3 & _) _ _]. rewrite C3. apply filter_In.
    assert (V : In b (gNodes (snd s))) by (exact (proj2 (conn_sym' s r b G Hr X))). split; auto. apply C2; auto. }
  destruct (in_dec string_dec jn (gjoints t)) as [Hj|Hj].
  - apply gjoints_edge in Hj as (a & e & t1 & E & Q). destruct (tedge_unf _ _ _ Tu _ _ _ E) as (A1 & A2 & A3 & A4 & A5 & A6). destruct (tedge_nodup _ Tn _ _ _ E) as (N1 & Na).
    assert (BT := fun x => behind_tree s (conj G CF) r t Tr Tu Tn Tc Tv jn a e t1 x E Q).
    assert (La : In a l'). { apply Hl', (cut_conn s s' r jn a GK Hr C). split; [now apply Tc|]. rewrite BT. auto. }
    destruct (in_split _ _ La) as (l1 & l2 & El).
    assert (PE : Permutation l (l' ++ gnodes t1)).
    { apply NoDup_Permutation; auto.
      - apply NoDup_app_intro; auto. intros x X1 X2. apply Hl', (cut_conn s s' r jn x GK Hr C) in X1 as (_ & X1). apply X1. now apply BT.
      - intro x. rewrite Hl, in_app_iff, Hl', (cut_conn s s' r jn x GK Hr C), <- BT. split; [|intros [X|(X & _)]; [tauto|auto]].
        intro X. destruct (in_dec Nat.eq_dec x (gnodes t1)) as [Y|Y]; [right; now apply BT|left; split; auto; now rewrite BT]. }
    rewrite (lsum_perm _ _ _ PE), lsum_app. rewrite El. rewrite !lsum_app. unfold lsum at 2 4. cbn [fold_right]. fold (lsum (fun b => imass (binertia (body_at (fst s') b))) l2) (lsum (fun b => imass (binertia (body_at (fst s) b))) l2).
    destruct (MM (gnodes t1) N1 (fun x => iff_sym (BT x)) a (KV a La)) as (M1 & _). rewrite M1 by (exists e; auto).
    assert (OT : forall b, In b l' -> b <> a -> imass (binertia (body_at (fst s') b)) = imass (binertia (body_at (fst s) b))).
    { intros b Hb Nb. apply (proj2 (MM (gnodes t1) N1 (fun x => iff_sym (BT x)) b (KV b Hb))). intros e2 H2 Q2. apply Hl' in Hb. apply (cut_conn s s' r jn b GK Hr C) in Hb as (X & Y).
      destruct (gk_link _ G a b e e2) as (Z & _); auto; [apply Tv; now apply Tc|congruence|]. apply Y. apply BT. rewrite <- Z, A3. apply groot_in. }
    rewrite El in Nl'. assert (NN := NoDup_remove_2 _ _ _ Nl').
    rewrite (lsum_ext (fun b => imass (binertia (body_at (fst s') b))) (fun b => imass (binertia (body_at (fst s) b))) l1).
    2:{ intros b Hb. apply OT; [rewrite El; apply in_or_app; now left|]. intro; subst b. apply NN. apply in_or_app. now left. }
    rewrite (lsum_ext (fun b => imass (binertia (body_at (fst s') b))) (fun b => imass (binertia (body_at (fst s) b))) l2).
    2:{ intros b Hb. apply OT; [rewrite El; apply in_or_app; right; now right|]. intro; subst b. apply NN. apply in_or_app. now right. }
    ring.
  - assert (NB := fun x => behind_none s r t Tr Tu Tc jn x Hj).
    assert (PE : Permutation l l'). { apply NoDup_Permutation; auto. intro x. rewrite Hl, Hl', (cut_conn s s' r jn x GK Hr C). split; [|tauto]. auto. }
    rewrite (lsum_perm _ _ _ PE). apply lsum_ext. intros b Hb. destruct (MM [] (NoDup_nil _) (fun x => conj (fun f : In x [] => match f with end) (fun B => NB x B)) b (KV b Hb)) as (M1 & M2).
    destruct (has_link_dec (fst s) jn b) as [W|W]; [|auto]. rewrite M1 by auto. unfold lsum. cbn. ring.
Qed.
