(** The operations that build a graph keep it consistent and without cycles. *)
From Coq Require Import Reals String ZArith Bool Arith List Lia Relations.
From Verif Require Import Res ResP SMap Vec Mat Sva JointM MultiBodyM KinM GraphM Spec SpecGraph SpecGraphOp GraphP GraphWalkP.
Import ListNotations.
Open Scope R_scope.
Local Open Scope nat_scope.

Lemma wn_of_ng s : names_ok_g s -> wnames s.
Proof.
  intros [A B C D E F]. constructor; auto.
  - intros n p H. apply D in H as (H1 & H2). split; auto. split; auto. unfold joint_names. rewrite <- H2.
    apply (in_map (fun p => jname (joint_at (fst s) p))). auto.
  - intros p Hp. split; auto. assert (X : mfind (gJoint (snd s)) (jname (joint_at (fst s) p)) = Some p) by (apply D; auto). congruence.
Qed.
Lemma ng_of_wn s : wnames s ->
  (forall n p, mfind (gJoint (snd s)) n = Some p <-> In p (gJoints (snd s)) /\ jname (joint_at (fst s) p) = n) -> names_ok_g s.
Proof. intros [A B C D E F] H. constructor; auto. intros p Hp. apply F; auto. Qed.


(** *** addBody. *)
Lemma arcs_at_alloc h nd a : nArcs nd = [] -> arcs_at (mkHeap (hNodes h ++ [nd]) (hJoints h)) a = arcs_at h a.
Proof.
  intro E. unfold arcs_at. cbn [hNodes]. destruct (Nat.lt_ge_cases a (length (hNodes h))) as [L|L].
  - now rewrite nth_error_app1.
  - rewrite nth_error_app2 by auto. rewrite (proj2 (nth_error_None _ _) L). destruct (a - length (hNodes h)) as [|k]; cbn; auto. now destruct k.
Qed.
Lemma gwalk_ext (R1 R2 : nat -> nat -> Prop) w : (forall a b, In a w -> In b w -> R1 a b -> R2 a b) -> gwalk R1 w -> gwalk R2 w.
Proof.
  induction w as [|a w IH]; intros H W; [exact I|]. destruct w as [|b w]; [exact I|]. destruct W as (W1 & W2). split.
  - apply H; auto; cbn; auto.
  - apply IH; auto. intros x y Hx Hy. apply H; now right.
Qed.
Lemma last_in (c : list nat) d : c <> [] -> In (last c d) c.
Proof. intro H. destruct c as [|a c]; [easy|]. rewrite (app_removelast_last d H) at 2. apply in_app_iff. right. now left. Qed.
Lemma hd_in (c : list nat) d : c <> [] -> In (hd d c) c.
Proof. destruct c; [easy|now left]. Qed.
Lemma cycle_ext (R1 R2 : nat -> nat -> Prop) c : (forall a b, In a c -> In b c -> R1 a b -> R2 a b) -> cycle R1 c -> cycle R2 c.
Proof.
  intros H (C1 & C2 & C3 & C4). split; auto. split; auto. split; [eapply gwalk_ext; eauto|]. apply H; auto.
  - apply last_in. intros ->. cbn in C1. lia.
  - apply hd_in. intros ->. cbn in C1. lia.
Qed.
(** Same links: still no cycle. *)
Lemma cf_same h g h' g' : cycle_free h g -> (forall a, In a (gNodes g') -> arcs_at h' a = [] \/ In a (gNodes g) /\ arcs_at h' a = arcs_at h a) ->
  cycle_free h' g'.
Proof.
  intros [A B C] H. constructor.
  - intros a Ha (e & He & E). destruct (H a Ha) as [E1|(E1 & E2)]; [rewrite E1 in He; destruct He|]. rewrite E2 in He. apply (A a E1). exists e. auto.
  - intros a Ha. destruct (H a Ha) as [->|(E1 & ->)]; auto. constructor.
  - intros c Hc Cy.
    assert (In' : forall a, In a c -> In a (gNodes g) /\ arcs_at h' a = arcs_at h a).
    { intros a Ha. destruct (H a (Hc a Ha)) as [E|E]; auto. exfalso. destruct Cy as (C1 & C2 & C3 & C4).
      apply in_split in Ha as (l1 & l2 & ->). destruct l2 as [|b l2].
      - rewrite last_last in C4. destruct C4 as (e & He & _). rewrite E in He. destruct He.
      - apply gwalk_app in C3. destruct C3 as (_ & (e & He & _) & _). rewrite E in He. destruct He. }
    apply (C c); [intros a Ha; apply In'; auto|]. eapply cycle_ext; [|exact Cy]. intros a b Ha _ (e & He & E). exists e. destruct (In' a Ha) as (_ & <-). auto.
Qed.
Lemma gk_grow s s' : graph_ok s -> names_ok_g s' -> (forall a, arcs_at (fst s') a = arcs_at (fst s) a) ->
  (forall a, In a (gNodes (snd s)) -> In a (gNodes (snd s'))) ->
  (forall a, In a (gNodes (snd s')) -> In a (gNodes (snd s)) \/ arcs_at (fst s) a = []) ->
  (forall n, In n (joint_names s) -> In n (joint_names s')) -> graph_ok s'.
Proof.
  intros [A B C D E F] N Ar V1 V2 J.
  assert (V : forall a e, In a (gNodes (snd s')) -> In e (arcs_at (fst s) a) -> In a (gNodes (snd s))).
  { intros a e Ha He. destruct (V2 a Ha) as [|E0]; auto. rewrite E0 in He. destruct He. }
  constructor; auto.
  - intros a e Ha He. rewrite Ar in He. eauto.
  - intros a e Ha He. rewrite Ar in He. eauto.
  - intros a e Ha He. rewrite Ar in *. eauto.
  - intros a Ha. rewrite Ar. destruct (V2 a Ha) as [| ->]; auto. constructor.
  - intros a b e e' Ha Hb Nab He He'. rewrite Ar in *. eauto.
Qed.
Lemma gok_addBody B s s' : gok s -> addBody B s = GRet tt s' -> gok s'.
Proof.
  intros (G & CF) H. pose proof (wn_addBody B s (wn_of_ng _ (gk_names _ G))) as W. rewrite H in W. destruct W as (W & NE).
  destruct s as (h & g). unfold addBody in H. destruct (mfind (gBody g) (bname B)) eqn:F; [discriminate|]. injection H as <-.
  assert (AR : forall a, arcs_at (mkHeap (hNodes h ++ [mkNode B []]) (hJoints h)) a = arcs_at h a) by (intro a; now apply arcs_at_alloc).
  assert (Fresh : arcs_at h (length (hNodes h)) = []) by (unfold arcs_at; now rewrite (proj2 (nth_error_None _ _) (le_n _))).
  split.
  - apply (gk_grow (h, g)); auto; cbn [fst snd gNodes].
    + apply ng_of_wn; auto. cbn [fst snd gJoint gJoints]. apply (ng_joint _ (gk_names _ G)).
    + intros a Ha. apply in_app_iff; auto.
    + intros a Ha. apply in_app_iff in Ha as [Ha|[<-|[]]]; auto.
  - apply (cf_same h g); auto. cbn [fst snd gNodes]. intros a Ha. apply in_app_iff in Ha as [Ha|[<-|[]]]; rewrite AR; auto.
Qed.
Lemma gok_addJoint J s s' : gok s -> addJoint J s = GRet tt s' -> gok s'.
Proof.
  intros (G & CF) H. pose proof (wn_addJoint J s (wn_of_ng _ (gk_names _ G))) as W. rewrite H in W. destruct W as (W & NE).
  destruct s as (h & g). unfold addJoint in H. destruct (mfind (gJoint g) (jname J)) eqn:F; [discriminate|]. injection H as <-.
  pose proof (ng_jnt _ (gk_names _ G)) as JL. cbn [fst snd] in JL.
  assert (JA : forall p, In p (gJoints g) -> joint_at (mkHeap (hNodes h) (hJoints h ++ [J])) p = joint_at h p).
  { intros p Hp. unfold joint_at. cbn [hJoints]. apply app_nth1. auto. }
  split.
  - apply (gk_grow (h, g)); auto; cbn [fst snd gNodes].
    + apply ng_of_wn; auto. cbn [fst snd gJoint gJoints]. intros n p. destruct (string_dec n (jname J)) as [->|N].
      * rewrite mfind_mset_eq, in_app_iff. split.
        -- intro E. injection E as <-. rewrite joint_at_new. split; [right; now left|reflexivity].
        -- intros ([Hp|[<-|[]]] & E); auto. rewrite JA in E by auto. exfalso.
           assert (X : mfind (gJoint g) (jname J) = Some p) by (apply (ng_joint _ (gk_names _ G)); auto). congruence.
      * rewrite mfind_mset_neq by auto. rewrite (ng_joint _ (gk_names _ G)). cbn [fst snd]. rewrite in_app_iff. split; intros (H1 & H2).
        -- split; auto. rewrite JA; auto.
        -- destruct H1 as [H1|[<-|[]]]; [split; auto; rewrite JA in H2; auto|]. rewrite joint_at_new in H2. congruence.
    + intros n Hn. unfold joint_names in *. cbn [fst snd gJoints] in *. rewrite map_app. apply in_app_iff. left.
      apply in_map_iff in Hn as (p & <- & Hp). apply in_map_iff. exists p. split; auto. now rewrite JA.
  - apply (cf_same h g); auto.
Qed.

(** *** linkBodies. *)
Definition linked (s : GSt) (jn : string) : Prop := exists a e, In a (gNodes (snd s)) /\ In e (arcs_at (fst s) a) /\ ajn e = jn.
Lemma arcs_at_push a e h h' : push_arc a e h = Ok h' -> forall x, arcs_at h' x = arcs_at h x ++ (if (x =? a) then [e] else []).
Proof.
  unfold push_arc. intros H x. apply bind_Ok in H as (nd & E & H). apply get_Ok in E. destruct (node_at _ _ _ E) as (_ & E2 & L).
  apply set_node_spec in H as (_ & ->). rewrite arcs_at_upd. rewrite (Nat.eqb_sym x a). rewrite (proj2 (Nat.ltb_lt _ _) L), andb_true_r. cbn [nArcs with_arcs].
  destruct (Nat.eqb_spec a x) as [<-|]; [now rewrite E2|now rewrite app_nil_r].
Qed.
Lemma body_at_push a e h h' : push_arc a e h = Ok h' -> hJoints h' = hJoints h /\ length (hNodes h') = length (hNodes h) /\ forall x, body_at h' x = body_at h x.
Proof.
  unfold push_arc. intros H. apply bind_Ok in H as (nd & E & H). apply get_Ok in E. destruct (node_at _ _ _ E) as (E1 & _ & L).
  apply set_node_spec in H as (_ & ->). split; [reflexivity|]. split; [cbn; apply upd_length|]. intro x. rewrite body_at_upd. cbn [nBody with_arcs].
  destruct (Nat.eqb_spec a x) as [<-|]; cbn [andb]; auto. destruct (a <? length (hNodes h)); auto.
Qed.
Lemma gwalk_conn h w a : gwalk (adj h) (a :: w) -> forall x, In x (a :: w) -> conn h a x.
Proof.
  revert a. induction w as [|b w IH]; intros a W x [<-|Hx]; try apply rt_refl; [destruct Hx|].
  destruct W as (W1 & W2). eapply rt_trans; [apply rt_step; exact W1|]. apply IH; auto.
Qed.
Lemma split_pair (R : nat -> nat -> Prop) (P : nat -> nat -> bool) w : gwalk R w ->
  gwalk (fun a b => P a b = false /\ R a b) w \/ exists l1 x y l2, w = l1 ++ x :: y :: l2 /\ P x y = true.
Proof.
  intros W. induction w as [|a w IH]; [left; exact I|]. destruct w as [|b w]; [left; exact I|]. destruct W as (W1 & W2).
  destruct (P a b) eqn:E.
  - right. exists [], a, b, w. auto.
  - destruct (IH W2) as [H|(l1 & x & y & l2 & H & H')].
    + left. split; auto.
    + right. exists (a :: l1), x, y, l2. split; auto. cbn. now rewrite H.
Qed.
(** Joining two bodies that were not connected makes no cycle. *)
Lemma cycle_join (h : Heap) (A' : nat -> nat -> Prop) n1 n2 c :
  (forall a b, A' a b -> adj h a b \/ a = n1 /\ b = n2 \/ a = n2 /\ b = n1) ->
  ~ conn h n1 n2 -> ~ conn h n2 n1 -> cycle A' c -> cycle (adj h) c.
Proof.
  intros HA C1 C2 (L & ND & W & CL).
  set (P := fun a b => ((a =? n1) && (b =? n2)) || ((a =? n2) && (b =? n1))).
  assert (PF : forall a b, P a b = false -> A' a b -> adj h a b).
  { intros a b E H. destruct (HA a b H) as [|[(-> & ->)|(-> & ->)]]; auto; unfold P in E; rewrite !Nat.eqb_refl in E; cbn in E; [discriminate|]. now rewrite orb_true_r in E. }
  assert (PT : forall a b, P a b = true -> ~ conn h a b /\ ~ conn h b a).
  { intros a b E. apply orb_prop in E as [E|E]; apply andb_prop in E as (E1 & E2); apply Nat.eqb_eq in E1, E2; subst; auto. }
  assert (NE : n1 <> n2) by (intros ->; apply C1, rt_refl).
  assert (PS : forall a b a' b', P a b = true -> P a' b' = true -> a = a' /\ b = b' \/ a = b' /\ b = a').
  { intros a b a' b' E E'. apply orb_prop in E as [E|E], E' as [E'|E']; apply andb_prop in E as (? & ?), E' as (? & ?);
      repeat match goal with H : (_ =? _) = true |- _ => apply Nat.eqb_eq in H end; subst; auto. }
  assert (Old : forall w x y, gwalk A' w -> P x y = true -> ~ (In x w /\ In y w) -> gwalk (adj h) w).
  { intros w x y Hw Pxy N. eapply gwalk_ext; [|exact Hw]. intros a b Ha Hb Hab. destruct (P a b) eqn:E; [|apply PF; auto]. exfalso. apply N.
    destruct (PS _ _ _ _ Pxy E) as [(-> & ->)|(-> & ->)]; auto. }
  destruct (split_pair A' P c W) as [H|(l1 & x & y & l2 & Ec & Pxy)].
  - assert (W' : gwalk (adj h) c) by (eapply gwalk_weaken; [|exact H]; cbn; intros a b (? & ?); apply PF; auto).
    destruct (P (last c 0) (hd 0 c)) eqn:E.
    + exfalso. destruct c as [|a c]; [cbn in L; lia|]. apply (PT _ _ E). cbn [hd]. apply (gwalk_conn h c a W'). apply last_in. discriminate.
    + split; auto.
  - exfalso. subst c.
    assert (ND1 : ~ In y (l1 ++ [x])). { intro H. rewrite (app_assoc l1 [x] (y :: l2) : l1 ++ x :: y :: l2 = _) in ND. apply (NoDup_app_disj _ _ ND y H). now left. }
    assert (ND2 : ~ In x (y :: l2)). { intro H. apply NoDup_app_right in ND. inversion ND; contradiction. }
    destruct (gwalk_app _ _ _ _ W) as (W1 & W2). apply gwalk_cons in W2.
    assert (W1' : gwalk (adj h) (l1 ++ [x])) by (eapply (Old _ x y); eauto; tauto).
    assert (W2' : gwalk (adj h) (y :: l2)) by (eapply (Old _ x y); eauto; tauto).
    set (z := last (l1 ++ x :: y :: l2) 0) in *. set (w := hd 0 (l1 ++ x :: y :: l2)) in *.
    assert (Hz : In z (y :: l2)).
    { unfold z. rewrite (last_app_cons l1 x (y :: l2) 0 0). change (last (x :: y :: l2) 0) with (last (y :: l2) 0). apply last_in. discriminate. }
    assert (Hw : In w (l1 ++ [x])) by (unfold w; destruct l1; cbn; auto).
    destruct (P z w) eqn:E.
    + destruct (PS _ _ _ _ E Pxy) as [(E1 & E2)|(E1 & E2)]; [rewrite E1 in Hz; contradiction|].
      (* w = x is the first and z = y is the last: the cycle has two bodies *)
      destruct l1 as [|a l1].
      * destruct l2 as [|b l2]; [cbn in L; lia|]. assert (N2 : NoDup (y :: b :: l2)) by (apply NoDup_cons_iff in ND; apply ND).
        apply NoDup_cons_iff in N2 as (N2 & _). apply N2. rewrite <- E1. unfold z. cbn [app]. change (last (x :: y :: b :: l2) 0) with (last (b :: l2) 0). apply last_in. discriminate.
      * unfold w in E2. cbn [app hd] in E2. subst a. cbn [app] in ND. apply NoDup_cons_iff in ND as (N2 & _). apply N2. apply in_app_iff. right. now left.
    + apply PF in E; auto. apply (PT _ _ Pxy). eapply rt_trans; [|eapply rt_trans; [apply rt_step; exact E|]].
      * apply (gwalk_conn h l2 y W2' z Hz).
      * unfold w. destruct l1 as [|a l1]; [apply rt_refl|]. cbn [app hd]. apply (gwalk_conn h (l1 ++ [x]) a W1'). cbn. right. apply in_app_iff. right. now left.
Qed.
Lemma conn_sym' s a b : graph_ok s -> In a (gNodes (snd s)) -> conn (fst s) a b -> conn (fst s) b a /\ In b (gNodes (snd s)).
Proof.
  intros G Va C. apply clos_rt_rtn1 in C. induction C as [|y z A C (I1 & I2)]; [split; [apply rt_refl|auto]|].
  destruct (graph_sym s G y z I2 A) as (V & A'). split; auto. eapply rt_trans; [apply rt_step; exact A'|exact I1].
Qed.
Lemma negb_same b c : negb b = negb c -> b = c.
Proof. destruct b, c; auto. Qed.
Lemma set_fwd_fwd j b c : set_forward (set_forward j b) c = set_forward j c.
Proof.
  destruct j as [t S0 f p d nm mi mn mm mo]. unfold set_forward; cbn. f_equal.
  assert (E : map (svscale (-1)%R) (map (svscale (-1)%R) S0) = S0).
  { rewrite map_map. rewrite <- (map_id S0) at 2. apply map_ext. intro a. destruct a as [[x y z] [x' y' z']]. unfold svscale, vscale; cbn. repeat f_equal; ring. }
  destruct b, c, f; cbn; auto.
Qed.
(** What linkBodies does to the links. *)
Lemma link_effect b1 t1 b2 t2 jn d n1 n2 s s' : names_ok_g s -> mfind (gBody (snd s)) b1 = Some n1 -> mfind (gBody (snd s)) b2 = Some n2 -> n1 <> n2 ->
  linkBodies b1 t1 b2 t2 jn d s = GRet tt s' ->
  exists p j, mfind (gJoint (snd s)) jn = Some p /\ get (hJoints (fst s)) p = Ok j /\ jname j = jn /\ snd s' = snd s /\ hJoints (fst s') = hJoints (fst s) /\
    (forall x, body_at (fst s') x = body_at (fst s) x) /\
    forall x, arcs_at (fst s') x = arcs_at (fst s) x ++
      (if x =? n1 then [mkArc t1 (set_forward j (if d then jfwd j else negb (jfwd j))) n2]
       else if x =? n2 then [mkArc t2 (set_forward j (negb (if d then jfwd j else negb (jfwd j)))) n1] else []).
Proof.
  intros NG F1 F2 NN H. destruct s as (h & g). rewrite linkBodies_all in H. unfold gmod, link_all, mat_ in H. cbn [fst snd] in *. rewrite F1, F2 in H. cbn [bind] in H.
  destruct (mfind (gJoint g) jn) as [p|] eqn:FJ; cbn [bind] in H; [|discriminate].
  destruct (get (hJoints h) p) as [j| | |] eqn:EJ; cbn [bind] in H; try discriminate.
  set (f := if d then jfwd j else negb (jfwd j)) in *.
  set (e1 := mkArc t1 (set_forward j f) n2) in *. set (e2 := mkArc t2 (set_forward j (negb f)) n1) in *.
  destruct (push_arc n1 e1 h) as [h1| | |] eqn:P1; cbn [bind] in H; try discriminate.
  destruct (push_arc n2 e2 h1) as [h2| | |] eqn:P2; cbn [bind] in H; try discriminate. injection H as <-.
  exists p, j. split; auto. split; auto. apply (ng_joint _ NG) in FJ as (FJ1 & FJ2). cbn [fst snd] in *. split.
  { apply get_Ok in EJ. unfold joint_at in FJ2. now rewrite (nth_error_nth _ _ _ EJ) in FJ2. }
  destruct (body_at_push _ _ _ _ P1) as (Q1 & _ & Q2), (body_at_push _ _ _ _ P2) as (Q3 & _ & Q4). split; auto. split; [congruence|]. split; [intro x; now rewrite Q4|].
  intro x. rewrite (arcs_at_push _ _ _ _ P2), (arcs_at_push _ _ _ _ P1), <- app_assoc. f_equal.
  destruct (Nat.eqb_spec x n1) as [R1|], (Nat.eqb_spec x n2) as [R2|]; auto. congruence.
Qed.
Lemma graph_link b1 t1 b2 t2 jn d n1 n2 s s' : graph_ok s -> mfind (gBody (snd s)) b1 = Some n1 -> mfind (gBody (snd s)) b2 = Some n2 ->
  n1 <> n2 -> ~ linked s jn -> linkBodies b1 t1 b2 t2 jn d s = GRet tt s' -> graph_ok s'.
Proof.
  intros G F1 F2 NN NL H.
  pose proof (wn_link b1 t1 b2 t2 jn d s (wn_of_ng _ (gk_names _ G))) as W. rewrite H in W. destruct W as (W & NE).
  destruct (link_effect b1 t1 b2 t2 jn d n1 n2 s s' (gk_names _ G) F1 F2 NN H) as (p & j & FJ & EJ & JN & ES & HJ & _ & AR). clear H.
  destruct s as (h & g), s' as (h2 & g'). cbn [fst snd] in *. subst g'.
  set (f := if d then jfwd j else negb (jfwd j)) in *.
  set (e1 := mkArc t1 (set_forward j f) n2) in *. set (e2 := mkArc t2 (set_forward j (negb f)) n1) in *.
  assert (V1 : In n1 (gNodes g)) by (now apply (ng_body _ (gk_names _ G)) in F1).
  assert (V2 : In n2 (gNodes g)) by (now apply (ng_body _ (gk_names _ G)) in F2).
  apply (ng_joint _ (gk_names _ G)) in FJ as (FJ1 & FJ2). cbn [fst snd] in *.
  assert (A1 : ajn e1 = jn) by exact JN. assert (A2 : ajn e2 = jn) by exact JN.
  assert (JA : forall x, joint_at h2 x = joint_at h x) by (intro x; unfold joint_at; now rewrite HJ).
  assert (INA : forall x e, In e (arcs_at h2 x) <-> In e (arcs_at h x) \/ x = n1 /\ e = e1 \/ x = n2 /\ e = e2).
  { intros x e. rewrite AR, in_app_iff. destruct (Nat.eqb_spec x n1) as [Q1|N1], (Nat.eqb_spec x n2) as [Q2|N2]; cbn [In]; try congruence; intuition (subst; auto; try congruence). }
  assert (NOT : forall x e, In x (gNodes g) -> In e (arcs_at h x) -> ajn e <> jn). { intros x e Hx He E. apply NL. exists x, e. auto. }
  constructor; cbn [fst snd] in *.
  + apply ng_of_wn; auto. cbn [fst snd]. intros n q. rewrite JA. apply (ng_joint _ (gk_names _ G)).
  + intros a e Ha He. apply INA in He as [He|[(-> & ->)|(-> & ->)]]; auto. exact (gk_next _ G a e Ha He).
  + intros a e Ha He. unfold joint_names. cbn [fst snd]. rewrite (map_ext _ _ (fun x => f_equal jname (JA x))).
      apply INA in He as [He|[(-> & ->)|(-> & ->)]]; [exact (gk_joint _ G a e Ha He)| |]; rewrite ?A1, ?A2, <- FJ2; now apply (in_map (fun p => jname (joint_at h p))).
  + intros a e Ha He. apply INA in He as [He|[(-> & ->)|(-> & ->)]].
      * destruct (gk_pair _ G a e Ha He) as (e' & Q1 & Q2 & Q3). exists e'. split; auto. apply INA. auto.
      * exists e2. split; [apply INA; right; right; auto|]. split; [reflexivity|]. cbn [aJoint e1 e2]. rewrite set_fwd_fwd. reflexivity.
      * exists e1. split; [apply INA; right; left; auto|]. split; [reflexivity|]. cbn [aJoint e1 e2]. rewrite set_fwd_fwd. cbn [jfwd set_forward]. now rewrite negb_involutive.
  + intros a Ha. rewrite AR. destruct (Nat.eqb_spec a n1) as [->|N1]; [|destruct (Nat.eqb_spec a n2) as [->|N2]].
      * rewrite map_app. cbn [map]. apply NoDup_snoc; [apply (gk_once _ G); auto|]. intro Q. apply in_map_iff in Q as (e & Q1 & Q2). apply (NOT n1 e V1 Q2). congruence.
      * rewrite map_app. cbn [map]. apply NoDup_snoc; [apply (gk_once _ G); auto|]. intro Q. apply in_map_iff in Q as (e & Q1 & Q2). apply (NOT n2 e V2 Q2). congruence.
      * rewrite app_nil_r. apply (gk_once _ G); auto.
  + intros a b e e' Ha Hb Nab He He' EE. apply INA in He, He'.
      destruct He as [He|[(-> & ->)|(-> & ->)]], He' as [He'|[(-> & ->)|(-> & ->)]]; try contradiction.
      * exact (gk_link _ G a b e e' Ha Hb Nab He He' EE).
      * exfalso. apply (NOT a e Ha He). congruence.
      * exfalso. apply (NOT a e Ha He). congruence.
      * exfalso. apply (NOT b e' Hb He'). congruence.
      * split; reflexivity.
      * exfalso. apply (NOT b e' Hb He'). congruence.
      * split; reflexivity.
Qed.
Lemma gok_link b1 t1 b2 t2 jn d n1 n2 s s' : gok s -> mfind (gBody (snd s)) b1 = Some n1 -> mfind (gBody (snd s)) b2 = Some n2 ->
  ~ conn (fst s) n1 n2 -> ~ linked s jn -> linkBodies b1 t1 b2 t2 jn d s = GRet tt s' -> gok s'.
Proof.
  intros (G & CF) F1 F2 NC NL H. assert (NN : n1 <> n2) by (intros ->; apply NC, rt_refl).
  split; [exact (graph_link b1 t1 b2 t2 jn d n1 n2 s s' G F1 F2 NN NL H)|].
  pose proof (wn_link b1 t1 b2 t2 jn d s (wn_of_ng _ (gk_names _ G))) as W. rewrite H in W. destruct W as (W & NE).
  destruct (link_effect b1 t1 b2 t2 jn d n1 n2 s s' (gk_names _ G) F1 F2 NN H) as (p & j & FJ & EJ & JN & ES & HJ & _ & AR). clear H.
  destruct s as (h & g), s' as (h2 & g'). cbn [fst snd] in *. subst g'.
  set (f := if d then jfwd j else negb (jfwd j)) in *.
  set (e1 := mkArc t1 (set_forward j f) n2) in *. set (e2 := mkArc t2 (set_forward j (negb f)) n1) in *.
  assert (V1 : In n1 (gNodes g)) by (now apply (ng_body _ (gk_names _ G)) in F1).
  assert (V2 : In n2 (gNodes g)) by (now apply (ng_body _ (gk_names _ G)) in F2).
  apply (ng_joint _ (gk_names _ G)) in FJ as (FJ1 & FJ2). cbn [fst snd] in *.
  assert (A1 : ajn e1 = jn) by exact JN. assert (A2 : ajn e2 = jn) by exact JN.
  assert (JA : forall x, joint_at h2 x = joint_at h x) by (intro x; unfold joint_at; now rewrite HJ).
  assert (INA : forall x e, In e (arcs_at h2 x) <-> In e (arcs_at h x) \/ x = n1 /\ e = e1 \/ x = n2 /\ e = e2).
  { intros x e. rewrite AR, in_app_iff. destruct (Nat.eqb_spec x n1) as [Q1|N1], (Nat.eqb_spec x n2) as [Q2|N2]; cbn [In]; try congruence; intuition (subst; auto; try congruence). }
  assert (NOT : forall x e, In x (gNodes g) -> In e (arcs_at h x) -> ajn e <> jn). { intros x e Hx He E. apply NL. exists x, e. auto. }
  assert (NC2 : ~ conn h n2 n1). { intro C. apply NC. apply (conn_sym' (h, g)); auto. }
  cbn [fst snd].
    assert (ADJ : forall a b, adj h2 a b -> adj h a b \/ a = n1 /\ b = n2 \/ a = n2 /\ b = n1).
    { intros a b (e & He & <-). apply INA in He as [He|[(-> & ->)|(-> & ->)]]; auto. left. exists e. auto. }
    constructor.
    + intros a Ha A. destruct (ADJ _ _ A) as [A'|[(-> & E)|(-> & E)]]; [exact (cf_self _ _ CF a Ha A')| |]; congruence.
    + intros a Ha. rewrite AR. destruct (Nat.eqb_spec a n1) as [->|N1]; [|destruct (Nat.eqb_spec a n2) as [->|N2]].
      * rewrite map_app. cbn [map]. apply NoDup_snoc; [apply (cf_single _ _ CF); auto|]. intro Q. apply NC. apply in_map_iff in Q as (e & Q1 & Q2). apply rt_step. exists e. auto.
      * rewrite map_app. cbn [map]. apply NoDup_snoc; [apply (cf_single _ _ CF); auto|]. intro Q. apply NC2. apply in_map_iff in Q as (e & Q1 & Q2). apply rt_step. exists e. auto.
      * rewrite app_nil_r. apply (cf_single _ _ CF); auto.
    + intros c Hc Cy. apply (cf_cycle _ _ CF c Hc). eapply cycle_join; eauto.
Qed.
(** *** An empty graph. *)
Lemma gok_empty h r : gok (h, mkGraph r [] [] [] []).
Proof.
  split.
  - constructor; cbn; try contradiction; try tauto. constructor; cbn; try constructor; try discriminate; try tauto.
  - constructor; cbn; try contradiction. intros c H (L & _). destruct c as [|a c]; [cbn in L; lia|]. exact (H a (or_introl eq_refl)).
Qed.
Lemma gok_clear s s' : clear s = GRet tt s' -> gok s'.
Proof. unfold clear, gmod. destruct s as (h & g). cbn [fst snd]. destruct (for_each _ _ _); cbn [bind]; try discriminate. intro H. injection H as <-. apply gok_empty. Qed.
