(** Constructors and updates of the CoM Jacobian objects. *)
From Coq Require Import Reals String ZArith Bool Arith List Lia Lra.
From Verif Require Import Res ResP SMap Vec VecP Sva SvaP Mat JointM MultiBodyM KinM DynM JacM CoMM MomM Spec SpecDyn SpecJac SpecCoM
  JointP KinP KinPathP MbP TreeP DynP DynCP ConvP KinFinP SpecDeriv DerivP DerivTreeP JacP JacFinP JacFin2P JacBlkP CoMP CoMLoopP.
Import ListNotations.
Open Scope R_scope.

(** Loops writing every element of one or two lists. *)
Lemma for_fill {A} (F : nat -> A) (d : A) n (body : nat -> list A -> res (list A)) (l : list A) : length l = n ->
  (forall i l, (i < n)%nat -> length l = n -> body i l = set l i (F i)) ->
  for_up n body l = Ok (map F (seq 0 n)).
Proof.
  intros L B.
  destruct (for_up_inv (fun i s => length s = n /\ forall j, (j < i)%nat -> nth j s d = F j) body n l) as (s & E & Ls & P).
  - split; auto. intros; lia.
  - intros i s Hi (Ls & P). rewrite B, set_ok by (auto; lia). eexists. split; [reflexivity|]. rewrite upd_length. split; auto.
    intros j Hj. destruct (Nat.eq_dec i j) as [->|N]; [apply nth_upd_eq; lia|]. rewrite nth_upd_neq by auto. apply P. lia.
  - rewrite E. f_equal. apply (list_ext_nth _ _ d); [now rewrite map_length, seq_length|].
    intros j Hj. rewrite Ls in Hj. now rewrite nth_map_seq, P by auto.
Qed.
Lemma for_fill2 {A B} (F : nat -> A) (G : nat -> B) (d : A) (e : B) n (body : nat -> list A * list B -> res (list A * list B)) (s0 : list A * list B) :
  length (fst s0) = n -> length (snd s0) = n ->
  (forall i s, (i < n)%nat -> length (fst s) = n -> length (snd s) = n ->
     body i s = (a <- set (fst s) i (F i) ;; b <- set (snd s) i (G i) ;; Ok (a, b))) ->
  for_up n body s0 = Ok (map F (seq 0 n), map G (seq 0 n)).
Proof.
  intros L1 L2 ST.
  destruct (for_up_inv (fun i s => length (fst s) = n /\ length (snd s) = n /\ forall j, (j < i)%nat -> nth j (fst s) d = F j /\ nth j (snd s) e = G j) body n s0) as ((sa & sb) & E & La & Lb & P).
  - split; auto. split; auto. intros; lia.
  - intros i (sa & sb) Hi (La & Lb & P). rewrite ST by auto. cbn [fst snd] in *. rewrite !set_ok by lia. cbn [bind]. eexists. split; [reflexivity|].
    cbn [fst snd]. rewrite !upd_length. do 2 (split; auto).
    intros j Hj. destruct (Nat.eq_dec i j) as [->|N]; [rewrite !nth_upd_eq by lia; auto|]. rewrite !nth_upd_neq by auto. apply P. lia.
  - rewrite E. cbn [fst snd] in *. do 2 f_equal.
    + apply (list_ext_nth _ _ d); [now rewrite map_length, seq_length|]. intros j Hj. rewrite La in Hj. rewrite nth_map_seq by auto. apply P; auto.
    + apply (list_ext_nth _ _ e); [now rewrite map_length, seq_length|]. intros j Hj. rewrite Lb in Hj. rewrite nth_map_seq by auto. apply P; auto.
Qed.
Lemma for_sum {A} (add : A -> A -> A) (f : nat -> A) n (body : nat -> A -> res A) z (S : nat -> A) : S 0%nat = z ->
  (forall i, (i < n)%nat -> S (Datatypes.S i) = add (S i) (f i)) ->
  (forall i s, (i < n)%nat -> body i s = Ok (add s (f i))) -> for_up n body z = Ok (S n).
Proof.
  intros Z ST B. destruct (for_up_inv (fun i s => s = S i) body n z) as (s & E & ->); auto.
  intros i s Hi ->. rewrite B by auto. eexists. split; [reflexivity|]. now rewrite ST.
Qed.

Lemma get_body mb i : (i < nrBodies mb)%nat -> get (mb_bodies mb) i = Ok (nth i (mb_bodies mb) bd).
Proof. intro H. now apply get_nth. Qed.
Lemma total_mass_ok mb : total_mass mb = Ok (total_mass_of mb).
Proof.
  unfold total_mass, total_mass_of. apply (for_sum Rplus (mass_of mb) (nrBodies mb) _ 0 (fun n => rsum n (mass_of mb))); auto.
  intros i s Hi. now rewrite get_body by auto.
Qed.

Lemma upd_ok mb c : length (cj_coeff c) = nrBodies mb -> length (cj_com c) = nrBodies mb ->
  length (cj_weight c) = nrBodies mb -> total_mass_of mb <> 0 ->
  updateInertialParameters mb c = Ok (with_com (map (fun i => pttr (own_com mb i)) (seq 0 (nrBodies mb)))
    (with_coeff (map (fun i => mass_of mb i * nth i (cj_weight c) 0 / total_mass_of mb) (seq 0 (nrBodies mb))) c)).
Proof.
  intros L1 L2 L3 Z. unfold updateInertialParameters. rewrite total_mass_ok. cbn [bind].
  rewrite (for_fill2 (fun i => mass_of mb i * nth i (cj_weight c) 0 / total_mass_of mb) (fun i => pttr (own_com mb i)) 0 ptid); auto.
  intros i s Hi La Lb. unfold upd_step. rewrite get_body by auto. cbn [bind]. rewrite (get_nth _ i 0) by lia. cbn [bind].
  unfold rdiv. destruct (Req_EM_T (total_mass_of mb) 0); [contradiction|]. cbn [bind]. reflexivity.
Qed.

(** sub-body lists *)
Lemma subs_ok mb (l0 : list (list Z)) : wf_mb mb -> l0 = repeat [] (nrJoints mb) ->
  exists sub, for_up (nrJoints mb)
           (fun i sub => s <- get sub i ;; s <- jointBodiesSuccessors mb (S (nrJoints mb)) i s ;; set sub i s) l0 = Ok sub /\
   length sub = nrBodies mb /\ forall k, (k < nrBodies mb)%nat -> exists l, nth_error sub k = Some (map Z.of_nat l) /\
     NoDup l /\ forall b, In b l <-> anc mb k b.
Proof.
  intros W ->. pose proof (wf_nrJoints _ W) as NJ. rewrite NJ.
  destruct (for_up_inv (fun i sub => length sub = nrBodies mb /\ (forall k, (i <= k < nrBodies mb)%nat -> nth k sub [] = []) /\
     forall k, (k < i)%nat -> exists l, nth_error sub k = Some (map Z.of_nat l) /\ NoDup l /\ forall b, In b l <-> anc mb k b)
     (fun i sub => s <- get sub i ;; s <- jointBodiesSuccessors mb (S (nrBodies mb)) i s ;; set sub i s) (nrBodies mb) (repeat [] (nrBodies mb)))
    as (sub & E & L & _ & P).
  - rewrite repeat_length. split; auto. split; [|intros; lia]. intros. apply nth_repeat.
  - intros i sub Hi (L & P1 & P2). rewrite (get_nth _ i []) by lia. cbn [bind]. rewrite P1 by lia.
    destruct (successors_ok mb W (S (nrBodies mb)) i [] Hi ltac:(lia)) as (l & El & ND & IN). rewrite El. cbn [bind app].
    rewrite set_ok by lia. eexists. split; [reflexivity|]. rewrite upd_length. split; auto. split.
    + intros k Hk. rewrite nth_upd_neq by lia. apply P1. lia.
    + intros k Hk. destruct (Nat.eq_dec i k) as [->|N].
      * exists l. split; auto. apply nth_error_upd_eq. lia.
      * destruct (P2 k) as (l' & E' & Q); [lia|]. exists l'. split; auto. rewrite nth_error_upd_neq; auto.
  - exists sub. auto.
Qed.

Lemma comj_ctor_w_ok g gm mb w : wf_mb mb -> length w = nrBodies mb -> total_mass_of mb <> 0 ->
  exists c, comj_init mb (comj_fresh g gm mb w) = Ok c /\ comj_of mb w c.
Proof.
  intros W Lw Z. unfold comj_init. rewrite upd_ok; cbn [comj_fresh cj_coeff cj_com cj_weight]; auto.
  2:{ apply repeat_length. } 2:{ apply garbage_length. }
  cbn [bind with_com with_coeff cj_sub comj_fresh].
  destruct (subs_ok mb (repeat [] (nrJoints mb)) W eq_refl) as (sub & E & L & P). rewrite E. cbn [bind].
  eexists. split; [reflexivity|]. pose proof (wf_nrJoints _ W) as NJ.
  constructor; cbn [with_sub with_com with_coeff comj_fresh cj_jac cj_dot cj_coeff cj_com cj_sub cj_comW cj_comV cj_nacc cj_weight comd_mat mrows mcols]; auto;
  rewrite garbage_length; auto.
Qed.
Lemma CoMJ_ctor_ok g gm mb : wf_mb mb -> total_mass_of mb <> 0 ->
  exists c, CoMJ_ctor g gm mb = Ok c /\ comj_of mb (repeat 1 (nrBodies mb)) c.
Proof. intros W Z. apply comj_ctor_w_ok; auto. apply repeat_length. Qed.
Lemma CoMJ_ctor_w_ok g gm mb w : wf_mb mb -> total_mass_of mb <> 0 ->
  (length w = nrBodies mb -> exists c, CoMJ_ctor_w g gm mb w = Ok c /\ comj_of mb w c) /\
  (length w <> nrBodies mb -> CoMJ_ctor_w g gm mb w = Throw DomainError).
Proof.
  intros W Z. unfold CoMJ_ctor_w. split; intro L.
  - rewrite L, Nat.eqb_refl. now apply comj_ctor_w_ok.
  - now destruct (Nat.eqb_spec (length w) (nrBodies mb)).
Qed.
(** Changing the weights of an object. *)
Lemma set_weight_ok mb w w' c : wf_mb mb -> total_mass_of mb <> 0 -> comj_of mb w c -> length w' = nrBodies mb ->
  exists c', set_weight mb w' c = Ok c' /\ comj_of mb w' c'.
Proof.
  intros W Z H L. unfold set_weight. rewrite upd_ok; cbn [with_weight cj_coeff cj_com cj_weight]; auto.
  2:{ rewrite (cjo_coeff _ _ _ H). apply garbage_length. } 2:{ rewrite (cjo_com _ _ _ H). apply garbage_length. }
  eexists. split; [reflexivity|]. destruct H. constructor; auto.
Qed.

(** Names *)
Lemma names_distinct bodies joints pred succ parent Xt mb :
  (length bodies <= length joints)%nat -> MultiBody_ctor bodies joints pred succ parent Xt = Ok mb ->
  NoDup (map bname bodies) -> names_ok mb.
Proof.
  intros L E ND. destruct (MultiBody_ctor_spec bodies joints pred succ parent Xt L) as (mb' & E' & EB & _ & _ & _ & _ & _ & _ & _ & _ & _ & _ & MO & _).
  rewrite E in E'. injection E' as <-. intros i Hi. unfold nrBodies in Hi. rewrite EB in *.
  unfold sBodyIndexByName, mat_. rewrite (proj2 (MO _ (Z.of_nat i))); auto.
  exists i. do 3 (split; auto). intros j Hj E'. rewrite <- !(map_nth bname) in E'.
  assert (j = i); [|lia]. apply (proj1 (NoDup_nth (map bname bodies) (bname bd)) ND j i); rewrite ?map_length; auto; lia.
Qed.

Lemma comd_init_ok g mb : wf_mb mb -> names_ok mb -> exists vec, comd_init g mb = Ok (vec, total_mass_of mb) /\
  length vec = nrBodies mb /\ forall i, (i < nrBodies mb)%nat -> exists J, nth_error vec i = Some J /\ jacobian_of mb i (own_com mb i) J.
Proof.
  intros W NO. unfold comd_init.
  match goal with |- context [for_up _ ?f _] => set (body := f) end.
  destruct (for_up_inv (fun i s => snd s = rsum i (mass_of mb) /\ length (fst s) = i /\
     forall k, (k < i)%nat -> exists J, nth_error (fst s) k = Some J /\ jacobian_of mb k (own_com mb k) J) body (nrBodies mb) ([], 0)) as ((vec & t) & E & Et & L & P).
  - cbn. split; auto. split; auto. intros; lia.
  - intros i (vec & t) Hi (Et & L & P). cbn [fst snd] in *. unfold body. rewrite get_body by auto. cbn [bind fst snd].
    destruct (ctor_ok (g i) mb _ (own_com mb i) i W (NO i Hi) Hi) as (J & EJ & HJ).
    change (body_com (binertia (nth i (mb_bodies mb) bd))) with (own_com mb i). rewrite EJ. cbn [bind].
    eexists. split; [reflexivity|]. cbn [fst snd]. rewrite app_length. cbn [length rsum]. split; [rewrite Et; reflexivity|]. split; [lia|].
    intros k Hk. destruct (Nat.eq_dec k i) as [->|N].
    + exists J. rewrite nth_error_app2 by lia. rewrite L, Nat.sub_diag. auto.
    + destruct (P k) as (J' & E' & H'); [lia|]. exists J'. rewrite nth_error_app1 by lia. auto.
  - exists vec. rewrite E. cbn [bind fst snd] in *. subst t. auto.
Qed.
Lemma CoMD_ctor_w_ok g gm mb w : wf_mb mb -> names_ok mb ->
  (length w = nrBodies mb -> exists c, CoMD_ctor_w g gm mb w = Ok c /\ comd_of mb w c) /\
  (length w <> nrBodies mb -> CoMD_ctor_w g gm mb w = Throw DomainError).
Proof.
  intros W NO. unfold CoMD_ctor_w. destruct (comd_init_ok g mb W NO) as (vec & E & L & P). rewrite E. cbn [bind fst snd]. split; intro Lw.
  - rewrite Lw, Nat.eqb_refl. eexists. split; [reflexivity|]. constructor; auto.
  - now destruct (Nat.eqb_spec (length w) (nrBodies mb)).
Qed.
Lemma CoMD_ctor_ok g gm mb : wf_mb mb -> names_ok mb -> exists c, CoMD_ctor g gm mb = Ok c /\ comd_of mb (repeat 1 (nrBodies mb)) c.
Proof.
  intros W NO. unfold CoMD_ctor. destruct (comd_init_ok g mb W NO) as (vec & E & L & P). rewrite E. cbn [bind fst snd].
  eexists. split; [reflexivity|]. constructor; cbn; auto. apply repeat_length.
Qed.

Lemma cmm_init_ok g mb : wf_mb mb -> names_ok mb -> exists vec bl, cmm_init g mb = Ok (vec, bl) /\
  length vec = nrBodies mb /\ length bl = nrBodies mb /\
  forall i, (i < nrBodies mb)%nat -> exists J bs, nth_error vec i = Some J /\ jacobian_of mb i v0 J /\ nth_error bl i = Some bs /\ compactPath mb J = Ok bs.
Proof.
  intros W NO. unfold cmm_init.
  match goal with |- context [for_up _ ?f _] => set (body := f) end.
  destruct (for_up_inv (fun i s => length (fst s) = i /\ length (snd s) = i /\
     forall k, (k < i)%nat -> exists J bs, nth_error (fst s) k = Some J /\ jacobian_of mb k v0 J /\ nth_error (snd s) k = Some bs /\ compactPath mb J = Ok bs)
      body (nrBodies mb) ([], [])) as ((vec & bl) & E & L1 & L2 & P).
  - cbn. split; auto. split; auto. intros; lia.
  - intros i (vec & bl) Hi (L1 & L2 & P). cbn [fst snd] in *. unfold body. rewrite get_body by auto. cbn [bind fst snd].
    destruct (ctor_ok (g i) mb _ v0 i W (NO i Hi) Hi) as (J & EJ & HJ). rewrite EJ. cbn [bind].
    destruct (compact_ex mb i v0 J W HJ) as (bs & EB & _). rewrite EB. cbn [bind].
    eexists. split; [reflexivity|]. cbn [fst snd]. rewrite !app_length. cbn [length]. split; [lia|]. split; [lia|].
    intros k Hk. destruct (Nat.eq_dec k i) as [->|N].
    + exists J, bs. rewrite !nth_error_app2 by lia. rewrite L1, L2, Nat.sub_diag. auto.
    + destruct (P k) as (J' & bs' & Q); [lia|]. exists J', bs'. rewrite !nth_error_app1 by lia. auto.
  - exists vec, bl. auto.
Qed.
Lemma cmm_fresh_ok g gm mb w : wf_mb mb -> names_ok mb -> length w = nrBodies mb ->
  exists c, (s <- cmm_init g mb ;; Ok (cmm_fresh g gm mb (fst s) (snd s) w)) = Ok c /\ cmm_of mb w c.
Proof.
  intros W NO Lw. destruct (cmm_init_ok g mb W NO) as (vec & bl & E & L1 & L2 & P). rewrite E. cbn [bind fst snd].
  eexists. split; [reflexivity|]. unfold cmm_fresh. constructor; cbn [cm_mat cm_dot cm_vec cm_blocks cm_work cm_weight cm_nacc mrows mcols]; auto;
  rewrite map_length; auto. apply seq_length.
Qed.
Lemma CMM_ctor_ok g gm mb : wf_mb mb -> names_ok mb -> exists c, CMM_ctor g gm mb = Ok c /\ cmm_of mb (repeat 1 (nrBodies mb)) c.
Proof. intros W NO. apply cmm_fresh_ok; auto. apply repeat_length. Qed.
Lemma CMM_ctor_w_ok g gm mb w : wf_mb mb -> names_ok mb ->
  (length w = nrBodies mb -> exists c, CMM_ctor_w g gm mb w = Ok c /\ cmm_of mb w c) /\
  (length w <> nrBodies mb -> CMM_ctor_w g gm mb w = Throw DomainError).
Proof.
  intros W NO. unfold CMM_ctor_w. split; intro Lw.
  - rewrite Lw, Nat.eqb_refl. now apply cmm_fresh_ok.
  - destruct (cmm_init_ok g mb W NO) as (vec & bl & E & _). rewrite E. cbn [bind]. now destruct (Nat.eqb_spec (length w) (nrBodies mb)).
Qed.
