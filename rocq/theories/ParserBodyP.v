(** Proofs about the readers and writers: inertias, limits and joints. *)
From Coq Require Import Reals String ZArith Bool Arith List Lra Lia.
From Verif Require Import Res ResP SMap Vec VecP Sva SvaP JointM JointP MultiBodyM GraphM ParserM YamlM Spec SpecParser EulerP ParserRotP ParserRtP.
Import ListNotations.
Open Scope R_scope.

(** ** Inertias. *)
Lemma visible_sym_Z s : visible_sym s -> isZeroM (sym_mat s) = false.
Proof.
  intros (x & I & B). apply small_big in B. destruct (isZeroM (sym_mat s)) eqn:E; auto. exfalso. unfold isZeroM, sym_mat in E. cbn [m00 m01 m02 m10 m11 m12 m20 m21 m22] in E.
  repeat (apply andb_true_iff in E; let F := fresh in destruct E as (E & F)). cbn in I. destruct I as [<-|[<-|[<-|[<-|[<-|[<-|[]]]]]]]; congruence.
Qed.
Lemma zero_sym_Z : isZeroM (sym_mat sym0) = true.
Proof. unfold isZeroM, sym_mat, sym0. cbn [m00 m01 m02 m10 m11 m12 m20 m21 m22 sxx sxy sxz syy syz szz]. now rewrite small_0. Qed.
Lemma mid_tr : mtr mid = mid. Proof. reflexivity. Qed.
Lemma inertia_back A m c : inertiaToOrigin (inertiaToOrigin A (- m) c mid) m c mid = A.
Proof.
  unfold inertiaToOrigin. rewrite mid_tr, !mmul_id_r, !mmul_id_l. destruct A, c as [x y z]. unfold madd, mmul, mcross, vscale, mtr. cbn. f_equal; ring.
Qed.
Lemma inertia_sym s m c : let A := inertiaToOrigin (sym_mat s) m c mid in m10 A = m01 A /\ m20 A = m02 A /\ m21 A = m12 A.
Proof.
  unfold inertiaToOrigin. rewrite mid_tr, !mmul_id_r, !mmul_id_l. destruct s, c as [x y z]. unfold madd, mmul, mcross, vscale, mtr, sym_mat. cbn. split; [|split]; ring.
Qed.
Lemma positive_true x : 0 < x -> positive x = true.
Proof. intro. unfold positive. destruct (Rlt_dec 0 x); auto; lra. Qed.
Lemma positive_false x : x <= 0 -> positive x = false.
Proof. intro. unfold positive. destruct (Rlt_dec 0 x); auto; lra. Qed.
Lemma com_back I : 0 < imass I -> vscale (imass I) (com_of I) = imom I.
Proof. intro P. unfold com_of. rewrite positive_true by auto. destruct I as [m [x y z] s]. cbn [imass imom] in *. unfold vscale. cbn [vx vy vz]. f_equal; field; lra. Qed.
Lemma sym_eta s : mkSym (sxx s) (sxy s) (sxz s) (syy s) (syz s) (szz s) = s. Proof. now destruct s. Qed.
Lemma sym_back s m c : sym_lower (inertiaToOrigin (inertiaToOrigin (sym_mat s) (- m) c mid) m c mid) = s.
Proof. rewrite inertia_back. destruct s. reflexivity. Qed.
Lemma full_sym s m c : let A := inertiaToOrigin (sym_mat s) m c mid in
  mkM3 (m00 A) (m01 A) (m02 A) (m01 A) (m11 A) (m12 A) (m02 A) (m12 A) (m22 A) = A.
Proof. cbv zeta. destruct (inertia_sym s m c) as (A1 & A2 & A3). apply M3_ext; cbn [m00 m01 m02 m10 m11 m12 m20 m21 m22]; auto. Qed.
Lemma RPY_0 : RPY 0 0 0 = mid. Proof. rewrite RPY_eq, euler_zyx_0. reflexivity. Qed.
Lemma MRPY_0 : MatrixFromRPY 0 0 0 = mid. Proof. rewrite MatrixFromRPY_eq, euler_0. reflexivity. Qed.
Lemma body_eq I n : 0 < imass I -> body_mci (imass I) (com_of I) (inertiaToOrigin (inertia_at_com I) (imass I) (com_of I) mid) n = mkBody I n.
Proof. intro P. unfold body_mci, inertia_at_com. rewrite com_back, sym_back by auto. now destruct I. Qed.

Lemma urdf_body W b : exact_text W -> 0 < imass (binertia b) -> visible_sym (iine (binertia b)) -> visible (com_of (binertia b)) ->
  read_body true (bname b) (wr_inertial W (binertia b)) = Ok b.
Proof.
  intros ET P V C. destruct b as [I n]. cbn [binertia bname] in *. apply visible_dec in C. unfold wr_inertial, has_inertial. rewrite (positive_true _ P), (visible_sym_Z _ V). cbn [orb].
  unfold wr_double. cbn [read_body ui_origin ui_mass ui_inertia deref bind attrToDouble]. rewrite ET.
  assert (M : readInertia (mkUI (Some [TNum (w_num W (m00 (inertia_at_com I)))]) (Some [TNum (w_num W (m01 (inertia_at_com I)))]) (Some [TNum (w_num W (m02 (inertia_at_com I)))])
     (Some [TNum (w_num W (m11 (inertia_at_com I)))]) (Some [TNum (w_num W (m12 (inertia_at_com I)))]) (Some [TNum (w_num W (m22 (inertia_at_com I)))])) = inertia_at_com I).
  { unfold readInertia. cbn [u_ixx u_ixy u_ixz u_iyy u_iyz u_izz attrToDouble]. rewrite !ET. apply full_sym. }
  rewrite M. destruct (isZero3 (com_of I)) eqn:E; cbn [uo_rpy uo_xyz RPY_list attrToList nums bind]; rewrite RPY_0; cbn [bind].
  - rewrite <- C. now rewrite body_eq.
  - unfold attrToVector, wr_vec3d. cbn [attrToList nums]. rewrite !ET, v3_eta. now rewrite body_eq.
Qed.
Lemma yaml_body b : (0 < imass (binertia b) \/ (imass (binertia b) = 0 /\ imom (binertia b) = v0)) -> visible_sym (iine (binertia b)) -> visible (com_of (binertia b)) ->
  parseInertial false true (bname b) (yw_inertial (binertia b)) = Ok b.
Proof.
  intros P V C. destruct b as [I n]. cbn [binertia bname] in *. apply visible_dec in C. unfold yw_inertial, has_inertial. rewrite (visible_sym_Z _ V). cbn [negb]. rewrite orb_true_r.
  cbn [parseInertial yi_mass yi_frame yi_inertia].
  assert (M : parseInertia (Some (mkYI (Some (YNum (m00 (inertia_at_com I)))) (Some (YNum (m11 (inertia_at_com I)))) (Some (YNum (m22 (inertia_at_com I))))
     (Some (YNum (m12 (inertia_at_com I)))) (Some (YNum (m02 (inertia_at_com I)))) (Some (YNum (m01 (inertia_at_com I)))))) = inertia_at_com I).
  { unfold parseInertia, makeInertia. cbn [y_Ixx y_Ixy y_Ixz y_Iyy y_Iyz y_Izz as_num]. apply full_sym. }
  rewrite M.
  assert (Q : as_num (if positive (imass I) then Some (YNum (imass I)) else None) 0 = imass I).
  { destruct P as [P|(P & _)]; [now rewrite (positive_true _ P)|]. rewrite P. now rewrite (positive_false 0) by lra. }
  rewrite Q. assert (B : body_mci (imass I) (com_of I) (inertiaToOrigin (inertia_at_com I) (imass I) (com_of I) mid) n = mkBody I n).
  { destruct P as [P|(P & P')]; [now apply body_eq|]. unfold body_mci, inertia_at_com. rewrite sym_back. destruct I as [m c s]. cbn [imass imom iine] in *. subst.
    unfold com_of. rewrite positive_false by (cbn; lra). f_equal. f_equal. unfold vscale, v0; cbn; f_equal; ring. }
  destruct (isZero3 (com_of I)) eqn:E; cbn [parseFrame yf_xyz yf_rpy as_vec yw_vec3d elems three bind fst snd vx vy vz v0]; rewrite MRPY_0.
  - change (mkV3 0 0 0) with v0. rewrite <- C. now rewrite B.
  - change (mkV3 0 0 0) with v0. rewrite v3_eta. now rewrite B.
Qed.
Lemma zero_inertial : has_inertial rbi0 = false.
Proof. unfold has_inertial, rbi0. cbn [imass imom iine]. rewrite positive_false by lra. rewrite isZero_v0, zero_sym_Z. reflexivity. Qed.
Lemma body_mci_0 n : body_mci 0 v0 mzero n = mkBody rbi0 n.
Proof. unfold body_mci, rbi0, sym_lower, vscale, mzero, v0, sym0. cbn. do 2 f_equal. f_equal; ring. Qed.
Lemma urdf_zero W n : read_body true n (wr_inertial W rbi0) = Ok (mkBody rbi0 n).
Proof. unfold wr_inertial. rewrite zero_inertial. cbn [read_body]. now rewrite body_mci_0. Qed.
Lemma yaml_zero n : parseInertial false true n (yw_inertial rbi0) = Ok (mkBody rbi0 n).
Proof. unfold yw_inertial. rewrite zero_inertial. cbn [parseInertial]. now rewrite body_mci_0. Qed.
(** A point mass at the origin. *)
Definition point_mass : RBI := mkRBI 1 v0 sym0.
Lemma com_0 m s : com_of (mkRBI m v0 s) = v0.
Proof. unfold com_of. cbn [imass imom]. destruct (positive m); auto. unfold vscale, v0. cbn. f_equal; ring. Qed.
Lemma urdf_point W n : exact_text W -> read_body true n (wr_inertial W point_mass) = UB.
Proof.
  intro ET. unfold wr_inertial, has_inertial, point_mass. rewrite com_0. cbn [imass imom iine]. rewrite positive_true by lra. cbn [orb]. rewrite isZero_v0, zero_sym_Z.
  cbn [read_body ui_origin ui_mass ui_inertia RPY_list bind deref]. reflexivity.
Qed.
Lemma urdf_massless W n s : visible_sym s -> read_body true n (wr_inertial W (mkRBI 0 v0 s)) = UB.
Proof.
  intro V. unfold wr_inertial, has_inertial. rewrite com_0. cbn [imass imom iine]. rewrite positive_false by lra. rewrite (visible_sym_Z _ V), isZero_v0. cbn [orb negb].
  cbn [read_body ui_origin ui_mass ui_inertia RPY_list bind deref]. reflexivity.
Qed.
Lemma yaml_point n : parseInertial false true n (yw_inertial point_mass) = Ok (mkBody (mkRBI 1 v0 (mkSym 1 0 0 1 0 1)) n).
Proof.
  unfold yw_inertial, has_inertial, point_mass. rewrite com_0. cbn [imass imom iine]. rewrite positive_true by lra. cbn [orb]. rewrite isZero_v0, zero_sym_Z.
  cbn [parseInertial yi_mass yi_frame yi_inertia parseFrame bind fst snd vx vy vz v0 as_num parseInertia]. rewrite MRPY_0.
  unfold body_mci, inertiaToOrigin. rewrite mid_tr, !mmul_id_r. unfold mcross, vscale, madd, mmul, mtr, mid, sym_lower, v0. cbn. do 3 f_equal; f_equal; ring.
Qed.
Lemma urdf_mass_digits W n : (forall x, six_digits (w_num W x)) ->
  let I := mkRBI (10000001 / 10000000) v0 (mkSym 1 0 0 1 0 1) in read_body true n (wr_inertial W I) <> Ok (mkBody I n).
Proof.
  intros SD I. unfold wr_inertial, has_inertial, I. rewrite com_0. cbn [imass imom iine]. rewrite positive_true by lra. cbn [orb]. rewrite isZero_v0, visible_sym_Z.
  2: { exists 1. split; [cbn; auto|]. rewrite Rabs_R1. lra. }
  unfold wr_double. cbn [read_body ui_origin ui_mass ui_inertia RPY_list bind deref attrToDouble]. unfold body_mci. intro E. injection E as E _ _. apply six_no. rewrite <- E. apply SD.
Qed.

(** ** Limits. *)
Lemma dscale_rad d : dscale (PI / 180) d = radians d.
Proof. destruct d; cbn; auto. f_equal. field. Qed.
Lemma mul_at_ok v i d : (i < List.length v)%nat -> mul_at (PI / 180) v i = Ok (upd v i (radians (nth i v d))).
Proof. intro L. unfold mul_at. rewrite (get_nth v i d) by auto. cbn [bind]. rewrite set_ok by auto. now rewrite dscale_rad. Qed.
(** The first k entries converted. *)
Definition conv_upto (k : nat) (v : list dbl) : list dbl := map radians (firstn k v) ++ skipn k v.
Lemma conv_0 v : conv_upto 0 v = v. Proof. reflexivity. Qed.
Lemma conv_len k v : List.length (conv_upto k v) = List.length v.
Proof. unfold conv_upto. rewrite app_length, map_length, <- app_length, firstn_skipn. reflexivity. Qed.
Lemma conv_S k v : (k < List.length v)%nat -> upd (conv_upto k v) k (radians (nth k (conv_upto k v) PInf)) = conv_upto (S k) v.
Proof.
  revert v. induction k as [|k IH]; intros [|a v] L; cbn in L; try lia; [reflexivity|].
  unfold conv_upto in *. cbn [firstn skipn map app nth upd]. f_equal. apply IH. lia.
Qed.
Lemma conv_all v : conv_upto (List.length v) v = map radians v.
Proof. unfold conv_upto. now rewrite firstn_all, skipn_all, app_nil_r. Qed.
Definition conv_step i (s : list dbl * list dbl * list dbl) : res (list dbl * list dbl * list dbl) :=
  let '(a, b, c) := s in a <- mul_at (PI / 180) a i ;; b <- mul_at (PI / 180) b i ;; c <- mul_at (PI / 180) c i ;; Ok (a, b, c).
Lemma conv_loop n a b c : (n <= List.length a)%nat -> (n <= List.length b)%nat -> (n <= List.length c)%nat ->
  for_up n conv_step (a, b, c) = Ok (conv_upto n a, conv_upto n b, conv_upto n c).
Proof.
  intros A B C. destruct (for_up_inv (fun k s => s = (conv_upto k a, conv_upto k b, conv_upto k c)) conv_step n (a, b, c)) as (s & E & P).
  - now rewrite !conv_0.
  - intros k s L ->. unfold conv_step. rewrite (mul_at_ok _ k PInf) by (rewrite conv_len; lia). cbn [bind]. rewrite (mul_at_ok _ k PInf) by (rewrite conv_len; lia). cbn [bind].
    rewrite (mul_at_ok _ k PInf) by (rewrite conv_len; lia). cbn [bind]. rewrite !conv_S by lia. eexists. split; reflexivity.
  - rewrite E, P. reflexivity.
Qed.

Lemma elems_map {A} (l : list A) : elems (map YNum l) = Ok l.
Proof. induction l as [|a l IH]; cbn; [reflexivity|]. now rewrite IH. Qed.
Lemma elems_len {A} (l : list (yv A)) v : elems l = Ok v -> List.length v = List.length l.
Proof.
  revert v. induction l as [|[a| |] l IH]; intros v; cbn; try discriminate; [intro E; injection E as <-; reflexivity|].
  destruct (elems l) as [w| | |]; cbn; try discriminate. intro E. injection E as <-. cbn. f_equal. now apply IH.
Qed.
Lemma elems_UB {A} (l : list (yv A)) : elems l <> UB.
Proof. induction l as [|[a| |] l IH]; cbn; try discriminate. destruct (elems l); cbn; congruence. Qed.
Lemma givenv_def o d : as_vec_def (givenv o) d = Ok (match o with Some l => l | None => d end).
Proof. destruct o; cbn; [apply elems_map|reflexivity]. Qed.
Lemma given1_def o d : as_num (given1 o) d = match o with Some l => l | None => d end.
Proof. destruct o; reflexivity. Qed.
Lemma fold_conv n s : for_up n (fun i s => let '(a, b, c) := s in
               a <- mul_at (PI / 180) a i ;; b <- mul_at (PI / 180) b i ;; c <- mul_at (PI / 180) c i ;; Ok (a, b, c)) s = for_up n conv_step s.
Proof. reflexivity. Qed.
Lemma map_inf n (d : dbl) : radians d = d -> map radians (repeat d n) = repeat d n.
Proof. intro E. induction n; cbn; congruence. Qed.
Lemma limits_1 deg dg lo up ef ve j (c : bool) : jdof j = 1%nat ->
  parseJointLimits deg (Some (mkYLim (given1 lo) (given1 up) (given1 ef) (given1 ve) dg)) j c =
  Ok ([if c then MInf else unit_of (as_or dg deg) (as_or lo MInf)], [if c then PInf else unit_of (as_or dg deg) (as_or up PInf)],
      [as_or ef PInf], [unit_of (as_or dg deg) (as_or ve PInf)]).
Proof.
  intro D1. unfold parseJointLimits. rewrite D1. cbn [Nat.ltb Nat.leb Nat.eqb bind y_lower y_upper y_effort y_velocity y_deg repeat]. rewrite !given1_def. rewrite fold_conv.
  destruct (as_or dg deg); cbn [unit_of].
  - destruct c; rewrite conv_loop by (cbn; auto); cbn [bind]; unfold conv_upto; cbn [firstn skipn map app]; destruct lo, up, ef, ve; reflexivity.
  - destruct c, lo, up, ef, ve; reflexivity.
Qed.
Lemma limits_n deg dg lo up ef ve j (c : bool) : (1 < jdof j)%nat ->
  (forall l, lo = Some l -> List.length l = jdof j) -> (forall l, up = Some l -> List.length l = jdof j) -> (forall l, ve = Some l -> List.length l = jdof j) ->
  let n := jdof j in
  parseJointLimits deg (Some (mkYLim (givenv lo) (givenv up) (givenv ef) (givenv ve) dg)) j c =
  Ok (if c then repeat MInf n else map (unit_of (as_or dg deg)) (as_or lo (repeat MInf n)),
      if c then repeat PInf n else map (unit_of (as_or dg deg)) (as_or up (repeat PInf n)),
      as_or ef (repeat PInf n), map (unit_of (as_or dg deg)) (as_or ve (repeat PInf n))).
Proof.
  intros D1 L1 L2 L3 n. unfold parseJointLimits. assert (LT : (1 <? jdof j)%nat = true) by now apply Nat.ltb_lt. rewrite LT. cbn [y_lower y_upper y_effort y_velocity y_deg].
  rewrite !givenv_def. fold n.
  assert (ID : forall l, map (unit_of false) l = l). { intro l. induction l; cbn; congruence. }
  assert (Len : forall (o : option (list dbl)) (d : dbl), (forall l, o = Some l -> List.length l = n) -> List.length (as_or o (repeat d n)) = n). { intros [l|] d H; cbn; [now apply H|apply repeat_length]. }
  assert (V : forall A (o : option A) d, match o with Some l => l | None => d end = as_or o d) by reflexivity. rewrite !V.
  assert (B1 : (if c then Ok (repeat MInf n) else Ok (as_or lo (repeat MInf n))) = Ok (if c then repeat MInf n else as_or lo (repeat MInf n))) by (destruct c; reflexivity).
  assert (B2 : (if c then Ok (repeat PInf n) else Ok (as_or up (repeat PInf n))) = Ok (if c then repeat PInf n else as_or up (repeat PInf n))) by (destruct c; reflexivity).
  rewrite B1, B2. cbn [bind]. rewrite fold_conv. destruct (as_or dg deg); [|destruct c; rewrite ?ID; reflexivity].
  assert (K1 : List.length (if c then repeat MInf n else as_or lo (repeat MInf n)) = n) by (destruct c; [apply repeat_length|now apply Len]).
  assert (K2 : List.length (if c then repeat PInf n else as_or up (repeat PInf n)) = n) by (destruct c; [apply repeat_length|now apply Len]).
  assert (K3 : List.length (as_or ve (repeat PInf n)) = n) by now apply Len.
  rewrite conv_loop by lia. cbn [bind]. assert (CA : forall v, List.length v = n -> conv_upto n v = map radians v) by (intros v <-; apply conv_all). rewrite !CA by auto.
  destruct c; rewrite ?map_inf by reflexivity; reflexivity.
Qed.
Lemma as_vec_def_UB {A} (o : option (yv A)) d : as_vec_def o d <> UB.
Proof. destruct o as [[| |]|]; cbn; try discriminate. apply elems_UB. Qed.
Lemma as_vec_def_len {A} (o : option (yv A)) (a : A) n v : as_vec_def o (repeat a n) = Ok v -> (exists l, o = Some (YSeq l) /\ (List.length l < n)%nat) \/ (n <= List.length v)%nat.
Proof.
  destruct o as [[x|l|]|]; cbn; intro E; try (injection E as <-; right; rewrite repeat_length; auto).
  apply elems_len in E. destruct (Nat.lt_ge_cases (List.length l) n); [left; eauto|right; lia].
Qed.
Lemma limits_safe deg o j c : let n := jdof j in
  (match o with None => True | Some l => as_or (y_deg l) deg = false \/ (n <= 1)%nat \/ ((c = true \/ ~ short n (y_lower l)) /\ (c = true \/ ~ short n (y_upper l)) /\ ~ short n (y_velocity l)) end) ->
  parseJointLimits deg o j c <> UB.
Proof.
  intros n H. unfold parseJointLimits. fold n. destruct o as [l|]; [|discriminate].
  set (f := fun (i : nat) (s : list dbl * list dbl * list dbl) => let '(a, b, c) := s in a <- mul_at (PI / 180) a i ;; b <- mul_at (PI / 180) b i ;; c <- mul_at (PI / 180) c i ;; Ok (a, b, c)).
  change f with conv_step. clear f.
  assert (FIN : forall lower upper effort velocity : list dbl, as_or (y_deg l) deg = false \/ (n <= List.length lower /\ n <= List.length upper /\ n <= List.length velocity)%nat ->
    (if as_or (y_deg l) deg then s <- for_up n conv_step (lower, upper, velocity) ;; (let '(a, b, d) := s in Ok (a, b, effort, d)) else Ok (lower, upper, effort, velocity)) <> UB).
  { intros lower upper effort velocity [E|(A & B & C)]; [rewrite E; discriminate|]. destruct (as_or (y_deg l) deg); [|discriminate]. rewrite conv_loop by auto. discriminate. }
  assert (RL : forall d : dbl, (n <= List.length (repeat d n))%nat) by (intro; rewrite repeat_length; auto).
  destruct (1 <? n)%nat eqn:N1.
  - apply Nat.ltb_lt in N1.
    destruct (if c then Ok (repeat MInf n) else as_vec_def (y_lower l) (repeat MInf n)) as [lower| | |] eqn:E1; cbn [bind]; try discriminate.
    2: { destruct c; [discriminate|]. now destruct (as_vec_def_UB _ _ E1). }
    destruct (if c then Ok (repeat PInf n) else as_vec_def (y_upper l) (repeat PInf n)) as [upper| | |] eqn:E2; cbn [bind]; try discriminate.
    2: { destruct c; [discriminate|]. now destruct (as_vec_def_UB _ _ E2). }
    destruct (as_vec_def (y_effort l) (repeat PInf n)) as [effort| | |] eqn:E3; cbn [bind]; try discriminate; [|now destruct (as_vec_def_UB _ _ E3)].
    destruct (as_vec_def (y_velocity l) (repeat PInf n)) as [velocity| | |] eqn:E4; cbn [bind]; try discriminate; [|now destruct (as_vec_def_UB _ _ E4)].
    apply FIN. destruct H as [H|[H|(H1 & H2 & H3)]]; [auto|lia|]. right. split; [|split].
    + destruct c; [injection E1 as <-; auto|]. destruct H1 as [|H1]; [discriminate|]. apply as_vec_def_len in E1. destruct E1 as [E1|]; auto. now destruct H1.
    + destruct c; [injection E2 as <-; auto|]. destruct H2 as [|H2]; [discriminate|]. apply as_vec_def_len in E2. destruct E2 as [E2|]; auto. now destruct H2.
    + apply as_vec_def_len in E4. destruct E4 as [E4|]; auto. now destruct H3.
  - apply Nat.ltb_ge in N1. destruct (n =? 1)%nat eqn:N2; cbn [bind]; apply FIN; right.
    + apply Nat.eqb_eq in N2. destruct c; rewrite N2; cbn; auto.
    + auto.
Qed.
Lemma limits_prism : forall nm, parseJointLimits true (Some (mkYLim (given1 (Some (Fin 1))) None None None None)) (mkJ Prism unitX true nm) false =
  Ok ([Fin (PI / 180)], [PInf], [PInf], [PInf]).
Proof.
  intro nm. rewrite (limits_1 true None (Some (Fin 1)) None None None) by reflexivity. cbn [as_or unit_of radians]. replace (1 * PI / 180) with (PI / 180) by field. reflexivity.
Qed.
Lemma limits_short : forall nm, parseJointLimits true (Some (mkYLim (givenv (Some [Fin 0])) None None None None)) (mkJ Spherical unitX true nm) false = UB.
Proof. intro nm. reflexivity. Qed.
