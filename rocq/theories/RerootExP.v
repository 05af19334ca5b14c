(** Concrete documents read with another base link. *)
From Coq Require Import Reals String ZArith Bool Arith List Lia Lra.
From Verif Require Import Res SMap Vec VecP Sva JointM JointP MultiBodyM GraphM ParserM YamlM Spec SpecGraph SpecParser SpecGeom SpecDoc SpecElem ParserRotP DocYamlP DocExP.
Import ListNotations.
Open Scope nat_scope.

Lemma v0_not_unit : vdot v0 v0 <> 1%R.
Proof. unfold vdot, v0. cbn [vx vy vz]. lra. Qed.
Lemma exdoc_u_base : keeps_all (from_base exdoc_p EmptyString) /\ ur_name exdoc_u = Some "robot"%string /\
  (forall l, In l (ur_links exdoc_u) -> ulink_ok l) /\ (forall u, In u (ur_joints exdoc_u) -> ujoint_ok u /\ ~ urdf_axis (uj_axis u) v0) /\
  tree_names (map ulink_name (ur_links exdoc_u)) (map ujoint_names (ur_joints exdoc_u)) /\ In "hand"%string (map ulink_name (ur_links exdoc_u)).
Proof.
  split; [now repeat split|]. split; [reflexivity|]. split; [apply exdoc_u_ok|]. split; [|split; [exact exdoc_u_names|right; left; reflexivity]].
  intros u Hu. split; [now apply exdoc_u_ok|]. destruct Hu as [<-|[<-|[]]]; cbn [uj_axis]; intro H.
  - inversion H as [|a V|a v k U]; subst; [|now apply v0_not_unit]. destruct V as [[V|(t & V)]|(V & _)].
    + cbn [map v0 vx vy vz] in V. injection V as V. lra.
    + cbn in V. discriminate.
    + apply (V 0 2 0)%R. now left.
  - assert (K : forall o v, urdf_axis o v -> o = None -> vz v = 1%R) by (intros o v [] E; try discriminate; reflexivity). apply K in H; [|reflexivity]. cbn [v0 vz] in H. lra.
Qed.
Lemma exdoc_y_base : yr_links exdoc_y = Some exdoc_ls /\ yr_joints exdoc_y = Some exdoc_js /\ (forall l, In l exdoc_ls -> SpecDoc.ylink_ok l) /\
  (forall i j, nth_error exdoc_js i = Some j -> yjoint_ok exdoc_p (fst (yjoint_names (S i) j)) j /\ forall v, SpecElem.yaml_axis (yj_axis j) v -> vdot v v = 1%R) /\
  tree_names (numbered ylink_name 1 exdoc_ls) (numbered yjoint_names 1 exdoc_js) /\ hd EmptyString (numbered ylink_name 1 exdoc_ls) <> EmptyString /\
  In "link2"%string (numbered ylink_name 1 exdoc_ls).
Proof.
  split; [reflexivity|]. split; [reflexivity|]. split; [intros l H; apply In_nth_error in H; destruct H as (i & H); now apply (exdoc_y_links i)|].
  split; [|split; [exact exdoc_y_names|split; [discriminate|right; left; reflexivity]]].
  intros i j H. split; [now apply exdoc_y_joints|]. intros v A. destruct i as [|[|i]]; cbn in H; [| |destruct i; discriminate]; injection H as <-; cbn [yj_axis] in A.
  - destruct A as [A|(A & _)]; [|discriminate]. unfold given_vec in A. injection A as A1 A2 A3. unfold vdot. rewrite <- A1, <- A2, <- A3. lra.
  - destruct A as [A|(_ & ->)]; [discriminate|apply uZ].
Qed.
