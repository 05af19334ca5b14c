(** Concrete documents with filtered links. *)
From Coq Require Import Reals String ZArith Bool Arith List Lia.
From Verif Require Import Res SMap Vec Sva JointM MultiBodyM GraphM ParserM YamlM Spec SpecGraph SpecParser SpecDoc SpecFilter DocYamlP ParserExP DocExP.
Import ListNotations.
Open Scope nat_scope.

(** The arm is left out; the hand is filtered and kept. *)
Definition exf_p : PParams := mkPP false ["arm"%string] true true "" false "_spherical".
Definition exf_k : PParams := mkPP false ["hand"%string] false true "" false "_spherical".
Lemma exf_u : urdf_named exdoc_u /\ (forall l, hd_error (ur_links exdoc_u) = Some l -> u_out exf_p l = false) /\
  map ulink_name (ur_links (urdf_edited exf_p exdoc_u)) = ["base"; "hand"]%string /\ ur_joints (urdf_edited exf_p exdoc_u) = [] /\
  map uj_type (ur_joints (urdf_edited exf_k exdoc_u)) = [Some "fixed"; Some "continuous"]%string /\
  tree_names (map ulink_name (ur_links exdoc_u)) (map ujoint_names (ur_joints exdoc_u)).
Proof.
  split. { split; [intros l Hl; apply exdoc_u_ok in Hl; apply Hl|]. intros u Hu. apply exdoc_u_ok in Hu. destruct Hu as (_ & _ & H1 & H2 & _). auto. }
  split. { intros l E. injection E as <-. reflexivity. }
  split; [|split; [|split; [|exact exdoc_u_names]]]; unfold exdoc_u, wr_link; destruct (wr_inertial exw (binertia exdoc_arm)); reflexivity.
Qed.
Definition exf_ls : list YLink := [mkYL (Some "base"%string) None; mkYL (Some "hand"%string) None; mkYL (Some "arm"%string) None].
Definition exf_js : list YJoint :=
  [mkYJ (Some "slide"%string) (Some "prismatic"%string) (Some "arm"%string) (Some "hand"%string) (Some (YSeq [YNum 1%R; YNum 0%R; YNum 0%R])) None None;
   mkYJ (Some "turn"%string) (Some "revolute"%string) (Some "base"%string) (Some "arm"%string) None None None].
Definition exf_y : YRobot := mkYR (Some "robot"%string) (Some false) (Some exf_ls) (Some exf_js).
Lemma exf_y_case : yaml_named exf_y /\ (forall l, hd_error exf_ls = Some l -> y_out exf_p l = false /\ y_name l <> EmptyString) /\
  (forall l, In l exf_ls -> SpecDoc.ylink_ok l) /\ (forall j, In j exf_js -> yjoint_ok exf_p (fst (y_names j)) j) /\
  tree_names (map y_name exf_ls) (map y_names exf_js) /\
  option_map (map y_name) (yr_links (yaml_edited exf_p exf_y)) = Some ["base"; "hand"]%string /\ yr_joints (yaml_edited exf_p exf_y) = Some [] /\
  option_map (map yj_type) (yr_joints (yaml_edited exf_k exf_y)) = Some [Some "fixed"; Some "revolute"]%string.
Proof.
  split. { split. { intros ls l E Hl. injection E as <-. destruct Hl as [<-|[<-|[<-|[]]]]; discriminate. }
    intros js j E Hj. injection E as <-. destruct Hj as [<-|[<-|[]]]; split; try split; discriminate. }
  split. { intros l E. injection E as <-. split; [reflexivity|discriminate]. }
  split. { intros l [<-|[<-|[<-|[]]]]; exact I. }
  split. { intros j [<-|[<-|[]]].
    - split; [eexists _, _, _; reflexivity|]. split; [exact I|]. right. exists 1. split; [cbn; auto|exact I].
    - split; [exact I|]. split; [exact I|]. right. exists 1. split; [cbn; auto|exact I]. }
  split. { exact exdoc_u_names. }
  split; [reflexivity|]. split; reflexivity.
Qed.
