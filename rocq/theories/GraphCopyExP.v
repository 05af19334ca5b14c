(** Concrete copies and fixed graphs. *)
From Coq Require Import Reals String ZArith Bool Arith List Lia Relations.
From Verif Require Import Res ResP SMap Vec Mat Sva JointM MultiBodyM KinM GraphM Spec SpecGraph SpecGraphOp GraphP GraphWalkP GraphHistP GraphSimP GraphRmP GraphCopyP GraphSepP GraphApartP GraphFixP GraphExP GraphOpExP.
Import ListNotations.
Open Scope R_scope.
Local Open Scope nat_scope.
Definition exf_all : GSt := Eval lazy -[IZR RotX RotY RotZ Rmult Rplus Ropp Rdiv Rminus] in match fixJoints (snd exg) ["neck"]%string true (fst exg) with Ok s => s | _ => exg end.
Definition exf_none : GSt := Eval lazy -[IZR RotX RotY RotZ Rmult Rplus Ropp Rdiv Rminus] in match fixJoints (snd exg) [] true (fst exg) with Ok s => s | _ => exg end.
Definition exf_list : GSt := Eval lazy -[IZR RotX RotY RotZ Rmult Rplus Ropp Rdiv Rminus] in match fixJoints (snd exg) ["neck"]%string false (fst exg) with Ok s => s | _ => exg end.
Lemma exf_all_eq : fixJoints (snd exg) ["neck"]%string true (fst exg) = Ok exf_all. Proof. nf. reflexivity. Qed.
Lemma exf_none_eq : fixJoints (snd exg) [] true (fst exg) = Ok exf_none. Proof. nf. reflexivity. Qed.
Lemma exf_list_eq : fixJoints (snd exg) ["neck"]%string false (fst exg) = Ok exf_list. Proof. nf. reflexivity. Qed.
Lemma exf_all_ub : removeJoint 5 "head" "shoulder" exf_all = GUB. Proof. nf. reflexivity. Qed.
Ltac made mb E := lazy -[IZR RotX RotY RotZ Rmult Rplus Ropp Rdiv Rminus ptdualI ptmul ptinv] in E; try discriminate; injection E as <-.
Lemma exf_none_made : exists mb, makeMultiBody 5 "base" Fixed unitZ ptid ptid exf_none = Ok mb /\ map jtyp (mb_joints mb) = [Fixed; Rev; Prism; Spherical].
Proof. destruct (makeMultiBody 5 "base" Fixed unitZ ptid ptid exf_none) as [mb| | |] eqn:E; made mb E. eexists. split; reflexivity. Qed.
Lemma exf_list_made : exists mb j, makeMultiBody 5 "base" Fixed unitZ ptid ptid exf_list = Ok mb /\ map jtyp (mb_joints mb) = [Fixed; Rev; Prism; Fixed] /\
  jointByName "neck" exf_list = Ok j /\ jtyp j = Spherical.
Proof. destruct (makeMultiBody 5 "base" Fixed unitZ ptid ptid exf_list) as [mb| | |] eqn:E; made mb E. do 2 eexists. split; [reflexivity|]. split; [reflexivity|]. split; reflexivity. Qed.
Lemma gok_inside s : gok s -> names_ok_g s /\ links_inside s.
Proof. intros (G & _). split; [apply (gk_names _ G)|exact (gk_next _ G)]. Qed.
Lemma second_moves mb t l : map jtyp (mb_joints mb) = Fixed :: t :: l -> t <> Fixed -> exists j, In j (tl (mb_joints mb)) /\ jtyp j <> Fixed.
Proof. intros J NT. destruct (mb_joints mb) as [|j0 [|j1 l1]]; try discriminate. exists j1. split; [now left|]. injection J as _ -> _. exact NT. Qed.
Lemma fix_all_refuted : exists s s' j mb, gok s /\ fixJoints (snd s) [] true (fst s) = Ok s' /\ makeMultiBody 5 "base" Fixed unitZ ptid ptid s' = Ok mb /\ In j (tl (mb_joints mb)) /\ jtyp j <> Fixed.
Proof.
  destruct exf_none_made as (mb & E & J). destruct (second_moves mb _ _ J ltac:(discriminate)) as (j & I & T). exists exg, exf_none, j, mb.
  split; [exact exg_gok|]. split; [exact exf_none_eq|]. split; [exact E|]. split; [exact I|exact T].
Qed.
Lemma fix_lookup_refuted : exists s s' j, gok s /\ fixJoints (snd s) ["neck"]%string false (fst s) = Ok s' /\ jointByName "neck" s' = Ok j /\ jtyp j <> Fixed.
Proof. destruct exf_list_made as (mb & j & _ & _ & E & J). exists exg, exf_list, j. split; [exact exg_gok|]. split; [exact exf_list_eq|]. split; [exact E|]. rewrite J. discriminate. Qed.
Lemma fix_all_then_refuted : exists s s', gok s /\ fixJoints (snd s) ["neck"]%string true (fst s) = Ok s' /\ removeJoint 5 "head" "shoulder" s' = GUB.
Proof. exists exg, exf_all. split; [exact exg_gok|]. split; [exact exf_all_eq|exact exf_all_ub]. Qed.
(** A graph left by a removeJoint that threw. *)
Lemma exu_copy : exists os P s, run_ops 5 os prog0 = Some P /\ graph_st P 0 = Some s /\ (exists mb, makeMultiBody 5 "A" Fixed unitZ ptid ptid s = Ok mb) /\ step 5 (OpCopy 0) P = PUB.
Proof.
  exists (exu_ops ++ [OpRemoveJoint 0 "A" "j1"]%string), (mkProg (fst exu') [snd exu']), exu'. split; [nf; reflexivity|]. split; [reflexivity|]. split; [|nf; reflexivity].
  destruct (makeMultiBody 5 "A" Fixed unitZ ptid ptid exu') as [mb| | |] eqn:E; lazy -[IZR RotX RotY RotZ Rmult Rplus Ropp Rdiv Rminus ptdualI ptmul ptinv] in E; try discriminate. eauto.
Qed.
(** A history on a copy of exg. *)
Definition exc_P : Prog := Eval lazy -[IZR RotX RotY RotZ Rmult Rplus Ropp Rdiv Rminus] in match run_ops 5 [OpCopy 0] exg_P with Some P => P | None => exg_P end.
Definition exc_P' : Prog := Eval lazy -[IZR RotX RotY RotZ Rmult Rplus Ropp Rdiv Rminus] in match run_ops 5 [OpRemoveJoint 0 "head" "shoulder"; OpClear 0]%string exc_P with Some P => P | None => exg_P end.
Lemma exc_run : run_ops 5 (exg_ops ++ [OpCopy 0]) prog0 = Some exc_P. Proof. nf. reflexivity. Qed.
Lemma exc_run' : run_ops 5 [OpRemoveJoint 0 "head" "shoulder"; OpClear 0]%string exc_P = Some exc_P'. Proof. nf. reflexivity. Qed.
Definition exc_s : GSt := Eval lazy -[IZR RotX RotY RotZ Rmult Rplus Ropp Rdiv Rminus] in match graph_st exc_P 1 with Some s => s | None => exg end.
Lemma exc_st : graph_st exc_P 1 = Some exc_s. Proof. reflexivity. Qed.
Lemma exc_diff : body_names exc_s = ["base"; "arm"; "hand"; "head"]%string /\ (exists s0, graph_st exc_P' 0 = Some s0 /\ body_names s0 = []).
Proof. split; [reflexivity|]. eexists. split; reflexivity. Qed.
