(** A careful history: build a graph, copy it, cut the copy, fix a joint of the original. *)
From Coq Require Import Reals String ZArith Bool Arith List Lia Relations.
From Verif Require Import Res ResP SMap Vec Mat Sva JointM MultiBodyM KinM GraphM Spec SpecGraph SpecGraphOp JointP GraphP GraphHistP GraphExP GraphOpExP GraphCopyExP.
Import ListNotations.
Open Scope R_scope.
Local Open Scope nat_scope.
Definition exl_ops : list gop := exg_ops ++ [OpCopy 0; OpRemoveJoint 1 "head" "shoulder"; OpFix 0 ["neck"] false; OpAssign 1 2; OpLink 0 "base" ptid "unknown" ptid "neck" true]%string.
Lemma careful_ret fuel o os P P1 : step fuel o P = PRet P1 -> careful_call fuel P o -> careful fuel os P1 -> careful fuel (o :: os) P.
Proof. intros E C H. split; auto. intros P' [E'|(e & E')]; rewrite E in E'; [now injection E' as <-|discriminate]. Qed.
Lemma ctor_ok t a f n : joint_ok (mkJ t a f n). Proof. exists a. constructor. Qed.
Lemma link_careful fuel P k s b1 t1 b2 t2 jn d n1 n2 : graph_st P k = Some s -> gok s -> mfind (gBody (snd s)) b1 = Some n1 -> mfind (gBody (snd s)) b2 = Some n2 -> n1 <> n2 ->
  arcs_at (fst s) n1 = [] \/ arcs_at (fst s) n2 = [] -> (forall a e, In a (gNodes (snd s)) -> In e (arcs_at (fst s) a) -> ajn e <> jn) -> careful_call fuel P (OpLink k b1 t1 b2 t2 jn d).
Proof.
  intros Hs G F1 F2 N A J. exists s. split; auto. intros m1 m2 G1 G2. rewrite F1 in G1. rewrite F2 in G2. injection G1 as <-. injection G2 as <-. split; [|exact J].
  intro C. destruct A as [A|A]; [revert C; apply no_conn; auto|]. apply (conn_sym' s) in C; [destruct C as (C & _); revert C; apply no_conn; auto|apply (proj1 G)|]. now apply (ng_body _ (gk_names _ (proj1 G))) in F1.
Qed.
Definition exl_P (k : nat) : Prog := match run_ops 5 (firstn k exl_ops) prog0 with Some P => P | None => prog0 end.
Definition exl_13 : Prog := Eval lazy -[IZR RotX RotY RotZ Rmult Rplus Ropp Rdiv Rminus] in exl_P 13.
Definition exl_14 : Prog := Eval lazy -[IZR RotX RotY RotZ Rmult Rplus Ropp Rdiv Rminus] in exl_P 14.
Definition exl_15 : Prog := Eval lazy -[IZR RotX RotY RotZ Rmult Rplus Ropp Rdiv Rminus] in exl_P 15.
Definition pg (s : GSt) : Prog := mkProg (fst s) [snd s].
Lemma exl_9 : gok exg9.
Proof. apply (gok_step_link _ _ _ _ _ _ 0 1 _ _ exg_s8); [reflexivity|reflexivity|discriminate|right; reflexivity|arcs_cases; discriminate|exact exg_8]. Qed.
Lemma exl_10 : gok exg10.
Proof. apply (gok_step_link _ _ _ _ _ _ 2 1 _ _ exg_s9); [reflexivity|reflexivity|discriminate|left; reflexivity|arcs_cases; discriminate|exact exl_9]. Qed.
Lemma exl_free : forall e, In e (arcs_at (fst exc_s) 7) -> ajn e <> "Root"%string.
Proof. intros e He. cbn in He. destruct He as [<-|[]]. discriminate. Qed.
Lemma exl_careful : careful 5 exl_ops prog0.
Proof.
  unfold exl_ops, exg_ops. cbn [app].
  apply (careful_ret _ _ _ _ (pg exg1)); [nf; reflexivity|exact Logic.I|].
  do 4 (eapply careful_ret; [nf; reflexivity|apply Nat.ltb_lt; reflexivity|]).
  do 3 (eapply careful_ret; [nf; reflexivity|split; [apply Nat.ltb_lt; reflexivity|apply ctor_ok]|]).
  apply (careful_ret _ _ _ _ (pg exg9)); [nf; reflexivity|apply (link_careful _ _ _ exg8 _ _ _ _ _ _ 0 1); [reflexivity|exact exg_8|reflexivity|reflexivity|discriminate|right; reflexivity|arcs_cases; discriminate]|].
  apply (careful_ret _ _ _ _ (pg exg10)); [nf; reflexivity|apply (link_careful _ _ _ exg9 _ _ _ _ _ _ 2 1); [reflexivity|exact exl_9|reflexivity|reflexivity|discriminate|left; reflexivity|arcs_cases; discriminate]|].
  apply (careful_ret _ _ _ _ (pg exg11)); [nf; reflexivity|apply (link_careful _ _ _ exg10 _ _ _ _ _ _ 0 3); [reflexivity|exact exl_10|reflexivity|reflexivity|discriminate|right; reflexivity|arcs_cases; discriminate]|].
  apply (careful_ret _ _ _ _ exc_P); [nf; reflexivity|apply Nat.ltb_lt; reflexivity|].
  apply (careful_ret _ _ _ _ exl_13); [nf; reflexivity| |].
  - exists exc_s. split; [exact exc_st|]. split; [apply Nat.leb_le; reflexivity|]. intros r Hr. replace r with 7; [exact exl_free|]. cbn in Hr. now injection Hr.
  - apply (careful_ret _ _ _ _ exl_14); [nf; reflexivity|split; [apply Nat.ltb_lt; reflexivity|reflexivity]|].
    apply (careful_ret _ _ _ _ exl_15); [nf; reflexivity|split; apply Nat.ltb_lt; reflexivity|].
    split; [|intros; exact Logic.I]. eexists. split; [reflexivity|]. intros n1 n2 _ H. cbn in H. discriminate.
Qed.
Lemma exl_throws : step 5 (OpLink 0 "base" ptid "unknown" ptid "neck" true) exl_15 = PExc OutOfRange exl_15. Proof. nf. reflexivity. Qed.
Lemma exl_end : (exists s1, graph_st exl_15 1 = Some s1 /\ body_names s1 = ["base"; "arm"; "hand"; "head"]%string) /\ (exists s, graph_st exl_13 1 = Some s /\ body_names s = ["base"; "head"]%string).
Proof. split; eexists; split; reflexivity. Qed.
