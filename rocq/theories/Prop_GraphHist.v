(** C69: histories of careful calls on graphs. *)
From Coq Require Import Reals String ZArith Bool Arith List.
From Verif Require Import Res SMap Vec Mat Sva JointM MultiBodyM KinM GraphM Spec SpecGraph SpecGraphOp GraphLegalP GraphLegalExP GraphExP.
Import ListNotations.

(** C69: in a careful history no call is undefined or fails to return (exceptions are caught by
    the caller), and after it every graph is consistent and without cycles. *)
Theorem C69_history : forall fuel os, careful fuel os prog0 ->
  exists P, run_ops fuel os prog0 = Some P /\ (forall k s, graph_st P k = Some s -> gok s /\ link_joints joint_ok s).
Proof. exact careful_runs. Qed.
Print Assumptions C69_history.
Example C69_applies : careful 5 exl_ops prog0 /\ step 5 (OpLink 0 "base" ptid "unknown" ptid "neck" true) exl_15 = PExc OutOfRange exl_15 /\
  (exists s, graph_st exl_13 1 = Some s /\ body_names s = ["base"; "head"]%string).
Proof. split; [exact exl_careful|]. split; [exact exl_throws|exact (proj2 exl_end)]. Qed.
