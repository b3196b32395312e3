(** C133: try_push_() and try_value_pop_() of the channel for threads with the memory orders of the code. *)
From Coq Require Import List Arith Bool Lia.
From Verif Require Import Base.
From Verif Require ThChan.
From Verif Require Import ThChanWeak ThChanWeakSpec ThChanWeakFacts.
Import ListNotations.

(** Missing: capacity 1 (see C133_refuted), wrap-around of the indices. *)
Theorem C133_partial : forall cap s, ThChan.accepted cap = true -> 2 <= cap -> reachable (step cap) (init_state cap) s ->
  race_free (log s) /\ in_order (log s) /\ passed (log s).
Proof.
  intros cap s A T R. pose proof (reach_inv cap A T s R) as I. pose proof (reach_inv2 cap s R) as K. split; [|split].
  - exact (i_race cap s I).
  - red. rewrite (i_enq cap s I), (i_clm cap s I), !rev_length, !seq_length. splits; auto.
    + apply (cons_le cap A T s I).
    + apply (i_nd cap s I).
  - intros t i v w H. split; [eapply (j_dq s K); eauto|].
    destruct (i_deq cap s I _ _ _ _ H) as ((t' & w' & B & C) & _). apply in_split in B. destruct B as (l1 & l2 & B).
    exists t', w', l1, l2. splits; auto. intros n N. apply C. pose proof (j_good s K) as G. rewrite B in G. eapply good_split; eauto.
Qed.
(** Two producers that reuse a slot, and a consumer that has seen the actions of both. *)
Definition ex_run : list label :=
  [Act 1; Push 1 10; Run 1 0; Run 1 0; Run 1 0; Run 1 0; Run 1 0;
   Act 2; Push 2 20; Run 2 0; Run 2 0; Run 2 1; Run 2 0; Run 2 2; Run 2 0; Run 2 0; Run 2 0; Run 2 0;
   Push 2 30; Run 2 2; Run 2 0;
   Pop 3; Run 3 0; Run 3 0; Run 3 0; Run 3 0; Run 3 0;
   Push 2 30; Run 2 2; Run 2 0; Run 2 0; Run 2 0; Run 2 0;
   Pop 4; Run 4 0; Run 4 0; Run 4 1; Run 4 0; Run 4 0; Run 4 0; Run 4 0].
Example ex_C133 : ThChan.accepted 2 = true /\ exists s, reachable (step 2) (init_state 2) s /\
  enqs (log s) = [2; 1; 0] /\ claims (log s) = [1; 0] /\ In (EFull 2 30) (log s) /\
  (exists w, In (EDeq 3 0 10 w) (log s) /\ In (EAct 1 0) (log s) /\ In 0 w) /\
  (exists w, In (EDeq 4 1 20 w) (log s) /\ In (EAct 2 2) (log s) /\ In 2 w).
Proof.
  split; [reflexivity|]. apply (reach_by (step 2) (init_state 2) ex_run). vm_compute. splits; auto 20.
  - exists [1; 0]. splits; auto 20.
  - exists [3; 1; 0; 2; 5; 4; 1; 0; 1; 0; 3; 1; 0; 2]. splits; auto 20.
Qed.
(** With capacity 1, which the constructor accepts, the cycle that publishes a value also says that the slot is free for the next one. *)
Theorem C133_refuted : ThChan.accepted 1 = true /\ exists s, reachable (step 1) (init_state 1) s /\ ~ race_free (log s).
Proof.
  split; [reflexivity|].
  apply (reach_by (step 1) (init_state 1) [Push 1 10; Run 1 0; Run 1 0; Run 1 0; Run 1 0; Run 1 0;
    Push 2 20; Run 2 1; Run 2 0; Run 2 0; Run 2 0; Pop 3; Run 3 0; Run 3 0; Run 3 0; Run 3 0]).
  vm_compute. intros H. apply (H 3 0). auto.
Qed.
Print Assumptions C133_partial.
Print Assumptions C133_refuted.
