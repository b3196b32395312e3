(** C122, C123: the channel for threads of the benchmarks. *)
From Coq Require Import List Arith Bool Lia.
From Verif Require Import Base ThChan ThChanSpec ThChanFacts ThChanFacts2 ThChanFacts3.
Import ListNotations.

(** C122: the constructor accepts exactly the powers of two. *)
Theorem C122_capacity : forall cap, accepted cap = true <-> exists k, cap = 2 ^ k.
Proof. exact accepted_pow. Qed.
Print Assumptions C122_capacity.

(** Traces of the examples: push() without waiting. *)
Definition push_of (t v : nat) : list label := Push t v :: repeat (Run t) 7.

(** C122 is false for capacity 1, which the constructor accepts: the second push() succeeds although nothing has been taken out of the channel ... *)
Theorem C122_refuted : accepted 1 = true /\ exists s, reachable (step 1) init_state s /\ log s = [EOk 0 8; EEnq 0 8; ECallPush 0 8; EOk 0 7; EEnq 0 7; ECallPush 0 7] /\ accept 1 (log s) = None.
Proof. split; [reflexivity|]. apply (reach_by (step 1) init_state (push_of 0 7 ++ push_of 0 8)). vm_compute. splits; auto. Qed.
Print Assumptions C122_refuted.

(** ... and a value_pop() that comes then does not end: however often its thread runs, it is in the loop of try_value_pop_(). *)
Theorem C122_loop_refuted : exists s, reachable (step 1) init_state s /\ log s = [ECallPop 1; EOk 0 8; EEnq 0 8; ECallPush 0 8; EOk 0 7; EEnq 0 7; ECallPush 0 7] /\
  forall n, exists s', exec (step 1) s (repeat (Run 1) n) = Some s' /\ log s' = log s /\ (pc s' 1 = CLoad \/ exists i, pc s' 1 = CCyc i).
Proof.
  assert (L : forall n s, cidx s = 0 -> cyc s 0 = 2 -> pc s 1 = CLoad \/ pc s 1 = CCyc 0 -> exists s', exec (step 1) s (repeat (Run 1) n) = Some s' /\ log s' = log s /\ (pc s' 1 = CLoad \/ exists i, pc s' 1 = CCyc i)).
  { induction n as [|n IH]; intros s C Y P.
    - exists s. simpl. splits; auto. destruct P; eauto.
    - cbn [repeat exec]. unfold step at 1. unfold run. destruct P as [P|P]; rewrite P.
      + destruct (IH (go s 1 (CCyc (cidx s)))) as (s' & A & B & D); auto; [simpl; rewrite upd_same, C; auto|]. exists s'. splits; auto.
      + change (slot 1 0) with 0. rewrite Y. simpl (2 =? 1). simpl (2 <? 1). cbv iota. destruct (IH (go s 1 CLoad)) as (s' & A & B & D); auto. exists s'. splits; auto. }
  assert (X : exists s, reachable (step 1) init_state s /\ log s = [ECallPop 1; EOk 0 8; EEnq 0 8; ECallPush 0 8; EOk 0 7; EEnq 0 7; ECallPush 0 7] /\ cidx s = 0 /\ cyc s 0 = 2 /\ pc s 1 = CLoad).
  { apply (reach_by (step 1) init_state (push_of 0 7 ++ push_of 0 8 ++ [Pop 1])). vm_compute. splits; auto. }
  destruct X as (s & R & G & C & Y & P). exists s. splits; auto.
Qed.
Print Assumptions C122_loop_refuted.

(** C122, for all accepted capacities but 1: whatever any number of threads do, the events are those of a FIFO queue with at most [cap] values: every operation has its effect once between call and return, value_pop() returns the value that it has removed, no storage without object is read. *)
Theorem C122_fifo_partial : forall cap s, accepted cap = true -> 2 <= cap -> reachable (step cap) init_state s -> exists a, accept cap (log s) = Some a.
Proof. intros cap s A C R. destruct (inv_reach cap A C s R) as (a & I). exists a. apply I. Qed.
Print Assumptions C122_fifo_partial.

(** Two producers and a consumer with capacity 2: the second producer claims its slot after the first one and is done before. *)
Example C122_case : accepted 2 = true /\ exists s, reachable (step 2) init_state s /\ log s = [ERet 3 7; EDeq 3; EOk 0 7; ECallPop 3; EOk 1 8; EEnq 1 8; EEnq 0 7; ECallPush 1 8; ECallPush 0 7] /\ exists a, accept 2 (log s) = Some a /\ queue a = [8].
Proof.
  split; [reflexivity|]. apply (reach_by (step 2) init_state ([Push 0 7; Push 1 8] ++ repeat (Run 0) 4 ++ repeat (Run 1) 3 ++ [Spur 1] ++ repeat (Run 1) 5 ++ [Pop 3] ++ repeat (Run 0) 3 ++ repeat (Run 3) 6)).
  vm_compute. splits; auto. eexists. split; reflexivity.
Qed.
Example C122_case_capacity : accepted 16 = true /\ accepted 10 = false /\ accepted 0 = false.
Proof. vm_compute. auto. Qed.

(** C123 is false: value_pop() notifies not_full_cnd_ without mtx_. A producer that has found the channel full and is about to wait misses it and sleeps although the channel is not full; nothing else can happen. *)
Theorem C123_refuted : accepted 2 = true /\ exists s a, reachable (step 2) init_state s /\ stuck 2 s /\ pc s 0 = PSleep 9 /\ accept 2 (log s) = Some a /\ queue a = [8] /\ log s = [ERet 1 7; EDeq 1; ECallPop 1; ECallPush 0 9; EOk 0 8; EEnq 0 8; ECallPush 0 8; EOk 0 7; EEnq 0 7; ECallPush 0 7].
Proof.
  split; [reflexivity|]. assert (X : exists s, reachable (step 2) init_state s /\ (exists a, accept 2 (log s) = Some a /\ queue a = [8]) /\ log s = [ERet 1 7; EDeq 1; ECallPop 1; ECallPush 0 9; EOk 0 8; EEnq 0 8; ECallPush 0 8; EOk 0 7; EEnq 0 7; ECallPush 0 7] /\ pc s 0 = PSleep 9 /\ (forall t, t <> 0 -> pc s t = Idle)).
  { apply (reach_by (step 2) init_state (push_of 0 7 ++ push_of 0 8 ++ [Push 0 9] ++ repeat (Run 0) 10 ++ [Pop 1] ++ repeat (Run 1) 6 ++ [Run 0])). vm_compute. splits; auto; [eexists; split; reflexivity|]. intros [|[|t]] N; auto. destruct N. auto. }
  destruct X as (s & R & (a & A & Q) & L & P & I). exists s, a. splits; auto. intros t. unfold run, step. destruct (Nat.eq_dec t 0) as [->|N]; [rewrite P|rewrite (I t N)]; splits; auto.
Qed.
Print Assumptions C123_refuted.

(** C123 is false for consumers, too, if there are several producers and consumers: the second value is published before the first one, the notification wakes a consumer that finds the first slot empty and sleeps again; the notification for the first value wakes one consumer, and the other one sleeps although there is a value. *)
Theorem C123_pop_refuted : exists s a, reachable (step 2) init_state s /\ stuck 2 s /\ pc s 0 = CSleep /\ accept 2 (log s) = Some a /\ queue a = [8] /\ log s = [ERet 1 7; EDeq 1; EOk 2 7; EOk 3 8; EEnq 3 8; ECallPush 3 8; EEnq 2 7; ECallPush 2 7; ECallPop 1; ECallPop 0].
Proof.
  assert (X : exists s, reachable (step 2) init_state s /\ (exists a, accept 2 (log s) = Some a /\ queue a = [8]) /\ log s = [ERet 1 7; EDeq 1; EOk 2 7; EOk 3 8; EEnq 3 8; ECallPush 3 8; EEnq 2 7; ECallPush 2 7; ECallPop 1; ECallPop 0] /\ pc s 0 = CSleep /\ (forall t, t <> 0 -> pc s t = Idle)).
  { apply (reach_by (step 2) init_state ((Pop 0 :: repeat (Run 0) 10) ++ (Pop 1 :: repeat (Run 1) 10) ++ (Push 2 7 :: repeat (Run 2) 4) ++ (Push 3 8 :: repeat (Run 3) 6) ++ (Note 3 1 :: repeat (Run 1) 5) ++ repeat (Run 2) 2 ++ (Note 2 1 :: repeat (Run 1) 10))). vm_compute. splits; auto; [eexists; split; reflexivity|]. intros [|[|[|[|t]]]] N; auto. destruct N. auto. }
  destruct X as (s & R & (a & A & Q) & L & P & I). exists s, a. splits; auto. intros t. unfold run, step. destruct (Nat.eq_dec t 0) as [->|N]; [rewrite P|rewrite (I t N)]; splits; auto.
Qed.
Print Assumptions C123_pop_refuted.

(** C123: close() wakes everybody: afterwards no thread is asleep, and if nothing can go on, all operations have returned. *)
Theorem C123_closed_partial : forall cap s, reachable (step cap) init_state s -> closed s = true -> (forall t, ~ asleep s t) /\ (stuck cap s -> forall t, pc s t = Idle).
Proof.
  intros cap s R C. pose proof (binv_reach cap s R) as B. split; [exact (closed_awake s B C)|]. intros S t. destruct (stuck_cases cap s B S) as (_ & X). destruct (X t) as [|Y]; auto. destruct (closed_awake s B C t Y).
Qed.
Print Assumptions C123_closed_partial.

(** C123: nothing but waiting in a condition variable can keep a thread from going on (no deadlock by mtx_). *)
Theorem C123_stuck_partial : forall cap s, reachable (step cap) init_state s -> stuck cap s -> mtx s = None /\ forall t, pc s t = Idle \/ asleep s t.
Proof. intros cap s R S. exact (stuck_cases cap s (binv_reach cap s R) S). Qed.
Print Assumptions C123_stuck_partial.

(** C123, for one consumer and any number of producers: if it is left asleep in value_pop(), the channel is empty. *)
Theorem C123_consumer_partial : forall cap c s, accepted cap = true -> 2 <= cap -> reachable (one_consumer cap c) init_state s -> stuck cap s -> pc s c = CSleep -> exists a, accept cap (log s) = Some a /\ queue a = [].
Proof.
  intros cap c s A C R S P. destruct (one_reach cap c s R) as (R2 & Ci). destruct (inv_reach cap A C s R2) as (a & I). exists a. split; [apply I|].
  destruct (stuck_cases cap s (binv_reach cap s R2) S) as (_ & X).
  assert (NN : forall t, noted (pc s t) = false /\ wr (pc s t) = None) by (intros t; destruct (X t) as [Y|[(v & Y)|Y]]; rewrite Y; auto).
  assert (E : cidx s = pidx s).
  { pose proof (i_idx cap s a I) as Ix. destruct (Nat.eq_dec (cidx s) (pidx s)) as [|N]; auto. exfalso. destruct (i_q cap s a I (cidx s)) as [(t & v & W)|(Y & _)]; [lia| |].
    - destruct (NN t) as (_ & Z). congruence.
    - destruct (c_w cap c s Ci) as (t & Z); [rewrite P; auto|auto|]. destruct (NN t). congruence. }
  pose proof (i_len cap s a I) as L. destruct (queue a); auto. simpl in L. lia.
Qed.
Print Assumptions C123_consumer_partial.

(** A consumer is asleep in an empty channel; close() wakes it and value_pop() throws. *)
Example C123_case : exists s, reachable (one_consumer 2 0) init_state s /\ pc s 0 = CSleep /\ (forall t, t <> 0 -> pc s t = Idle) /\ log s = [ECallPop 0; ERet 0 7; EDeq 0; ECallPop 0; EOk 1 7; EEnq 1 7; ECallPush 1 7].
Proof. apply (reach_by (one_consumer 2 0) init_state (push_of 1 7 ++ (Pop 0 :: repeat (Run 0) 6) ++ Pop 0 :: repeat (Run 0) 10)). vm_compute. splits; auto. intros [|[|t]] N; auto; destruct N; auto. Qed.
Example C123_case_closed : exists s, reachable (step 2) init_state s /\ closed s = true /\ pc s 0 = Idle /\ log s = [EThrow 0; EClose 1; ECallPop 0].
Proof. apply (reach_by (step 2) init_state ((Pop 0 :: repeat (Run 0) 10) ++ Close 1 :: repeat (Run 0) 6)). vm_compute. splits; auto. Qed.
