(** C138: contexts handed from thread to thread. *)
From Coq Require Import List Arith Bool.
From Verif Require Import Base MutexHb SwitchHb SwitchHbSpec SwitchHbFacts SwitchHbFacts2 SwitchHbFacts3.
Import ListNotations.

Theorem C138_in_order : forall pin s, reachable (step pin) init_state s -> in_order (log s) /\ numbered (log s).
Proof. intros pin s R. pose proof (v_core s (reach_inv pin s R)) as K. split; [apply (k_ord s K) | apply (k_num s K)]. Qed.
Theorem C138_join : forall pin s, reachable (step pin) init_state s -> join_complete (log s).
Proof. intros pin s R. pose proof (v_core s (reach_inv pin s R)) as K. apply complete; [apply (k_ord s K) | apply (k_num s K) | apply (k_join s K) | apply (k_fin s K)]. Qed.
Theorem C138_clean : forall pin s, reachable (step pin) init_state s -> clean (log s).
Proof. intros pin s R. apply (k_clean s (v_core s (reach_inv pin s R))). Qed.

(** Fiber 1 is created in thread 0, runs in thread 1, yields, runs in thread 2, waits there with a timeout, is woken by thread 1, put into the shared queue by thread 2, runs again in thread 1 and ends there; the main fiber of thread 0 waits for it in join(); the main fiber of thread 4 joins it later; a fiber of thread 3 does something on its own. *)
Definition ex_run : list label :=
  [LAct 0; LCreate 0 (Wk 1) false; LAct 3; LYield 1; LPick 1 (Wk 1); LAft 1; LAct 1; LJoin 0 (Wk 1); LPick 0 (Dis 0); LAft 0; LYield 1; LPick 1 (Main 1); LAft 1;
   LYield 2; LPick 2 (Wk 1); LAft 2; LAct 2; LWait 2 5 true; LPick 2 (Dis 2); LAft 2; LAct 1; LLock 1 5; LPop 1; LUnlock 1; LSwap 2; LDrain 2 (Wk 1); LYield 1; LPick 1 (Wk 1); LAft 1; LRet 1 false; LAct 1;
   LTerm 1; LPop 1; LUnlock 1; LPick 1 (Main 1); LAft 1; LSwap 0; LDrain 0 (Main 0); LYield 0; LPick 0 (Main 0); LAft 0; LRet 0 false; LJoin 4 (Wk 1)].
(** The actions, and for every return from join() the actions that happen before it. *)
Definition all_acts (l : list event) : list (ctx * nat) := flat_map (fun e => match e with EAct c n _ => [(c, n)] | _ => [] end) (rev l).
Definition joined (l : list event) : list (ctx * ctx * list nat) := flat_map (fun e => match e with EJoined c g w => [(c, g, filter (fun n => mem n w) (map snd (all_acts l)))] | _ => [] end) (rev l).
Definition p9 (n : nat) : bool := n =? 9.
Example ex_C138 : exists s, reachable (step p9) init_state s /\
  all_acts (log s) = [(Main 0, 0); (Main 3, 3); (Wk 1, 8); (Wk 1, 18); (Main 1, 22); (Wk 1, 30)] /\
  joined (log s) = [(Main 0, Wk 1, [0; 8; 18; 22; 30]); (Main 4, Wk 1, [0; 8; 18; 22; 30])].
Proof. apply (reach_by (step p9) init_state ex_run). vm_compute. splits; auto 20. Qed.
(** The pinned fiber 9 is launched with dispatch, sleeps, waits with a timeout, is woken by the timer; thread 1 pops its stale waker; each thread has its own queue, thread 1 steals fiber 2. *)
Definition ex_run2 : list label :=
  [LCreate 0 (Wk 9) true; LAft 0; LAct 0; LSleep 0; LPick 0 (Dis 0); LAft 0; LTimer 0 (Wk 9); LYield 0; LPick 0 (Wk 9); LAft 0; LWait 0 5 true; LPick 0 (Dis 0); LAft 0; LTimer 0 (Wk 9);
   LLock 1 5; LPop 1; LUnlock 1; LYield 0; LPick 0 (Wk 9); LAft 0; LRet 0 true; LCreate 0 (Wk 2) false; LYield 1; LPick 1 (Wk 2); LAft 1; LAct 1; LJoin 1 (Wk 9); LPick 1 (Dis 1); LAft 1;
   LTerm 0; LPop 0; LUnlock 0; LPick 0 (Main 0); LAft 0; LSwap 1; LDrain 1 (Wk 2); LYield 1; LPick 1 (Wk 2); LAft 1; LRet 1 false].
Example ex_C138_timed : exists s, reachable (step p9) init_state s /\ length (filter (fun e => match e with EWake _ (Wk 9) _ => true | _ => false end) (log s)) = 2 /\
  map fst (all_acts (log s)) = [Wk 9; Wk 2] /\ map fst (joined (log s)) = [(Wk 2, Wk 9)].
Proof. apply (reach_by (step p9) init_state ex_run2). vm_compute. splits; auto 20. Qed.
Print Assumptions C138_in_order.
Print Assumptions C138_join.
Print Assumptions C138_clean.
