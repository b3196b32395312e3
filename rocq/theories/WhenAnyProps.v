(** C111, C112, C113: wait_first_...() and wait_all_...() of examples/wait_stuff.cpp. *)
From Coq Require Import List Arith Bool Lia Permutation.
From Verif Require Import Base WhenAny WhenAnySpec WhenAnyFacts.
Import ListNotations.

(** C111 is false: 65 functions on one thread; 63 of them throw and fill the channel; function 63 returns a value and waits for room, function 64 returns a value later and overtakes it. *)
Theorem C111_refuted : exists s, reachable (step FirstSuccess 65 room (fun i => 63 <=? i) false) (init_state 65) s /\ In (EReturn [64]) (log s) /\ first_of (fun i => 63 <=? i) (ends (log s)) 63.
Proof.
  apply (reach_by (step FirstSuccess 65 room (fun i => 63 <=? i) false) (init_state 65) (map End (seq 0 64) ++ [Cons; End 64] ++ repeat Cons 64)).
  vm_compute. splits; auto. exists (seq 0 63), [64]. vm_compute. splits; auto. intros j H. repeat destruct H as [<-|H]; auto. destruct H.
Qed.
Print Assumptions C111_refuted.

(** C111 on one thread, for any number of functions: wait_first_value() returns the value of the function that ends first; wait_first_outcome() returns its value or throws its exception. *)
Theorem C111_first_partial : forall k n cap ok s, (k = FirstValue \/ k = FirstOutcome) -> 0 < n -> 0 < cap -> reachable (step k n cap ok false) (init_state n) s ->
  (forall is, In (EReturn is) (log s) -> exists i, is = [i] /\ ok i = true /\ hd_error (ends (log s)) = Some i) /\
  (forall is, In (EThrow is) (log s) -> k = FirstOutcome /\ exists i, is = [i] /\ ok i = false /\ hd_error (ends (log s)) = Some i).
Proof.
  intros k n cap ok s Hk Hn Hc R. pose proof (i_res k n cap ok false s (inv_reach k n cap ok false Hn s R)) as M. split; intros is X; specialize (M _ X); unfold means in M.
  - destruct Hk as [-> | ->]; cbn [counted] in M; destruct M as (i & A & B & C & D & E & _); exists i; splits; auto; apply E; auto; discriminate.
  - destruct Hk as [-> | ->]; [destruct M|]. split; auto. destruct M as (i & A & B & C & D & E). exists i. splits; auto.
Qed.
Print Assumptions C111_first_partial.

(** C111 on one thread, if the channel has room for all outcomes: wait_first_success() returns the value of the function that ends first among those that return a value. *)
Theorem C111_success_partial : forall n cap ok s, 0 < n -> n <= cap -> reachable (step FirstSuccess n cap ok false) (init_state n) s ->
  forall is, In (EReturn is) (log s) -> exists i, is = [i] /\ first_of ok (ends (log s)) i.
Proof.
  intros n cap ok s Hn Hc R is X. pose proof (i_res _ _ _ _ _ s (inv_reach FirstSuccess n cap ok false Hn s R) _ X) as (i & A & B & C & D & _ & E). exists i. splits; auto.
Qed.
Print Assumptions C111_success_partial.

(** C111 for any number of functions and threads: what wait_first_...() returns is the value of a function that has ended. *)
Theorem C111_some : forall k n cap ok par s, counted k = false -> 0 < n -> reachable (step k n cap ok par) (init_state n) s ->
  forall is, In (EReturn is) (log s) -> exists i, is = [i] /\ i < n /\ ok i = true /\ In i (ends (log s)).
Proof.
  intros k n cap ok par s K Hn R is X. pose proof (i_res _ _ _ _ _ s (inv_reach k n cap ok par Hn s R) _ X) as M. unfold means in M. rewrite K in M. destruct M as (i & A & B & C & D & _). eauto.
Qed.
Print Assumptions C111_some.

(** C111 for any number of functions and threads: wait_first_success() throws only if all functions have thrown, and then all exceptions, each once. *)
Theorem C111_all_failed : forall n cap ok par s, 0 < n -> reachable (step FirstSuccess n cap ok par) (init_state n) s ->
  forall is, In (EThrow is) (log s) -> Permutation is (seq 0 n) /\ forall i, i < n -> ok i = false.
Proof. intros n cap ok par s Hn R is X. exact (i_res _ _ _ _ _ s (inv_reach FirstSuccess n cap ok par Hn s R) _ X). Qed.
Print Assumptions C111_all_failed.

(** C111 for any number of functions and threads: wait_first_...() returns or throws. *)
Theorem C111_returns : forall k n cap ok par s, counted k = false -> safe k n ok -> 0 < n -> 0 < cap -> reachable (step k n cap ok par) (init_state n) s -> stuck k n cap ok par s -> result (log s).
Proof.
  intros k n cap ok par s K Sf Hn Hc R St. pose proof (inv_reach k n cap ok par Hn s R) as Iv. assert (Hd := safe_alive k n cap ok par s Sf R).
  destruct (stuck_done k n cap ok par Hn s R Hc St Hd (or_intror K)) as (Cd & _). pose proof (c_cons _ _ _ s (i_core _ _ _ _ _ s Iv Hd)) as Ci. unfold cinv in Ci. rewrite Cd in Ci. apply Ci.
Qed.
Print Assumptions C111_returns.

(** C112 is false: two functions on two threads return values; both fibers read limit_ before one of them writes it, the channel is not closed and wait_all_values() waits for ever. *)
Theorem C112_refuted : exists s, reachable (step AllValues 2 room (fun _ => true) true) (init_state 2) s /\ stuck AllValues 2 room (fun _ => true) true s /\ ends (log s) = [0; 1] /\ ~ result (log s).
Proof.
  assert (X : exists s, reachable (step AllValues 2 room (fun _ => true) true) (init_state 2) s /\ dead s = false /\ stuckb AllValues 2 room (fun _ => true) true s = true /\ log s = [EPop 1; EPop 0; EPush 1; EPush 0; EEnd 1; EEnd 0]).
  { apply (reach_by (step AllValues 2 room (fun _ => true) true) (init_state 2) [End 0; End 1; Push 0; Push 1; DecR 0; DecR 1; DecW 0; DecW 1; Cons; Cons]). vm_compute. auto. }
  destruct X as (s & R & D & St & L). exists s. splits; auto.
  - apply stuckb_ok; auto. apply inv_reach; auto.
  - now rewrite L.
  - rewrite L. intros (is & [X|X]); simpl in X; repeat destruct X as [X|X]; try discriminate; destruct X.
Qed.
Print Assumptions C112_refuted.

(** C112, for any number of functions and threads: if wait_all_...() returns, it returns the value of every function, each once, and no function has thrown. *)
Theorem C112_values_partial : forall k n cap ok par s, counted k = true -> 0 < n -> reachable (step k n cap ok par) (init_state n) s ->
  forall is, In (EReturn is) (log s) -> Permutation is (seq 0 n) /\ forall i, i < n -> ok i = true.
Proof. intros k n cap ok par s K Hn R is X. pose proof (i_res _ _ _ _ _ s (inv_reach k n cap ok par Hn s R) _ X) as M. unfold means in M. rewrite K in M. exact M. Qed.
Print Assumptions C112_values_partial.

(** C112: wait_all_collect_errors() throws the exceptions of all functions that throw, each once. *)
Theorem C112_collect_partial : forall n cap ok par s, 0 < n -> reachable (step CollectErrors n cap ok par) (init_state n) s ->
  forall is, In (EThrow is) (log s) -> is <> [] /\ Permutation is (filter (fun i => negb (ok i)) (seq 0 n)).
Proof. intros n cap ok par s Hn R is X. exact (i_res _ _ _ _ _ s (inv_reach CollectErrors n cap ok par Hn s R) _ X). Qed.
Print Assumptions C112_collect_partial.

(** C112: wait_all_until_error() throws the exception of a function that throws; on one thread, if the channel has room for all outcomes, of the function that throws first. *)
Theorem C112_error_partial : forall n cap ok par s, 0 < n -> reachable (step UntilError n cap ok par) (init_state n) s ->
  forall is, In (EThrow is) (log s) -> exists i, is = [i] /\ ok i = false /\ i < n /\ In i (ends (log s)) /\ (par = false -> n <= cap -> first_of (fun j => negb (ok j)) (ends (log s)) i).
Proof. intros n cap ok par s Hn R is X. pose proof (i_res _ _ _ _ _ s (inv_reach UntilError n cap ok par Hn s R) _ X) as (i & A & B & C & D & E). exists i. splits; auto. Qed.
Print Assumptions C112_error_partial.

(** C112 on one thread: wait_all_...() returns or throws. *)
Theorem C112_returns_partial : forall k n cap ok s, counted k = true -> safe k n ok -> 0 < n -> 0 < cap -> reachable (step k n cap ok false) (init_state n) s -> stuck k n cap ok false s -> result (log s).
Proof.
  intros k n cap ok s K Sf Hn Hc R St. pose proof (inv_reach k n cap ok false Hn s R) as Iv. assert (Hd := safe_alive k n cap ok false s Sf R).
  destruct (stuck_done k n cap ok false Hn s R Hc St Hd (or_introl eq_refl)) as (Cd & _). pose proof (c_cons _ _ _ s (i_core _ _ _ _ _ s Iv Hd)) as Ci. unfold cinv in Ci. rewrite Cd in Ci. apply Ci.
Qed.
Print Assumptions C112_returns_partial.

(** C113 is false: 65 functions on one thread; the first one throws, wait_all_until_error() throws its exception; 63 of the other outcomes find room in the channel, the last fiber waits for ever. *)
Theorem C113_refuted : exists s, reachable (step UntilError 65 room (fun i => negb (i =? 0)) false) (init_state 65) s /\ stuck UntilError 65 room (fun i => negb (i =? 0)) false s /\ In (EThrow [0]) (log s) /\ prod s 64 = PPush.
Proof.
  assert (X : exists s, reachable (step UntilError 65 room (fun i => negb (i =? 0)) false) (init_state 65) s /\ dead s = false /\ stuckb UntilError 65 room (fun i => negb (i =? 0)) false s = true /\ existsb (fun e => match e with EThrow [0] => true | _ => false end) (log s) = true /\ prod s 64 = PPush).
  { apply (reach_by (step UntilError 65 room (fun i => negb (i =? 0)) false) (init_state 65) ([End 0; Cons] ++ map End (seq 1 64))). vm_compute. auto. }
  destruct X as (s & R & D & St & L & P). exists s. splits; auto.
  - assert (N : 0 < 65) by lia. apply stuckb_ok; auto. apply inv_reach; auto.
  - apply existsb_exists in L. destruct L as (e & A & B). destruct e as [| | | | | |[|[|] [|]]| |]; try discriminate. exact A.
Qed.
Print Assumptions C113_refuted.

(** C113: every fiber ends, on any number of threads after wait_first_...(), on one thread after wait_all_values() and wait_all_collect_errors(), and after wait_all_until_error() if the channel has room for all outcomes but one. *)
Theorem C113_fibers_partial : forall k n cap ok par s, safe k n ok -> 0 < n -> 0 < cap -> (counted k = false \/ (par = false /\ (k <> UntilError \/ n <= S cap))) ->
  reachable (step k n cap ok par) (init_state n) s -> stuck k n cap ok par s -> over n s.
Proof.
  intros k n cap ok par s Sf Hn Hc H R St. assert (Hd := safe_alive k n cap ok par s Sf R).
  destruct (stuck_done k n cap ok par Hn s R Hc St Hd) as (Cd & A); [tauto|]. split; auto. apply A. tauto.
Qed.
Print Assumptions C113_fibers_partial.

(** C113, for any number of functions and threads: there is no infinite execution. *)
Theorem C113_ends : forall k n cap ok par tr s, 0 < n -> exec (step k n cap ok par) (init_state n) tr = Some s -> length tr <= 5 * n + 3.
Proof. intros k n cap ok par tr s Hn E. exact (steps_bound k n cap ok par Hn tr s E). Qed.
Print Assumptions C113_ends.

(** Cases: three functions end in the order 2, 0, 1; function 2 throws where this is allowed. *)
Example C111_case_value : exists s, reachable (step FirstValue 3 room (fun _ => true) false) (init_state 3) s /\ stuckb FirstValue 3 room (fun _ => true) false s = true /\ log s = [EDrop 1; EEnd 1; EReturn [2]; EClose; EPop 2; EPush 0; EEnd 0; EPush 2; EEnd 2].
Proof. apply (reach_by (step FirstValue 3 room (fun _ => true) false) (init_state 3) [End 2; End 0; Cons; Cons; End 1]). vm_compute. auto. Qed.
Example C111_case_outcome : exists s, reachable (step FirstOutcome 3 room (fun i => i <? 2) false) (init_state 3) s /\ log s = [EThrow [2]; EClose; EPop 2; EPush 0; EEnd 0; EPush 2; EEnd 2].
Proof. apply (reach_by (step FirstOutcome 3 room (fun i => i <? 2) false) (init_state 3) [End 2; End 0; Cons; Cons]). vm_compute. auto. Qed.
Example C111_case_success : exists s, reachable (step FirstSuccess 3 room (fun i => i <? 2) false) (init_state 3) s /\ stuckb FirstSuccess 3 room (fun i => i <? 2) false s = true /\ log s = [EDrop 1; EEnd 1; EReturn [0]; EClose; EPop 0; EPop 2; EPush 0; EEnd 0; EPush 2; EEnd 2].
Proof. apply (reach_by (step FirstSuccess 3 room (fun i => i <? 2) false) (init_state 3) [End 2; End 0; Cons; Cons; Cons; End 1]). vm_compute. auto. Qed.
Example C111_case_none : exists s, reachable (step FirstSuccess 3 room (fun _ => false) true) (init_state 3) s /\ log s = [EThrow [0; 2; 1]; EPop 1; EPop 2; EPush 1; EPush 2; EEnd 1; EEnd 2; EPop 0; EPush 0; EEnd 0].
Proof. apply (reach_by (step FirstSuccess 3 room (fun _ => false) true) (init_state 3) [End 0; Push 0; Cons; End 2; End 1; Push 2; Push 1; Cons; Cons]). vm_compute. auto. Qed.
Example C112_case_values : exists s, reachable (step AllValues 3 room (fun _ => true) false) (init_state 3) s /\ stuckb AllValues 3 room (fun _ => true) false s = true /\ log s = [EReturn [2; 0; 1]; EPop 1; EClose; EPush 1; EEnd 1; EPop 0; EPop 2; EPush 0; EEnd 0; EPush 2; EEnd 2].
Proof. apply (reach_by (step AllValues 3 room (fun _ => true) false) (init_state 3) [End 2; End 0; Cons; Cons; End 1; Cons; Cons]). vm_compute. auto. Qed.
Example C112_case_collect : exists s, reachable (step CollectErrors 3 room (fun i => i =? 1) false) (init_state 3) s /\ log s = [EThrow [2; 0]; EPop 1; EPop 0; EPop 2; EClose; EPush 1; EEnd 1; EPush 0; EEnd 0; EPush 2; EEnd 2].
Proof. apply (reach_by (step CollectErrors 3 room (fun i => i =? 1) false) (init_state 3) [End 2; End 0; End 1; Cons; Cons; Cons; Cons]). vm_compute. auto. Qed.
Example C112_case_error : exists s, reachable (step UntilError 3 room (fun i => i =? 2) false) (init_state 3) s /\ stuckb UntilError 3 room (fun i => i =? 2) false s = true /\ log s = [EClose; EPush 1; EEnd 1; EThrow [0]; EPop 0; EPop 2; EPush 0; EEnd 0; EPush 2; EEnd 2].
Proof. apply (reach_by (step UntilError 3 room (fun i => i =? 2) false) (init_state 3) [End 2; End 0; Cons; Cons; End 1]). vm_compute. auto. Qed.
(** wait_all_until_error() with two functions and room for one outcome only; all fibers end. *)
Example C113_case : exists s, reachable (step UntilError 2 1 (fun i => i =? 1) false) (init_state 2) s /\ stuckb UntilError 2 1 (fun i => i =? 1) false s = true /\ over 2 s /\ log s = [EClose; EPush 1; EThrow [0]; EPop 0; EEnd 1; EPush 0; EEnd 0].
Proof.
  apply (reach_by (step UntilError 2 1 (fun i => i =? 1) false) (init_state 2) [End 0; End 1; Cons; Push 1]). vm_compute. splits; auto. intros [|[|i]] H; auto. exfalso. inversion H as [|m H1]. inversion H1 as [|m2 H2]. inversion H2.
Qed.
