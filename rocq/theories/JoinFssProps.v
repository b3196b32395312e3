(** C106, C107: join() and the cleanup functions of fiber-local storage. *)
From Coq Require Import List Arith Bool Lia.
From Verif Require Import Base JoinFss JoinFssSpec JoinFssFacts.
Import ListNotations.

Section W.
(** Fibers 0 and 1 on thread 0, all others on thread 1; two cleanup functions each. *)
Definition thr0 (f : nat) : nat := if Nat.ltb f 2 then 0 else 1.
Definition two (f : nat) : nat := 2.
End W.

(** C106 is false: fiber 2 of another thread waits in join() for fiber 0 and returns before the first cleanup function of fiber 0 has run; nobody suspends in a cleanup function. *)
Theorem C106_refuted : exists s, plain thr0 two s /\ ~ complete two (log s).
Proof.
  destruct (exec (step thr0 two) init_state [Pick 0; Pick 2; Join 2 0; Go 2; Exit 0; Pick 2; Go 2]) as [s|] eqn:E; [|vm_compute in E; discriminate].
  exists s. split.
  - cbn [exec] in E. 
    assert (P := p_init thr0 two).
    repeat match type of E with
    | (match step ?t ?m ?x ?l with Some _ => _ | None => _ end) = _ =>
        let y := fresh "y" in let Y := fresh "Y" in destruct (step t m x l) as [y|] eqn:Y; [|discriminate];
        apply (p_step _ _ _ _ _ P) in Y; [|intros f k [X|X]; discriminate]; clear P; rename Y into P
    end. injection E as <-. exact P.
  - intros C. vm_compute in E. injection E as <-. specialize (C [] _ 2 0 eq_refl). vm_compute in C. discriminate.
Qed.
Print Assumptions C106_refuted.

(** C106 is also false within a single thread if a cleanup function suspends its fiber. *)
Theorem C106_refuted_yield : exists s, reachable (step (fun _ => 0) two) init_state s /\ ~ complete two (log s).
Proof.
  apply (reach_by (step (fun _ => 0) two) init_state [Pick 1; Join 1 0; Go 1; Pick 0; Exit 0; Yield 0; Pick 1; Go 1]). vm_compute.
  intros C. specialize (C [] _ 1 0 eq_refl). vm_compute in C. discriminate.
Qed.
Print Assumptions C106_refuted_yield.

(** C106, for all executions: join() returns only after the function of the fiber has returned, and a join() that finds the fiber terminated returns after its last cleanup function. *)
Theorem C106_now_partial : forall thr n s, reachable (step thr n) init_state s ->
  (forall g c, In (EJoined g c) (log s) -> In (EExit c) (log s)) /\ complete_now n (log s).
Proof.
  intros thr n s R. pose proof (inv_reach thr n s R) as I. split.
  - intros g c X. eapply i_exit; eauto. eapply i_joined; eauto.
  - eapply i_now; eauto.
Qed.
Print Assumptions C106_now_partial.

(** C106, if no cleanup function suspends its fiber: join() by a fiber of the same thread returns after the last cleanup function. *)
Theorem C106_same_thread_partial : forall thr n s, plain thr n s ->
  forall a b g c, log s = a ++ EJoined g c :: b -> thr g = thr c -> cleaned b c = n c.
Proof. intros thr n s P. exact (plain_same thr n s P). Qed.
Print Assumptions C106_same_thread_partial.

(** C106, every cleanup function of a fiber has run when terminate() gives up the processor, and none runs twice. *)
Theorem C106_all : forall thr n s, reachable (step thr n) init_state s ->
  forall c, cleaned (log s) c <= n c /\ (fib s c = Gone -> cleaned (log s) c = n c) /\ (0 < cleaned (log s) c -> In (EExit c) (log s)).
Proof.
  intros thr n s R c. pose proof (inv_reach thr n s R) as I. pose proof (i_stage n s I c) as S. pose proof (i_exit n s I c) as X. unfold stage in S.
  destruct (fib s c); destruct S as (A & B); splits; try (intros; discriminate); try lia; auto; intros; try lia; auto.
Qed.
Print Assumptions C106_all.

(** A case: fiber 1 waits for fiber 0 of its thread, which ends; fiber 2 of another thread spins meanwhile and returns without having waited. *)
Example C106_case : exists s, plain thr0 two s /\
  log s = [EJoined 1 0; EJoined 2 0; ENow 2 0; EEnded 0; EClean 0; EClean 0; EJoin 2 0; EExit 0; EJoin 1 0].
Proof.
  destruct (exec (step thr0 two) init_state [Pick 1; Join 1 0; Go 1; Pick 0; Exit 0; Pick 2; Join 2 0; Clean 0; Clean 0; End 0; Go 2; Pick 1; Go 1]) as [s|] eqn:E; [|vm_compute in E; discriminate].
  exists s. split.
  - cbn [exec] in E. assert (P := p_init thr0 two).
    repeat match type of E with
    | (match step ?t ?m ?x ?l with Some _ => _ | None => _ end) = _ =>
        let y := fresh "y" in let Y := fresh "Y" in destruct (step t m x l) as [y|] eqn:Y; [|discriminate];
        apply (p_step _ _ _ _ _ P) in Y; [|intros f k [X|X]; discriminate]; clear P; rename Y into P
    end. injection E as <-. exact P.
  - vm_compute in E. injection E as <-. reflexivity.
Qed.

(** C107 is false: a cleanup function of fiber 0 yields, with the lock held; fiber 1 of the same thread calls join(): whatever happens from then on, fiber 1 spins, nothing else runs on that thread, and the cleanup function does not return. *)
Theorem C107_refuted : exists s, reachable (step thr0 two) init_state s /\ In (EExit 0) (log s) /\ In (EJoin 1 0) (log s) /\
  forall s', reachable (step thr0 two) s s' -> run s' 0 = Some 1 /\ fib s' 1 = Spin 0 /\ step thr0 two s' (Go 1) = None /\ fib s' 0 = Cleaning 1.
Proof.
  assert (X : exists s, reachable (step thr0 two) init_state s /\ In (EExit 0) (log s) /\ In (EJoin 1 0) (log s) /\ hung thr0 s 1 0 /\ fib s 0 = Cleaning 1).
  { apply (reach_by (step thr0 two) init_state [Pick 0; Exit 0; Clean 0; Yield 0; Pick 1; Join 1 0]). vm_compute. splits; eauto. }
  destruct X as (s & R & A & B & H & F). exists s. splits; auto. intros s' R'.
  assert (G : hung thr0 s' 1 0 /\ fib s' 0 = Cleaning 1).
  { revert s' R'. apply (reachable_inv (step thr0 two) (fun x => hung thr0 x 1 0 /\ fib x 0 = Cleaning 1) s); [auto|]. clear.
    intros s l s' (H & F) E. split; [eapply hung_step; eauto|]. exact (hung_clean thr0 two s l s' 1 0 _ H F E). }
  clear - G. destruct G as ((_ & Rn & G & k & C) & F). splits; auto.
  - exact (runs_at thr0 s' 1 Rn).
  - unfold step. rewrite Rn, G. unfold locked. now rewrite F.
Qed.
Print Assumptions C107_refuted.

(** C107, for all executions: nobody waits for a fiber that has terminated, and a fiber that waited and has been woken returns as soon as it is resumed. *)
Theorem C107_woken_partial : forall thr n s, reachable (step thr n) init_state s ->
  (forall g c, In (EExit c) (log s) -> fib s g <> Waiting c) /\
  (forall g c, fib s g = Woken c -> runs thr s g = true -> exists s', step thr n s (Go g) = Some s' /\ log s' = EJoined g c :: log s).
Proof.
  intros thr n s R. pose proof (inv_reach thr n s R) as I. split.
  - intros g c X W. pose proof (i_wait n s I g c W). rewrite (exit_ended thr n s R c X) in H. discriminate.
  - intros g c W Rn. unfold step. rewrite Rn, W. eexists. split; reflexivity.
Qed.
Print Assumptions C107_woken_partial.

(** C107, for all executions: the fiber that has the processor of a thread can go on, unless it spins for a lock that is held; in particular a fiber that waits in join() leaves the processor to others. *)
Theorem C107_processor_partial : forall thr n s, reachable (step thr n) init_state s -> forall t f, run s t = Some f ->
  (exists l s', (l = Yield f \/ l = Clean f \/ l = End f \/ l = Go f) /\ step thr n s l = Some s') \/ exists c k, fib s f = Spin c /\ fib s c = Cleaning k.
Proof.
  intros thr n s R t f Rf. destruct (run_able thr n s R t f Rf) as (T & A).
  assert (X : runs thr s f = true) by (unfold runs; rewrite T, Rf; apply Nat.eqb_refl).
  destruct (fib s f) as [|[|k]|c|c|c|] eqn:F; try discriminate.
  - left. exists (Yield f). eexists. split; auto. simpl. rewrite X, F. reflexivity.
  - left. exists (End f). eexists. split; auto. simpl. rewrite X, F. reflexivity.
  - left. exists (Clean f). eexists. split; auto. simpl. rewrite X, F. reflexivity.
  - destruct (locked s c) eqn:L.
    + right. unfold locked in L. destruct (fib s c) eqn:C; try discriminate. eauto.
    + left. exists (Go f). eexists. split; auto. simpl. rewrite X, F, L. reflexivity.
  - left. exists (Go f). eexists. split; auto. simpl. rewrite X, F. reflexivity.
Qed.
Print Assumptions C107_processor_partial.

(** C107, if no cleanup function suspends its fiber: a fiber in join() acquires the lock at once or after the fiber that ends, which has the processor of another thread, has made a bounded number of steps. *)
Theorem C107_spin_partial : forall thr n s, plain thr n s ->
  forall g c, fib s g = Spin c -> runs thr s g = true ->
  (exists s', step thr n s (Go g) = Some s') \/
  (thr c <> thr g /\ exists k s1 s2, k <= n c /\ exec (step thr n) s (repeat (Clean c) k ++ [End c]) = Some s1 /\ step thr n s1 (Go g) = Some s2 /\ log s2 = EJoined g c :: ENow g c :: log s1).
Proof.
  intros thr n s P g c G Rg. destruct (locked s c) eqn:L.
  - right. unfold locked in L. destruct (fib s c) eqn:C; try discriminate. pose proof (plain_runs thr n s P _ _ C) as Rc.
    assert (N : g <> c) by congruence. assert (T : thr c <> thr g) by (intros T; pose proof (runs_at thr _ _ Rc); pose proof (runs_at thr _ _ Rg); congruence). split; auto.
    pose proof (plain_inv thr n s P) as I. pose proof (i_stage n s I c) as S. unfold stage in S. rewrite C in S. destruct S as (Ec & K).
    destruct (finish thr n k s g c T G Rg C Rc Ec) as (s1 & E & G1 & R1 & F1 & E1).
    exists k, s1. eexists. splits; [lia|exact E| |].
    + unfold step. rewrite R1, G1. unfold locked. rewrite F1. unfold enter. rewrite E1. reflexivity.
    + reflexivity.
  - left. unfold step. rewrite Rg, G, L. eauto.
Qed.
Print Assumptions C107_spin_partial.

(** A case for the second alternative: fiber 2 of another thread spins while fiber 0 runs its cleanup functions. *)
Example C107_case : exists s, plain thr0 two s /\ fib s 2 = Spin 0 /\ runs thr0 s 2 = true /\ step thr0 two s (Go 2) = None.
Proof.
  destruct (exec (step thr0 two) init_state [Pick 0; Exit 0; Pick 2; Join 2 0; Clean 0]) as [s|] eqn:E; [|vm_compute in E; discriminate].
  exists s. split.
  - cbn [exec] in E. assert (P := p_init thr0 two).
    repeat match type of E with
    | (match step ?t ?m ?x ?l with Some _ => _ | None => _ end) = _ =>
        let y := fresh "y" in let Y := fresh "Y" in destruct (step t m x l) as [y|] eqn:Y; [|discriminate];
        apply (p_step _ _ _ _ _ P) in Y; [|intros f k [X|X]; discriminate]; clear P; rename Y into P
    end. injection E as <-. exact P.
  - vm_compute in E. injection E as <-. splits; reflexivity.
Qed.
