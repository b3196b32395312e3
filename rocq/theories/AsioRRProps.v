(** C100, C101: the scheduling algorithm that embeds Boost.Asio. *)
From Coq Require Import List Arith Bool Lia Sorted.
From Verif Require Import Base AsioRR AsioRRSpec AsioRRFacts AsioRRQuiet.
Import ListNotations.

(** has_ready_fibers() is exact. *)
Theorem C100_counter_partial : forall n s, reachable step (init_state n) s -> (counter s > 0 <-> exists c, In c (rq s) /\ c <> Disp).
Proof.
  intros n s R. destruct (g_q s (reach_inv n s R)). rewrite q_cnt. split.
  - intros H. destruct (filter nd (rq s)) as [|c t] eqn:E; simpl in H; [lia|]. exists c. assert (X : In c (filter nd (rq s))) by (rewrite E; simpl; auto). apply filter_In in X as [X Y]. split; auto. intros ->. discriminate.
  - intros (c & X & N). eapply nd_pos; eauto.
Qed.
Print Assumptions C100_counter_partial.

(** When the thread blocks in run_one(), no worker is ready, *)
Theorem C100_ready_partial : forall n s, reachable step (init_state n) s -> thread_blocked s -> forall i, ws s i <> WReady.
Proof.
  intros n s R (A & B & _) i W. pose proof (reach_inv n s R) as I. apply (q_ready _ _ _ _ (g_q s I)) in W.
  rewrite (only_disp s I A (g_one s I A B)) in W. destruct W as [W|[]]. discriminate.
Qed.
Print Assumptions C100_ready_partial.
(** and a fiber woken by another thread only if that thread is about to call notify(), which ends the wait. *)
Theorem C100_remote_partial : forall n s, reachable step (init_state n) s -> thread_blocked s -> remote s <> [] ->
  exists s', step s Notify = Some s' /\ ~ thread_blocked s'.
Proof.
  intros n s R (A & B & C) X. pose proof (reach_inv n s R) as I.
  assert (O : owed s > 0). { destruct (g_rem s I X) as [Y|[Y|[(_ & k & Y)|(Y & _)]]]; auto; [rewrite C in Y; destruct Y|congruence|congruence]. }
  simpl. destruct (owed s); [lia|]. eexists. split; [reflexivity|]. intros (_ & _ & H). simpl in H. rewrite C in H. discriminate.
Qed.
Print Assumptions C100_remote_partial.

(** Without other threads and handlers that suspend the service fiber: whenever the thread blocks, the timer is set for the first deadline.
    Missing from C100: notify() from other threads and handlers that yield, with which it is false (C100_refuted_notify, C100_refuted_yield). *)
Theorem C100_deadline_partial : forall n s i d, reachable (restrict plain) (init_state n) s -> thread_blocked s -> sleeping s i d -> timer_set s d.
Proof.
  intros n s i d R (A & B & C) S. pose proof (reach_qinv n s R) as Q. unfold sleeping in S.
  destruct (k_one s Q A B) as [X|[(P & e & j & t & E & F)|(X & _)]].
  - rewrite X in S. destruct S.
  - split; auto. rewrite F. pose proof (sl_sorted _ _ (g_s s (k_inv s Q))) as SS. rewrite E in *. inversion SS; subst.
    destruct S as [S|S]; [inversion S; auto|]. rewrite Forall_forall in H2. apply (H2 (d, i) S).
  - rewrite C in X. destruct X.
Qed.
Print Assumptions C100_deadline_partial.

(** What the thread and the passing of time can do. *)
Definition own (l : label) : Prop := match l with W _ | S_step | D_step | Tick | Expire => True | _ => False end.
Definition stuck (s : st) : Prop := thread_blocked s /\ sleeping s 0 5 /\ pend s = 0.
Lemma stuck_exec : forall ls s s', stuck s -> (forall l, In l ls -> own l) -> exec step s ls = Some s' -> stuck s'.
Proof.
  induction ls as [|l ls IH]; simpl; intros s s' ST O E; [inversion E; subst; auto|].
  assert (OL : own l) by (apply O; auto). destruct ST as ((A & B & C) & D & P).
  destruct l; simpl in OL; try tauto; simpl in E.
  - unfold wstep in E. rewrite A in E. discriminate.
  - unfold sstep in E. rewrite A, B, C in E. discriminate.
  - unfold dstep in E. rewrite A in E. discriminate.
  - rewrite P in E. discriminate.
  - apply (IH (set_n s (S (now s))) s'); auto. split; [split|]; simpl; auto.
Qed.
(** A notify() that comes late cancels the timer; the thread then blocks without it, and the sleeping fiber is not resumed however much time passes. *)
Theorem C100_refuted_notify : exists s, reachable step (init_state 2) s /\ thread_blocked s /\ sleeping s 0 5 /\
  forall ls s', (forall l, In l ls -> own l) -> exec step s ls = Some s' -> thread_blocked s' /\ sleeping s' 0 5.
Proof.
  destruct (reach_by step (init_state 2) [S_step; S_step; D_step; W (ASleep 5); W ABlock; Push 1; D_step; W ABlock; D_step; D_step; D_step; S_step; Notify;
     S_step; S_step; D_step; S_step; S_step; S_step; D_step; S_step] stuck) as (s & R & S).
  { vm_compute. splits; auto. }
  exists s. splits; auto; try apply S. intros ls s' O E. destruct (stuck_exec ls s s' S O E) as (A & B & _). auto.
Qed.
Print Assumptions C100_refuted_notify.
(** The same in a single thread if a handler wakes a fiber and yields. *)
Theorem C100_refuted_yield : exists s, reachable step (init_state 1) s /\ thread_blocked s /\ sleeping s 0 5 /\
  forall ls s', (forall l, In l ls -> own l) -> exec step s ls = Some s' -> thread_blocked s' /\ sleeping s' 0 5.
Proof.
  destruct (reach_by step (init_state 1) [S_step; S_step; D_step; W ABlock; D_step; D_step; D_step; S_step; Post; S_step; SWake 0; SYield; D_step; W (ASleep 5); SEnd; S_step] stuck) as (s & R & S).
  { vm_compute. splits; auto. }
  exists s. splits; auto; try apply S. intros ls s' O E. destruct (stuck_exec ls s s' S O E) as (A & B & _). auto.
Qed.
Print Assumptions C100_refuted_yield.
(** The thread blocks with a sleeping fiber and the timer set; a handler is executed, and a fiber becomes ready by its deadline. *)
Example C100_example : exists s, reachable (restrict plain) (init_state 2) s /\ thread_blocked s /\ sleeping s 0 5 /\ sleeping s 1 7 /\ pend s = 1 /\ expiry s = 5.
Proof.
  apply (reach_by (restrict plain) (init_state 2) [S_step; S_step; D_step; W (ASleep 5); W (ASleep 7); D_step; D_step; D_step; S_step; Post; S_step; SEnd; S_step]).
  vm_compute. splits; auto.
Qed.
Example C100_example_remote : exists s, reachable step (init_state 1) s /\ thread_blocked s /\ remote s <> [].
Proof.
  apply (reach_by step (init_state 1) [S_step; S_step; D_step; W ABlock; D_step; D_step; D_step; S_step; Push 0]).
  vm_compute. splits; auto. discriminate.
Qed.
Example C100_example_deadline : exists s, reachable (restrict plain) (init_state 1) s /\ run s = Wk 0 /\ now s = 2.
Proof.
  apply (reach_by (restrict plain) (init_state 1) [S_step; S_step; D_step; W (ASleep 2); D_step; D_step; D_step; S_step; Tick; Tick; Expire; S_step; S_step; D_step; S_step; S_step]).
  vm_compute. auto.
Qed.

(** C101: between two calls of suspend_until() the service fiber finds a ready fiber, provided that handlers do not block it. *)
Definition polls (p : spc) : bool := match p with LPoll | LHnd _ true | LWaiting => true | _ => false end.
Record jinv (s : st) : Prop := {
  j_inv : inv s;
  j_polled : polls (lpc s) = true -> polled (log s) = true;
  j_block : forall k, lpc s <> LBlocked k;
  j_spin : no_spin (log s)
}.
Lemma jinv_init : forall n, jinv (init_state n).
Proof. intros n. split; simpl; auto using inv_init; discriminate. Qed.
Lemma switch_log : forall s s', switch s = Some s' -> log s' = log s.
Proof. intros s s' H. apply switch_spec in H as (x & q & E & ->). auto. Qed.
Lemma switch_ready_log : forall s c s', switch_ready s c = Some s' -> log s' = log s.
Proof. intros s c s' H. unfold switch_ready in H. destruct (switch s) as [s1|] eqn:E; [|discriminate]. inversion H. simpl. eapply switch_log; eauto. Qed.
Lemma jinv_same : forall s s', jinv s -> inv s' -> (polls (lpc s') = true -> polls (lpc s) = true) -> (forall k, lpc s' <> LBlocked k) -> log s' = log s -> jinv s'.
Proof. intros s s' J I A B C. destruct J. split; auto; rewrite C; auto. Qed.
Lemma jinv_step : forall s l s', jinv s -> restrict no_block s l = Some s' -> jinv s'.
Proof.
  intros s l s' J H. unfold restrict in H. destruct (no_block l) eqn:NB; [|discriminate].
  pose proof (inv_step s l s' (j_inv s J) H) as I'. pose proof (j_inv s J) as I. pose proof (j_block s J) as B.
  destruct l; try discriminate NB; cbn [step] in H.
  - assert (X : lpc s' = lpc s /\ log s' = log s).
    { split; [eapply w_keeps; eauto|]. unfold wstep in H. destruct (run s); try discriminate. destruct a.
      - apply switch_ready_log in H. auto.
      - apply switch_log in H. auto.
      - apply switch_log in H. auto.
      - apply switch_log in H. auto.
      - unfold wake in H. destruct (ws s j); inversion H; auto.
      - destruct (ws s j); inversion H; auto. }
    destruct X as [X Y]. apply (jinv_same s); rewrite ?X; auto.
  - unfold sstep in H. destruct (run s) eqn:RS; try discriminate. destruct (lpc s) as [| | |[] k| |] eqn:L; try discriminate.
    + inversion H; subst s'; clear H. destruct J. destruct (0 <? counter s); split; simpl; auto; try discriminate; split; auto; discriminate.
    + destruct (hq s) as [|h t] eqn:HQ.
      * pose proof (switch_log _ _ H) as Y. apply switch_keeps in H as (A & _). simpl in A, Y. apply (jinv_same s); rewrite ?A, ?L; auto. discriminate.
      * inversion H; subst s'. apply (jinv_same s); simpl; rewrite ?L; auto. discriminate.
    + destruct (hq s) as [|h t] eqn:HQ; [discriminate|]. inversion H; subst s'. apply (jinv_same s); simpl; rewrite ?L; auto. discriminate.
    + pose proof (switch_ready_log _ _ _ H) as Y. apply switch_ready_keeps in H as (A & _). simpl in A, Y. apply (jinv_same s); rewrite ?A, ?L; auto; destruct k; auto; discriminate.
  - unfold ustep in H. destruct (run s) eqn:RS; try discriminate. destruct (lpc s) as [| | |[] k| |] eqn:L; try discriminate.
    assert (s' = schedule s j) as ->. { unfold wake in H. destruct (ws s j); inversion H; auto. }
    apply (jinv_same s); simpl; rewrite ?L; auto.
  - unfold ustep in H. destruct (run s) eqn:RS; try discriminate. destruct (lpc s) as [| | |[] k| |] eqn:L; try discriminate.
    pose proof (switch_ready_log _ _ _ H) as Y. apply switch_ready_keeps in H as (A & _). apply (jinv_same s); rewrite ?A, ?L; auto.
  - unfold ustep in H. destruct (run s) eqn:RS; try discriminate. destruct (lpc s) as [| | |[] k| |] eqn:L; try discriminate.
    inversion H; subst s'. apply (jinv_same s); simpl; rewrite ?L; auto; destruct k; auto; discriminate.
  - unfold dstep in H. destruct (run s) eqn:RS; try discriminate. destruct (dsus s) eqn:DS.
    + destruct (g_dsus s I DS) as [_ RQ].
      assert (LW : lpc s = LWaiting).
      { pose proof (g_svc s I) as G. rewrite RS, RQ in G. destruct (lpc s) eqn:LL; auto; try (simpl in G; destruct G as [_ G]; destruct (G eq_refl) as [Y|[]]; discriminate). exfalso. eapply B; eauto. }
      assert (X : lpc (suspend_until s) = LTop /\ log (suspend_until s) = log s).
      { unfold suspend_until, notify_one. destruct (sleeps s) as [|[d i] t]; simpl; rewrite LW; auto. }
      destruct X as [X Y]. inversion H; subst s'; clear H. destruct J. split; simpl; auto.
      * rewrite X. discriminate.
      * rewrite X. discriminate.
      * rewrite Y. split; auto. intros _. apply j_polled0. rewrite LW. auto.
    + change (match rq (gather s) with [] => Some (set_d (gather s) true) | _ => switch_ready (gather s) Disp end = Some s') in H.
      destruct (gather_spec s I) as [_ F]. destruct F. simpl in *.
      assert (X : lpc s' = lpc s /\ log s' = log s).
      { destruct (rq (gather s)); [inversion H; subst; simpl; auto|]. pose proof (switch_ready_log _ _ _ H) as Y. apply switch_ready_keeps in H as (A & _). split; congruence. }
      destruct X as [X Y]. apply (jinv_same s); rewrite ?X; auto.
  - inversion H; subst s'. apply (jinv_same s); auto.
  - destruct (pend s); [discriminate|]. destruct (expiry s <=? now s); inversion H; subst s'. apply (jinv_same s); auto.
  - inversion H; subst s'. apply (jinv_same s); auto.
  - destruct (ws s i); inversion H; subst s'. apply (jinv_same s); auto.
  - destruct (owed s); inversion H; subst s'. apply (jinv_same s); auto.
  - destruct (run s); try discriminate. destruct (lpc s) eqn:L; try discriminate. exfalso. eapply B; eauto.
Qed.
Theorem C101_no_spin_partial : forall n s, reachable (restrict no_block) (init_state n) s -> no_spin (log s).
Proof. intros n s R. apply j_spin. eapply reachable_inv; eauto using jinv_init, jinv_step. Qed.
Print Assumptions C101_no_spin_partial.
Example C101_example : exists s, reachable (restrict no_block) (init_state 1) s /\ suspends (log s) = 2 /\ thread_blocked s.
Proof.
  apply (reach_by (restrict no_block) (init_state 1) [S_step; S_step; D_step; W ABlock; D_step; D_step; D_step; S_step; Post; S_step; SWake 0; SYield; D_step; W AYield; SEnd; S_step; S_step;
     D_step; W (ASleep 5); D_step; D_step; D_step; S_step]).
  vm_compute. splits; auto.
Qed.

(** A handler of the application blocks the service fiber: suspend_until() returns at once again and again, and each call queues another handler. *)
Definition spinning (s : st) : Prop := run s = Disp /\ rq s = [] /\ dsus s = false /\ lpc s = LBlocked false /\ sleeps s = [(5, 0)] /\ now s = 0 /\ remote s = [] /\ pend s = 1.
Lemma spin_more : forall s, spinning s -> exists s', exec step s [D_step; D_step] = Some s' /\ spinning s' /\ log s' = ESuspend :: log s /\ length (hq s') = S (length (hq s)).
Proof.
  intros s (A & B & C & D & E & F & G & P). eexists. split.
  - cbn [exec step]. unfold dstep at 1. rewrite A, C, G. cbn [drain]. cbn [set_r sleeps]. rewrite E. cbn [wake_due]. cbn [set_r now]. rewrite F. cbn [Nat.leb]. cbn [set_r rq]. rewrite B.
    unfold dstep. cbn [set_d set_r run dsus]. rewrite A. reflexivity.
  - unfold suspend_until. cbn [set_d set_r sleeps]. rewrite E. unfold notify_one. simpl. rewrite D. simpl. unfold spinning. simpl. rewrite P. splits; auto. rewrite app_length. simpl. lia.
Qed.
Theorem C101_refuted : forall k, exists s, reachable step (init_state 1) s /\ now s = 0 /\ length (filter (fun e => match e with EPoll => true | _ => false end) (log s)) = 1 /\
  suspends (log s) >= k /\ length (hq s) >= k.
Proof.
  intros k. assert (H : exists s, reachable step (init_state 1) s /\ spinning s /\ length (filter (fun e => match e with EPoll => true | _ => false end) (log s)) = 1 /\ suspends (log s) >= k /\ length (hq s) >= k).
  { induction k as [|k IH].
    - apply (reach_by step (init_state 1) [S_step; S_step; D_step; W (ASleep 5); D_step; D_step; D_step; S_step; Post; S_step; SBlock]). vm_compute. splits; auto; lia.
    - destruct IH as (s & R & S & P & X & Y). destruct (spin_more s S) as (s' & E & S' & L & Q). exists s'. splits; auto.
      + eapply reachable_exec; eauto.
      + rewrite L. auto.
      + rewrite L. unfold suspends in *. simpl. lia.
      + lia. }
  destruct H as (s & R & S & P & X & Y). exists s. splits; auto. apply S.
Qed.
Print Assumptions C101_refuted.
