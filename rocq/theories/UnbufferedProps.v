(** Theorems about the unbuffered channel: C22 (second part), C23-C28, C61. *)
From Coq Require Import List Arith Bool Lia.
From Verif Require Import Base Kernel KernelFacts WakeFacts SlotFacts Unbuffered UnbufferedSpec UnbufferedProofs UnbufferedProofs2 UnbufferedProofs3 UnbufferedProofs4 UnbufferedProofs5 UnbufferedProofs6 UnbufferedProofs7 UnbufferedProofs8 UnbufferedProofs9 UnbufferedProofs10 UnbufferedProofs11 UnbufferedProofs12.
Import ListNotations.

(** ** C22 (unbuffered part) *)
Theorem C22_unbuffered_not_early : forall V (s : state V) h2 f o t h1,
  reachable step init s -> log s = h2 ++ ERet f o (RStatus Timeout) t :: h1 ->
  (exists v tp, o = PushUntil v tp /\ tp <= t) \/ (exists tp, o = PopUntil tp /\ tp <= t).
Proof.
  intros V s h2 f o t h1 R E. destruct (a_log _ (all_reach _ R) _ _ _ _ _ _ E) as (_ & tp & X & Y).
  destruct o; simpl in X; inversion X; subst; eauto.
Qed.
Example C22_unbuffered_ex : exists s : state nat, reachable step init s /\
  log s = [ERet 1 (PushUntil 7 3) (RStatus Timeout) 6; ECall 1 (PushUntil 7 3)].
Proof.
  apply (reach_by step init [LK (Pick 1 1); LCall 1 (PushUntil 7 3); LRun 1; LRun 1; LRun 1; LK (Tick 5); LK (Timer 1); LK (Pick 1 1); LRun 1; LRun 1]).
  vm_compute. reflexivity.
Qed.

(** ** C23 *)
(** Every value moved to a consumer is the value of the named push call. *)
Theorem C23_received_was_offered : forall V (s : state V) c p x,
  reachable step init s -> In (EXfer c p x) (log s) -> exists v, x = Some v /\ pushed (log s) (fst p) (snd p) v.
Proof. intros V s c p x R H. exact (i_xf _ (a_i _ (all_reach _ R)) c p x H). Qed.

(** No push call's value is moved twice. *)
Theorem C23_at_most_once : forall V (s : state V), reachable step init s -> NoDup (consumed (log s)).
Proof. intros V s R. exact (t_nd _ (i_tok _ (a_i _ (all_reach _ R)))). Qed.

(** The values returned by the pops of [c] are the values moved to [c], in that order; the newest may
    not have been returned yet. *)
Theorem C23_pops_return_what_was_moved : forall V (s : state V) c,
  reachable step init s -> taken (log s) c = got (log s) c \/ exists x, taken (log s) c = x :: got (log s) c.
Proof.
  intros V s c R. rewrite (i_got _ (a_i _ (all_reach _ R)) c). destruct (pcs s c); simpl; eauto.
Qed.

(** Each push call has one value. *)
Theorem C23_one_value_per_push : forall V (s : state V) f n v w,
  reachable step init s -> pushed (log s) f n v -> pushed (log s) f n w -> v = w.
Proof.
  intros V s f n v w _. generalize (log s). intros h (a1 & a2 & o & E & N & P) (b1 & b2 & o' & E' & N' & P').
  assert (G : forall (x y : list (event V)) a b oa ob, x ++ ECall f oa :: a = y ++ ECall f ob :: b ->
    is_push oa -> is_push ob -> npush a f = npush b f -> oa = ob).
  { intros x. induction x as [|e x IH]; intros [|e' y] a b oa ob X A B C; simpl in X; inversion X; subst; auto.
    - exfalso. pose proof (npush_call y b f ob B). lia.
    - exfalso. pose proof (npush_call x a f oa A). lia.
    - eapply IH; eauto. }
  assert (A : is_push o) by (destruct P as [->|[tp ->]]; exact I).
  assert (B : is_push o') by (destruct P' as [->|[tp ->]]; exact I).
  assert (C : o = o') by (eapply (G a2 b2 a1 b1); eauto; congruence).
  destruct P as [->|[tp ->]], P' as [->|[tp' ->]]; congruence.
Qed.

(** A push that returns success had its value received (before it returned). *)
Theorem C23_success_means_received : forall V (s : state V) h2 f o t h1,
  reachable step init s -> log s = h2 ++ ERet f o (RStatus Success) t :: h1 ->
  is_push o /\ In (f, npush h1 f) (consumed h1).
Proof. intros V s h2 f o t h1 R E. exact (proj2 (a_log _ (all_reach _ R) _ _ _ _ _ _ E)). Qed.

(** Two producers, one consumer: both values are received, both pushes succeed. *)
Example C23_ex : exists s : state nat, reachable step init s /\
  log s = [ERet 2 (Push 8) (RStatus Success) 0; ERet 3 ValuePop (RValue (Some 8)) 0; EXfer 3 (2, 1) (Some 8); ERet 1 (Push 7) (RStatus Success) 0;
           ECall 3 ValuePop; ERet 3 Pop (RValue (Some 7)) 0; EXfer 3 (1, 1) (Some 7); ECall 3 Pop; ECall 2 (Push 8); ECall 1 (Push 7)].
Proof.
  apply (reach_by step init [LK (Pick 1 1); LK (Pick 2 2); LK (Pick 3 3); LCall 1 (Push 7); LRun 1; LRun 1; LRun 1;
    LCall 2 (Push 8); LRun 2; LRun 2; LRun 2; LRun 2; LCall 3 Pop; LRun 3; LRun 3; LRun 3; LRun 3;
    LK (Pick 2 2); LRun 2; LRun 2; LRun 2; LRun 2; LK (Pick 1 1); LCall 3 ValuePop; LRun 3; LRun 1; LRun 3; LRun 3; LRun 3; LK (Pick 2 2); LRun 2]).
  vm_compute. reflexivity.
Qed.

(** ** C24 *)
(** Full statement: a push returning closed or timeout did not transfer its value. *)
Definition failed_push_keeps_value {V} (s : state V) : Prop := forall h2 f o st t h1,
  log s = h2 ++ ERet f o (RStatus st) t :: h1 -> is_push o -> st <> Success -> ~ In (f, npush h1 f) (consumed (log s)).

(** False: the consumer has taken the value, then the channel is closed before the producer runs again. *)
Theorem C24_refuted : exists s : state nat, reachable step init s /\
  log s = [ERet 1 (Push 7) (RStatus Closed) 0; ERet 3 Close RVoid 0; ECall 3 Close; ERet 2 Pop (RValue (Some 7)) 0;
           EXfer 2 (1, 1) (Some 7); ECall 2 Pop; ECall 1 (Push 7)] /\ ~ failed_push_keeps_value s.
Proof.
  destruct (reach_by step init [LK (Pick 1 1); LK (Pick 2 2); LK (Pick 3 3); LCall 1 (Push 7); LRun 1; LRun 1; LRun 1;
    LCall 2 Pop; LRun 2; LRun 2; LRun 2; LRun 2; LCall 3 Close; LRun 3; LRun 3; LRun 3; LRun 3; LK (Pick 1 1); LRun 1]
    (fun s => log s = [ERet 1 (Push 7) (RStatus Closed) 0; ERet 3 Close RVoid 0; ECall 3 Close; ERet 2 Pop (RValue (Some 7)) 0;
           EXfer 2 (1, 1) (Some 7); ECall 2 Pop; ECall 1 (Push 7)])) as (s & R & E); [vm_compute; reflexivity|].
  exists s. splits; auto. intros H. eapply (H [] 1 _ Closed 0); [exact E|exact I|discriminate|]. rewrite E. simpl. auto.
Qed.

(** False also with a timeout: the deadline passes between consumption and resumption. *)
Theorem C24_refuted_timeout : exists s : state nat, reachable step init s /\
  log s = [ERet 1 (PushUntil 7 3) (RStatus Timeout) 6; ERet 2 Pop (RValue (Some 7)) 0;
           EXfer 2 (1, 1) (Some 7); ECall 2 Pop; ECall 1 (PushUntil 7 3)] /\ ~ failed_push_keeps_value s.
Proof.
  destruct (reach_by step init [LK (Pick 1 1); LK (Pick 2 2); LCall 1 (PushUntil 7 3); LRun 1; LRun 1; LRun 1;
    LCall 2 Pop; LRun 2; LRun 2; LRun 2; LRun 2; LK (Tick 5); LK (Pick 1 1); LRun 1; LRun 1]
    (fun s => log s = [ERet 1 (PushUntil 7 3) (RStatus Timeout) 6; ERet 2 Pop (RValue (Some 7)) 0;
           EXfer 2 (1, 1) (Some 7); ECall 2 Pop; ECall 1 (PushUntil 7 3)])) as (s & R & E); [vm_compute; reflexivity|].
  exists s. splits; auto. intros H. eapply (H [] 1 _ Timeout 6); [exact E|exact I|discriminate|]. rewrite E. simpl. auto.
Qed.

(** What holds: the value is not transferred after the push has returned. Missing for C24: it may have been transferred before. *)
Theorem C24_not_after_return_partial : forall V (s : state V) h2 f o r t h1,
  reachable step init s -> log s = h2 ++ ERet f o r t :: h1 -> is_push o -> ~ In (f, npush h1 f) (consumed h2).
Proof. intros V s h2 f o r t h1 R E P. exact (b_late _ (all2_reach _ R) _ _ _ _ _ _ E P). Qed.

(** And: a push called after close() has returned never transfers its value. *)
Theorem C24_not_after_close_partial : forall V (s : state V) h2 f o h1,
  reachable step init s -> log s = h2 ++ ECall f o :: h1 -> is_push o -> was_closed h1 ->
  ~ In (f, S (npush h1 f)) (consumed (log s)).
Proof.
  intros V s h2 f o h1 R E P W H. destruct (b_ac _ (all2_reach _ R) _ _ _ _ E P W) as [A _]. apply A. now left.
Qed.

(** A push is called on a closed channel and returns closed while a consumer keeps calling. *)
Example C24_ex : exists s : state nat, reachable step init s /\
  log s = [ERet 2 Pop (RStatus Closed) 0; ERet 1 (Push 7) (RStatus Closed) 0; ECall 1 (Push 7); ERet 3 Close RVoid 0; ECall 3 Close; ECall 2 Pop].
Proof.
  apply (reach_by step init [LK (Pick 1 1); LK (Pick 2 2); LK (Pick 3 3); LCall 2 Pop; LRun 2; LCall 3 Close; LRun 3; LRun 3; LRun 3; LRun 3;
    LCall 1 (Push 7); LRun 1; LRun 2]). vm_compute. reflexivity.
Qed.

(** ** C25 *)
(** Full statement: [ub s = false]. False: close() wakes the producer but leaves slot_ pointing to its frame. *)
Theorem C25_refuted : exists s : state nat, reachable step init s /\ ub s = true /\
  log s = [ECall 2 Pop; ERet 1 (Push 7) (RStatus Closed) 0; ERet 3 Close RVoid 0; ECall 3 Close; ECall 1 (Push 7)].
Proof.
  apply (reach_by step init [LK (Pick 1 1); LK (Pick 2 2); LK (Pick 3 3); LCall 1 (Push 7); LRun 1; LRun 1; LRun 1;
    LCall 3 Close; LRun 3; LRun 3; LRun 3; LRun 3; LRun 3; LK (Pick 1 1); LRun 1; LCall 2 Pop; LRun 2; LRun 2; LRun 2]).
  vm_compute. auto.
Qed.
(** False without close(): the consumer has taken the slot, the producer times out and returns. *)
Theorem C25_refuted_timeout : exists s : state nat, reachable step init s /\ ub s = true /\
  log s = [ERet 1 (PushUntil 7 3) (RStatus Timeout) 6; ECall 2 Pop; ECall 1 (PushUntil 7 3)].
Proof.
  apply (reach_by step init [LK (Pick 1 1); LK (Pick 2 2); LCall 1 (PushUntil 7 3); LRun 1; LRun 1; LRun 1;
    LCall 2 Pop; LRun 2; LK (Tick 5); LK (Timer 1); LK (Pick 1 1); LRun 1; LRun 1; LRun 2; LRun 2]).
  vm_compute. auto.
Qed.
(** What holds: no access to a dead slot as long as close() is not called and no push has reported a timeout. *)
Theorem C25_no_dead_slot_partial : forall V (s : state V),
  reachable step init s -> never_closed (log s) -> no_push_timeout (log s) -> ub s = false.
Proof. intros V s R A B. exact (proj1 (b_ui _ (all2_reach _ R) A B)). Qed.
Example C25_ex : exists s : state nat, reachable step init s /\ never_closed (log s) /\ no_push_timeout (log s) /\
  got (log s) 2 = [Some 7] /\ pending (log s) 2 = Some Pop.
Proof.
  destruct (reach_by step init [LK (Pick 1 1); LK (Pick 2 2); LCall 1 (PushUntil 7 9); LRun 1; LRun 1; LRun 1;
    LCall 2 Pop; LRun 2; LRun 2; LRun 2; LRun 2; LK (Tick 5); LK (Pick 1 1); LRun 1; LRun 1; LCall 2 Pop]
    (fun s => log s = [ECall 2 Pop; ERet 1 (PushUntil 7 9) (RStatus Success) 6; ERet 2 Pop (RValue (Some 7)) 0;
           EXfer 2 (1, 1) (Some 7); ECall 2 Pop; ECall 1 (PushUntil 7 9)])) as (s & R & E); [vm_compute; reflexivity|].
  exists s. rewrite E. splits; auto.
  - intros f H. simpl in H. intuition discriminate.
  - intros f v tp t H. simpl in H. intuition discriminate.
Qed.

(** ** C26, C27 *)
(** A producer and a consumer are not both blocked unless some other fiber inside an operation can go on. *)
Definition rendezvous {V} (s : state V) : Prop := forall f g o1 o2,
  blocked (kn s) f -> pending (log s) f = Some o1 -> is_push o1 ->
  blocked (kn s) g -> pending (log s) g = Some o2 -> is_pop o2 ->
  exists h o, runnable (kn s) h /\ pending (log s) h = Some o.

Lemma blocked_where V (s : state V) f o : Inv s -> blocked (kn s) f -> pending (log s) f = Some o ->
  (is_push o /\ (bq s 0 f \/ epub (pcs s f) = Some (epoch (fib (kn s) f)))) \/ (is_pop o /\ bq s 1 f).
Proof.
  intros I B P. rewrite (i_pend _ I) in P. pose proof (i_wf _ I f) as W.
  assert (Q : forall i, (sst (pcs s f) = SUntimed i (epoch (fib (kn s) f)) \/ exists tp, sst (pcs s f) = STimed i tp (epoch (fib (kn s) f))) -> bq s i f).
  { intros i Y. split; [exact B|]. exists (epoch (fib (kn s) f)). exact Y. }
  destruct (sblocked_live _ _ _ _ (i_ki _ I) B) as [(i & _ & Y)|[Y|(tq & Y)]].
  - specialize (Q i Y). revert W P Y.
    destruct (pcs s f); simpl; intros W P [Y|(tq & Y)]; inversion Y; inversion P; subst; auto.
    + destruct W as [v ->]. left. simpl. auto.
    + destruct W as [v ->]. left. simpl. auto.
    + right. split; auto. destruct W as [-> | ->]; exact Logic.I.
    + right. simpl. auto.
  - revert W P Y. destruct (pcs s f); simpl; intros W P Y; inversion Y; inversion P; subst; destruct W as [v ->]; simpl; auto.
  - revert W P Y. destruct (pcs s f); simpl; intros W P Y; inversion Y; inversion P; subst; destruct W as [v ->]; simpl; auto.
Qed.

Lemma holds_runnable V (s : state V) c p : Inv s -> holds (pcs s c) = Some p -> runnable (kn s) c /\ exists o, pending (log s) c = Some o /\ is_pop o.
Proof.
  intros I H. split.
  - apply (none_runnable _ _ I). destruct (pcs s c); simpl in H; try discriminate H; reflexivity.
  - rewrite (i_pend _ I). pose proof (i_wf _ I c) as W. destruct (pcs s c); simpl in H, W; try discriminate H; simpl; eauto.
Qed.

(** C27 with the hypothesis that no timed operation has reported a timeout. *)
Theorem C27_rendezvous_partial : forall V (s : state V),
  reachable step init s -> never_closed (log s) -> no_timeout (log s) -> rendezvous s.
Proof.
  intros V s R N T f g o1 o2 Bf Pf Hf Bg Pg Hg. pose proof (all2_reach _ R) as A. pose proof (a_i _ (b_all _ A)) as I.
  assert (Qg : bq s 1 g).
  { destruct (blocked_where _ _ _ _ I Bg Pg) as [[X _]|[_ X]]; auto. destruct o2; simpl in *; contradiction. }
  assert (Lv : live s) by (split; auto).
  assert (Some_run : forall c o, xrunnable (fib (kn s) c) -> op_of (pcs s c) = Some o -> exists h o, runnable (kn s) h /\ pending (log s) h = Some o).
  { intros c o X Y. exists c, o. split; auto. now rewrite (i_pend _ I). }
  assert (Slot : forall p, slot s = Some p -> exists h o, runnable (kn s) h /\ pending (log s) h = Some o).
  { intros p E. destruct (b_ai _ A Lv p g E Qg) as [(o & e & X)|(c & X & Y)].
    - pose proof (si_f _ _ _ (i_ki _ I) (fst p)) as S. unfold sfok in S. rewrite X in S. simpl in S.
      eapply (Some_run (fst p)); [left; intuition|rewrite X; reflexivity].
    - destruct (pcs s c) eqn:Ec; simpl in Y; try discriminate Y; eapply (Some_run c); eauto; rewrite Ec; reflexivity. }
  destruct (blocked_where _ _ _ _ I Bf Pf) as [[_ [X|X]]|[X _]].
  - destruct (slot s) as [p|] eqn:E; [eapply Slot; eauto|].
    destruct (b_bi _ A Lv f X E) as [(c & o & p & Y)|(c & Y & Z)].
    + eapply (Some_run c); [apply (none_runnable _ _ I); now rewrite Y|rewrite Y; reflexivity].
    + destruct (pcs s c) eqn:Ec; simpl in Z; try discriminate Z; eapply (Some_run c); eauto; rewrite Ec; reflexivity.
  - destruct (w_offer _ _ (a_wok _ (b_all _ A)) f _ X eq_refl) as [[Y|[c Y]]|[]]; [eapply Slot; eauto|].
    destruct (holds_runnable _ _ _ _ I Y) as [Z (o & Z1 & _)]. eauto.
  - destruct o1; simpl in *; contradiction.
Qed.

Lemma untimed_no_timeout V (s : state V) : reachable step init s -> untimed (log s) -> no_timeout (log s).
Proof.
  intros R U f o t H. apply in_split in H. destruct H as (h2 & h1 & E).
  destruct (a_log _ (all_reach _ R) _ _ _ _ _ _ E) as (P & tp & D & _). apply pending_call in P.
  assert (Q : In (ECall f o) (log s)) by (rewrite E; apply in_or_app; right; now right).
  destruct (U f) as [U1 U2]. destruct o; simpl in D; inversion D; subst; [now apply U1 in Q|now apply U2 in Q].
Qed.

Theorem C26_rendezvous : forall V (s : state V),
  reachable step init s -> never_closed (log s) -> untimed (log s) -> rendezvous s.
Proof. intros V s R N U. apply C27_rendezvous_partial; auto. now apply untimed_no_timeout. Qed.

(** Fiber 1 has offered its value and is blocked, fiber 2 is blocked in the producers' queue, fiber 4 is blocked in pop,
    fiber 3 is runnable inside pop. *)
Example C26_ex : exists s : state nat, reachable step init s /\ never_closed (log s) /\ untimed (log s) /\
  blocked (kn s) 1 /\ blocked (kn s) 2 /\ blocked (kn s) 4 /\ pending (log s) 1 = Some (Push 7) /\ pending (log s) 2 = Some (Push 8) /\
  pending (log s) 4 = Some ValuePop.
Proof.
  destruct (reach_by step init [LK (Pick 1 1); LK (Pick 2 2); LK (Pick 3 3); LK (Pick 4 4);
    LCall 3 Pop; LRun 3; LRun 3; LRun 3; LCall 4 ValuePop; LRun 4; LRun 4; LRun 4; LCall 1 (Push 7); LRun 1; LRun 1;
    LCall 2 (Push 8); LRun 2; LRun 2; LRun 1; LRun 2; LRun 2]
    (fun s => blocked (kn s) 1 /\ blocked (kn s) 2 /\ blocked (kn s) 4 /\ log s = [ECall 2 (Push 8); ECall 1 (Push 7); ECall 4 ValuePop; ECall 3 Pop])) as (s & R & B1 & B2 & B4 & E); [vm_compute; auto 10|].
  exists s. rewrite E. splits; auto.
  - intros f H. simpl in H. intuition discriminate.
  - intros f. split; intros; intros H; simpl in H; intuition discriminate.
Qed.

(** C27 is false: the timed push of fiber 1 occupies slot_, fiber 2 waits in the producers' queue. When fiber 1 times
    out it clears slot_ without notifying waiting_producers_. Then fiber 3 calls pop. Fibers 2 and 3 are blocked and
    nobody else is inside an operation. *)
Theorem C27_refuted : exists s : state nat, reachable step init s /\ never_closed (log s) /\ ~ rendezvous s /\
  blocked (kn s) 2 /\ pending (log s) 2 = Some (Push 8) /\ blocked (kn s) 3 /\ pending (log s) 3 = Some Pop /\
  (forall g, g <> 2 -> g <> 3 -> pending (log s) g = None).
Proof.
  destruct (reach_by step init [LK (Pick 1 1); LK (Pick 2 2); LK (Pick 3 3); LCall 1 (PushUntil 7 3); LRun 1; LRun 1; LRun 1;
    LCall 2 (Push 8); LRun 2; LRun 2; LRun 2; LRun 2; LK (Tick 5); LK (Timer 1); LK (Pick 1 1); LRun 1; LRun 1;
    LCall 3 Pop; LRun 3; LRun 3; LRun 3]
    (fun s => blocked (kn s) 2 /\ blocked (kn s) 3 /\ log s = [ECall 3 Pop; ERet 1 (PushUntil 7 3) (RStatus Timeout) 6; ECall 2 (Push 8); ECall 1 (PushUntil 7 3)]))
    as (s & R & B2 & B3 & E); [vm_compute; auto 10|].
  assert (P : forall g, g <> 2 -> g <> 3 -> pending (log s) g = None).
  { rewrite E. intros [|[|[|[|g]]]]; try reflexivity; congruence. }
  exists s. splits; auto.
  - rewrite E. intros f H. simpl in H. intuition discriminate.
  - intros H. destruct (H 2 3 (Push 8) Pop) as (h & o & X & Y); try rewrite E; try reflexivity; auto; try exact I.
    destruct (Nat.eq_dec h 2) as [->|N2]; [|destruct (Nat.eq_dec h 3) as [->|N3]].
    + destruct B2 as [B21 B22], X; congruence.
    + destruct B3 as [B31 B32], X; congruence.
    + rewrite P in Y; auto. discriminate.
  - rewrite E. reflexivity.
  - rewrite E. reflexivity.
Qed.
Example C27_ex : exists s : state nat, reachable step init s /\ never_closed (log s) /\ no_timeout (log s) /\
  blocked (kn s) 1 /\ blocked (kn s) 4 /\ pending (log s) 1 = Some (PushUntil 7 3) /\ pending (log s) 4 = Some (PopUntil 5).
Proof.
  destruct (reach_by step init [LK (Pick 1 1); LK (Pick 3 3); LK (Pick 4 4);
    LCall 3 (PopUntil 2); LRun 3; LRun 3; LRun 3; LCall 4 (PopUntil 5); LRun 4; LRun 4; LRun 4; LCall 1 (PushUntil 7 3); LRun 1; LRun 1; LRun 1]
    (fun s => blocked (kn s) 1 /\ blocked (kn s) 4 /\ log s = [ECall 1 (PushUntil 7 3); ECall 4 (PopUntil 5); ECall 3 (PopUntil 2)])) as (s & R & B1 & B4 & E); [vm_compute; auto 10|].
  exists s. rewrite E. splits; auto.
  - intros f H. simpl in H. intuition discriminate.
  - intros f o t H. simpl in H. intuition discriminate.
Qed.

(** ** C28 *)
(** Full statement: after close() has returned nobody is blocked, unless another fiber inside an operation can go on. *)
Definition close_releases {V} (s : state V) : Prop := was_closed (log s) -> forall f o,
  blocked (kn s) f -> pending (log s) f = Some o -> exists h o', runnable (kn s) h /\ pending (log s) h = Some o'.

(** False: close() runs between is_closed() and try_push_() of the push of fiber 1. *)
Theorem C28_refuted : exists s : state nat, reachable step init s /\ ~ close_releases s /\
  was_closed (log s) /\ blocked (kn s) 1 /\ pending (log s) 1 = Some (Push 7) /\ (forall g, g <> 1 -> pending (log s) g = None).
Proof.
  destruct (reach_by step init [LK (Pick 1 1); LK (Pick 3 3); LCall 1 (Push 7); LRun 1; LCall 3 Close; LRun 3; LRun 3; LRun 3; LRun 3;
    LRun 1; LRun 1]
    (fun s => blocked (kn s) 1 /\ log s = [ERet 3 Close RVoid 0; ECall 3 Close; ECall 1 (Push 7)])) as (s & R & B & E); [vm_compute; auto|].
  assert (W : was_closed (log s)) by (rewrite E; exists 3, 0; simpl; auto).
  assert (P : forall g, g <> 1 -> pending (log s) g = None) by (rewrite E; intros [|[|[|[|g]]]]; try reflexivity; congruence).
  exists s. splits; auto; [|rewrite E; reflexivity].
  intros H. destruct (H W 1 (Push 7) B) as (h & o & X & Y); [rewrite E; reflexivity|].
  destruct (Nat.eq_dec h 1) as [->|N]; [|rewrite P in Y; [discriminate|auto]]. destruct B as [B1 B2], X; congruence.
Qed.

(** What holds once close() has returned and no other close() is in progress: *)
Lemma closed_blocked V (s : state V) : All2 s -> was_closed (log s) -> (forall x, pending (log s) x <> Some Close) -> forall g o',
  blocked (kn s) g -> pending (log s) g = Some o' -> is_push o' /\
  (slot s = Some (g, calls s g) \/ exists c, holds (pcs s c) = Some (g, calls s g)).
Proof.
  intros A Wc Nx g o' Bg Pg. pose proof (a_i _ (b_all _ A)) as I. pose proof (cl_was _ (a_cl _ (b_all _ A)) Wc) as Cl.
  destruct (blocked_where _ _ _ _ I Bg Pg) as [[X [Y|Y]]|[_ Y]].
  - destruct (d_p _ (b_di _ A) Cl g (or_introl Y)) as [x Z]. exfalso. apply (Nx x). rewrite (i_pend _ I).
    destruct (pcs s x); simpl in Z; try discriminate Z; reflexivity.
  - splits; auto. destruct (w_offer _ _ (a_wok _ (b_all _ A)) g _ Y eq_refl) as [Z|[]]. exact Z.
  - destruct (d_c _ (b_di _ A) Cl g (or_introl Y)) as [x Z]. exfalso. apply (Nx x). rewrite (i_pend _ I).
    destruct (pcs s x); simpl in Z; try discriminate Z; reflexivity.
Qed.

(** nobody is blocked in pop, and a blocked push was called before close() returned; *)
Theorem C28_only_earlier_pushes_partial : forall V (s : state V),
  reachable step init s -> was_closed (log s) -> (forall x, pending (log s) x <> Some Close) -> forall f o,
  blocked (kn s) f -> pending (log s) f = Some o ->
  is_push o /\
  (forall h2 h1, log s = h2 ++ ECall f o :: h1 -> S (npush h1 f) = npush (log s) f -> ~ was_closed h1).
Proof.
  intros V s R Wc Nx f o B P. pose proof (all2_reach _ R) as A.
  destruct (closed_blocked _ _ A Wc Nx f o B P) as [K1 K3]. split; auto.
  intros h2 h1 E N W. destruct (b_ac _ A _ _ _ _ E K1 W) as [X _]. apply X.
  rewrite N, <- (i_calls _ (a_i _ (b_all _ A))). destruct K3 as [K3|[c K3]]; [right; left; auto|].
  right; right. exists c. auto.
Qed.

(** and two pushes are not both blocked unless a pop can go on. *)
Theorem C28_at_most_one_partial : forall V (s : state V),
  reachable step init s -> was_closed (log s) -> (forall x, pending (log s) x <> Some Close) -> forall f g o o',
  blocked (kn s) f -> pending (log s) f = Some o -> blocked (kn s) g -> pending (log s) g = Some o' ->
  f = g \/ exists h o'', runnable (kn s) h /\ pending (log s) h = Some o'' /\ is_pop o''.
Proof.
  intros V s R Wc Nx f g o o' Bf Pf Bg Pg. pose proof (all2_reach _ R) as A. pose proof (a_i _ (b_all _ A)) as I.
  destruct (closed_blocked _ _ A Wc Nx f o Bf Pf) as [_ [K|[c K]]];
    [destruct (closed_blocked _ _ A Wc Nx g o' Bg Pg) as [_ [L|[c L]]]|].
  - left. congruence.
  - right. destruct (holds_runnable _ _ _ _ I L) as (X & o'' & Y). exists c, o''. tauto.
  - right. destruct (holds_runnable _ _ _ _ I K) as (X & o'' & Y). exists c, o''. tauto.
Qed.

(** Fiber 4 has taken the value of fiber 1; fiber 2 offered its own after close() had returned. *)
Example C28_ex : exists s : state nat, reachable step init s /\ was_closed (log s) /\ (forall x, pending (log s) x <> Some Close) /\
  blocked (kn s) 1 /\ blocked (kn s) 2 /\ pending (log s) 1 = Some (Push 7) /\ pending (log s) 2 = Some (Push 8).
Proof.
  destruct (reach_by step init [LK (Pick 1 1); LK (Pick 2 2); LK (Pick 3 3); LK (Pick 4 4); LCall 1 (Push 7); LRun 1; LRun 1; LRun 1; LCall 2 (Push 8); LRun 2;
    LCall 4 Pop; LRun 4; LCall 3 Close; LRun 3; LRun 3; LRun 3; LRun 3; LRun 2; LRun 2]
    (fun s => blocked (kn s) 1 /\ blocked (kn s) 2 /\ log s = [ERet 3 Close RVoid 0; ECall 3 Close; ECall 4 Pop; ECall 2 (Push 8); ECall 1 (Push 7)])) as (s & R & B1 & B2 & E); [vm_compute; auto|].
  exists s. splits; auto; try (rewrite E; reflexivity).
  - rewrite E; exists 3, 0; simpl; auto.
  - rewrite E; intros [|[|[|[|[|g]]]]]; discriminate.
Qed.

(** ** C61 *)
(** Full statement: the assertion [! ctx->remote_ready_is_linked()] of scheduler::wait_until never fails. False: a consumer
    on another thread takes the value and wakes the producer before the producer has suspended. *)
Theorem C61_refuted : exists s : state nat, reachable step init s /\ asrt s = true /\
  log s = [ERet 2 Pop (RValue (Some 7)) 0; EXfer 2 (1, 1) (Some 7); ECall 2 Pop; ECall 1 (PushUntil 7 3)].
Proof.
  apply (reach_by step init [LK (Pick 1 1); LK (Pick 2 2); LCall 1 (PushUntil 7 3); LRun 1; LRun 1;
    LCall 2 Pop; LRun 2; LRun 2; LRun 2; LRun 2; LRun 1]). vm_compute. auto.
Qed.
(** What holds: it does not fail when no timed push is called (timed pops may be). *)
Theorem C61_no_timed_push_partial : forall V (s : state V),
  reachable step init s -> (forall f v tp, ~ In (ECall f (PushUntil v tp)) (log s)) -> asrt s = false.
Proof. intros V s R H. exact (b_as _ (all2_reach _ R) H). Qed.
Example C61_ex : exists s : state nat, reachable step init s /\ (forall f v tp, ~ In (ECall f (PushUntil v tp)) (log s)) /\
  got (log s) 2 = [Some 7].
Proof.
  destruct (reach_by step init [LK (Pick 1 1); LK (Pick 2 2); LCall 1 (Push 7); LRun 1; LRun 1;
    LCall 2 (PopUntil 3); LRun 2; LRun 2; LRun 2; LRun 2; LRun 1]
    (fun s => log s = [ERet 2 (PopUntil 3) (RValue (Some 7)) 0; EXfer 2 (1, 1) (Some 7); ECall 2 (PopUntil 3); ECall 1 (Push 7)])) as (s & R & E); [vm_compute; auto|].
  exists s. rewrite E. splits; auto. intros f v tp H. simpl in H. intuition discriminate.
Qed.

(** All theorems of this file at once: their assumptions. *)
Definition all_unbuffered :=
  (@C22_unbuffered_not_early, @C23_received_was_offered, @C23_at_most_once, @C23_pops_return_what_was_moved,
   @C23_one_value_per_push, @C23_success_means_received, @C24_refuted, @C24_refuted_timeout,
   @C24_not_after_return_partial, @C24_not_after_close_partial, @C25_refuted, @C25_refuted_timeout,
   @C25_no_dead_slot_partial, @C26_rendezvous, @C27_refuted, @C27_rendezvous_partial, @C28_refuted,
   @C28_only_earlier_pushes_partial, @C28_at_most_one_partial, @C61_refuted, @C61_no_timed_push_partial).
Print Assumptions all_unbuffered.
