(** C17-C22: theorems about buffered_channel. *)
From Coq Require Import List Arith NArith Bool Lia.
From Verif Require Import Base Kernel KernelFacts WakeFacts Buffered BufferedSpec BufferedProofs.
Import ListNotations.

(** A run with one consumer blocking first, and two producers. *)
Definition ex_run : list (label nat) :=
  [LK (Pick 1 1); LK (Pick 2 2); LK (Pick 3 3);
   LCall 1 Pop; LRun 1;                   (* blocks *)
   LCall 2 (TryPush 7); LRun 2;           (* wakes 1 *)
   LCall 3 (Push 8); LRun 3;              (* full: blocks *)
   LK (Pick 1 1); LRun 1; LRun 1].        (* gets 7, wakes 3 *)

(** ** C17 *)
Theorem C17_fifo_exactly_once : forall V cap (s0 s : state V),
  construct cap = Some s0 -> reachable step s0 s ->
  exists rest, map Some (accepted (log s)) = delivered (log s) ++ map Some rest.
Proof.
  intros V cap s0 s H R. pose proof (binv_reachable _ _ _ H R) as I.
  destruct (b_ring _ _ I) as (items & _ & E). eauto.
Qed.

(** A pop that starts when not everything has been delivered takes the oldest value not yet delivered. *)
Theorem C17_pop_takes_oldest : forall V cap (s0 s : state V) f o v,
  construct cap = Some s0 -> reachable step s0 s ->
  running (fib (kn s) f) = true -> pending (log s) f = None -> is_pop o ->
  nth_error (accepted (log s)) (length (delivered (log s))) = Some v ->
  exists s', exec step s [LCall f o; LRun f] = Some s' /\
    log s' = ERet f o (RValue (Some v)) (now (kn s)) :: ECall f o :: log s.
Proof.
  intros V cap s0 s f o v H R Hr Hp Ho Hv. pose proof (binv_reachable _ _ _ H R) as I.
  rewrite (b_pend _ _ I) in Hp. destruct (pcs s f) eqn:Ep; simpl in Hp; try discriminate.
  destruct (b_ring _ _ I) as (items & Rg & E). destruct (b_cap _ _ I) as [Hc _].
  assert (Hv' : nth_error (map (@Some V) (accepted (log s))) (length (delivered (log s))) = Some (Some v)) by now apply map_nth_error.
  rewrite E, nth_error_app2, Nat.sub_diag in Hv' by lia.
  destruct items as [|w items]; simpl in Hv'; [discriminate|]. inversion Hv'; subst w.
  pose proof (ring_empty _ _ _ _ _ Hc Rg) as Em. simpl in Em.
  destruct (ring_fetch _ _ _ _ _ _ Hc Rg) as [Hsl _].
  assert (Ee : is_empty (ch s) = false). { unfold is_empty. destruct (Nat.eqb (cidx (ch s)) (pidx (ch s))); auto. destruct Em as [Em _]. specialize (Em eq_refl). discriminate. }
  cbn [exec]. unfold step at 1. rewrite Ep, Hr. cbn [exec]. unfold step at 1. cbn [kn]. rewrite Hr.
  unfold run_step. cbn [pcs]. rewrite upd_same.
  assert (Hcs : forall s', ch s' = ch s -> cs s' f o = fetch s' f o).
  { intros s' E'. unfold cs. rewrite E', Ee. destruct o; simpl in Ho; try contradiction; reflexivity. }
  rewrite Hcs by reflexivity. eexists. split; [reflexivity|].
  unfold fetch, notify1. cbn [kn ch queues cidx slots]. rewrite Hsl.
  destruct (notify_one (kn s) (queues (ch s) 0)) as [k q] eqn:En. cbn [ret log kn].
  destruct (notify_one_mono 0 _ _ _ _ _ (b_k _ _ I) En) as (_ & _ & -> & _). reflexivity.
Qed.

Example C17_ex : exists s0 s : state nat, construct 2 = Some s0 /\ reachable step s0 s /\
  accepted (log s) = [7] /\ delivered (log s) = [Some 7].
Proof.
  destruct (construct (V := nat) 2) as [s0|] eqn:E; [|discriminate].
  exists s0. destruct (reach_by step s0 ex_run (fun s => accepted (log s) = [7] /\ delivered (log s) = [Some 7])) as (s & R & A & B).
  - inversion E; subst. vm_compute. auto.
  - exists s. auto.
Qed.

(** A pop succeeds with the oldest value even after close(). *)
Example C17_ex_closed : exists s0 s : state nat, construct 4 = Some s0 /\ reachable step s0 s /\
  running (fib (kn s) 2) = true /\ pending (log s) 2 = None /\ was_closed (log s) /\
  nth_error (accepted (log s)) (length (delivered (log s))) = Some 9.
Proof.
  destruct (construct (V := nat) 4) as [s0|] eqn:E; [|discriminate].
  exists s0. destruct (reach_by step s0 [LK (Pick 2 2); LCall 2 (Push 8); LRun 2; LCall 2 (PushUntil 9 5); LRun 2; LCall 2 TryPop; LRun 2; LCall 2 Close; LRun 2]
   (fun s => running (fib (kn s) 2) = true /\
     log s = [ERet 2 Close RVoid 0; ECall 2 Close; ERet 2 TryPop (RValue (Some 8)) 0; ECall 2 TryPop;
              ERet 2 (PushUntil 9 5) (RStatus Success) 0; ECall 2 (PushUntil 9 5); ERet 2 (Push 8) (RStatus Success) 0; ECall 2 (Push 8)])) as (s & R & A & B).
  - inversion E; subst. vm_compute. auto.
  - exists s. rewrite B. splits; auto. exists 2, 0. now left.
Qed.

(** ** C18 *)
Lemma pow2_land k : N.land (2 ^ k) (2 ^ k - 1) = 0%N.
Proof.
  replace (2 ^ k - 1)%N with (N.ones k) by (rewrite N.ones_equiv; lia).
  rewrite N.land_ones. apply N.mod_same. apply N.pow_nonzero. discriminate.
Qed.
Lemma land_pow2 c : (2 <= c)%N -> N.land c (c - 1) = 0%N -> exists k, (1 <= k)%N /\ c = (2 ^ k)%N.
Proof.
  intros Hc H. exists (N.log2 c).
  assert (H1 : (2 ^ N.log2 c <= c < 2 ^ N.succ (N.log2 c))%N) by (apply N.log2_spec; lia).
  assert (Hk : (1 <= N.log2 c)%N) by (change 1%N with (N.log2 2); now apply N.log2_le_mono).
  split; auto. destruct (N.eq_dec c (2 ^ N.log2 c)) as [|Hne]; auto. exfalso.
  assert (Hl : N.log2 (c - 1) = N.log2 c) by (apply N.log2_unique; lia).
  assert (T : N.testbit (N.land c (c - 1)) (N.log2 c) = true).
  { rewrite N.land_spec, N.bit_log2 by lia. rewrite <- Hl at 1. rewrite N.bit_log2; auto. lia. }
  rewrite H, N.bits_0 in T. discriminate.
Qed.

Theorem C18_constructor : forall V (cap : N),
  (exists s0 : state V, construct cap = Some s0) <-> exists k, (1 <= k)%N /\ cap = (2 ^ k)%N.
Proof.
  intros V cap. unfold construct. split.
  - intros (s0 & H). destruct (cap <? 2)%N eqn:E; simpl in H; [discriminate|]. apply N.ltb_ge in E.
    destruct (N.land cap (cap - 1) =? 0)%N eqn:E2; simpl in H; [|discriminate]. apply N.eqb_eq in E2.
    now apply land_pow2.
  - intros (k & Hk & ->). rewrite pow2_land.
    assert (2 <= 2 ^ k)%N by (change 2%N with (2 ^ 1)%N at 1; apply N.pow_le_mono_r; lia).
    destruct (2 ^ k <? 2)%N eqn:E; [apply N.ltb_lt in E; lia|]. simpl. eauto.
Qed.

Theorem C18_never_more_than_capacity : forall V cap (s0 s : state V),
  construct cap = Some s0 -> reachable step s0 s -> stored (log s) <= N.to_nat cap - 1.
Proof.
  intros V cap s0 s H R. pose proof (binv_reachable _ _ _ H R) as I.
  destruct (b_ring _ _ I) as (items & Rg & E). rewrite (stored_items _ _ E). apply Rg.
Qed.

Lemma ret_ok_at V cap (s0 s : state V) h2 f o r t h1 :
  construct cap = Some s0 -> reachable step s0 s -> log s = h2 ++ ERet f o r t :: h1 -> ret_ok (N.to_nat cap) h1 o r t.
Proof.
  intros H R E. pose proof (binv_reachable _ _ _ H R) as I. eapply (log_ok_split _ _ (b_log _ _ I)); exact E.
Qed.

Lemma ret_ok_at' V cap (s0 s : state V) h2 f o r t h1 :
  construct cap = Some s0 -> reachable step s0 s -> log s = h2 ++ ERet f o r t :: h1 ->
  ret_ok (N.to_nat cap) h1 o r t /\ pending h1 f = Some o /\ exists rest, map Some (accepted h1) = delivered h1 ++ map Some rest.
Proof.
  intros H R E. pose proof (binv_reachable _ _ _ H R) as I. eapply log_ok_split; [apply (b_log _ _ I)|exact E].
Qed.

Theorem C18_try_push_full : forall V cap (s0 s : state V) h2 f v r t h1,
  construct cap = Some s0 -> reachable step s0 s -> log s = h2 ++ ERet f (TryPush v) r t :: h1 ->
  (r = RStatus Full <-> ~ was_closed h1 /\ stored h1 = N.to_nat cap - 1) /\
  (r = RStatus Success \/ r = RExn <-> ~ was_closed h1 /\ stored h1 < N.to_nat cap - 1) /\
  (r = RStatus Closed <-> was_closed h1).
Proof.
  intros V cap s0 s h2 f v r t h1 H R E. pose proof (ret_ok_at _ _ _ _ _ _ _ _ _ _ H R E) as X. simpl in X.
  destruct X as [([-> | ->] & A & B)|[(-> & A)|(-> & A & B)]];
    (splits; split; intros X; try discriminate X; try (destruct X as [X|X]; discriminate X); try tauto; auto);
    destruct X as [X1 X2]; try contradiction; exfalso; lia.
Qed.

Theorem C18_try_pop_empty : forall V cap (s0 s : state V) h2 f r t h1,
  construct cap = Some s0 -> reachable step s0 s -> log s = h2 ++ ERet f TryPop r t :: h1 ->
  (r = RStatus Empty <-> ~ was_closed h1 /\ stored h1 = 0) /\
  ((exists x, r = RValue x) \/ r = RExn <-> 0 < stored h1) /\
  (r = RStatus Closed <-> was_closed h1 /\ stored h1 = 0).
Proof.
  intros V cap s0 s h2 f r t h1 H R E. pose proof (ret_ok_at _ _ _ _ _ _ _ _ _ _ H R E) as X. simpl in X.
  destruct X as [([(x & ->)| ->] & A)|[(-> & A & B)|(-> & A & B)]];
    (splits; split; intros X; try discriminate X; try (destruct X as [[y X]|X]; discriminate X); try tauto; eauto; try lia);
    try (destruct X as [X1 X2]; try contradiction; try discriminate X2; exfalso; congruence || lia).
Qed.

Example C18_ex : exists (s0 s : state nat) h1, construct 2 = Some s0 /\ reachable step s0 s /\
  log s = ERet 2 (TryPush 9) (RStatus Full) 0 :: h1 /\ stored h1 = 1.
Proof.
  destruct (construct (V := nat) 2) as [s0|] eqn:E; [|discriminate]. exists s0.
  destruct (reach_by step s0 [LK (Pick 2 2); LCall 2 (TryPush 7); LRun 2; LCall 2 (TryPush 9); LRun 2]
    (fun s => exists h1, log s = ERet 2 (TryPush 9) (RStatus Full) 0 :: h1 /\ stored h1 = 1)) as (s & R & h1 & A & B).
  - inversion E; subst. vm_compute. eauto.
  - exists s, h1. auto.
Qed.
Example C18_ex_bad : construct (V := nat) 6 = None /\ construct (V := nat) 1 = None /\ construct (V := nat) 0 = None.
Proof. vm_compute. auto. Qed.

(** ** C19 *)
Theorem C19_no_push_after_close : forall V cap (s0 s : state V) h2 f o r t h1,
  construct cap = Some s0 -> reachable step s0 s -> log s = h2 ++ ERet f o r t :: h1 ->
  was_closed h1 -> is_push o -> r <> RStatus Success /\ r <> RExn.
Proof.
  intros V cap s0 s h2 f o r t h1 H R E Hc Ho. pose proof (ret_ok_at _ _ _ _ _ _ _ _ _ _ H R E) as X.
  destruct o; simpl in Ho, X; try contradiction; split; intros ->;
    repeat match goal with A : _ \/ _ |- _ => destruct A as [A|A] end; destruct X as [X1 X2]; try discriminate X1; tauto.
Qed.

(** A pop reports closed (value_pop: throws) only if the channel is closed and everything has been delivered. *)
Theorem C19_closed_means_drained : forall V cap (s0 s : state V) h2 f o r t h1,
  construct cap = Some s0 -> reachable step s0 s -> log s = h2 ++ ERet f o r t :: h1 ->
  is_pop o -> r = RStatus Closed \/ r = RThrow ->
  was_closed h1 /\ delivered h1 = map Some (accepted h1).
Proof.
  intros V cap s0 s h2 f o r t h1 H R E Ho Hr. pose proof (ret_ok_at _ _ _ _ _ _ _ _ _ _ H R E) as X.
  assert (Y : was_closed h1 /\ stored h1 = 0).
  { destruct o; simpl in Ho, X; try contradiction; destruct Hr as [-> | ->];
    repeat match goal with A : _ \/ _ |- _ => destruct A as [A|A] end; try (destruct X as [X1 X2]; try discriminate X1; tauto);
    destruct X as [[[x X1]|X1] _]; discriminate X1. }
  destruct Y as [Y1 Y2]. split; auto.
  destruct (ret_ok_at' _ _ _ _ _ _ _ _ _ _ H R E) as (_ & _ & rest & Q).
  rewrite (stored_items _ _ Q) in Y2. destruct rest; [|discriminate]. rewrite app_nil_r in Q. auto.
Qed.

(** After close() nobody is blocked in any operation. *)
Theorem C19_nobody_blocked_after_close : forall V cap (s0 s : state V) f,
  construct cap = Some s0 -> reachable step s0 s -> was_closed (log s) -> runnable (kn s) f.
Proof.
  intros V cap s0 s f H R Hc. pose proof (binv_reachable _ _ _ H R) as I.
  apply (b_closed _ _ I) in Hc. pose proof (b_cl _ _ I Hc f) as X. unfold xblocked in X. unfold runnable.
  destruct (running (fib (kn s) f)), (queued (fib (kn s) f)); auto.
Qed.

(** Fiber 1 is blocked in pop, then the channel is closed, and pop reports closed. *)
Example C19_ex : exists (s0 s : state nat) h1, construct 2 = Some s0 /\ reachable step s0 s /\
  log s = ERet 1 Pop (RStatus Closed) 0 :: h1 /\ was_closed h1 /\ delivered h1 = [Some 7].
Proof.
  destruct (construct (V := nat) 2) as [s0|] eqn:E; [|discriminate]. exists s0.
  destruct (reach_by step s0 [LK (Pick 1 1); LK (Pick 2 2); LCall 2 (TryPush 7); LRun 2; LCall 1 Pop; LRun 1; LCall 1 Pop; LRun 1;
      LCall 2 Close; LRun 2; LK (Pick 1 1); LRun 1; LRun 1]
    (fun s => exists h1, log s = ERet 1 Pop (RStatus Closed) 0 :: h1 /\ In (ERet 2 Close RVoid 0) h1 /\ delivered h1 = [Some 7])) as (s & R & h1 & A & B & C).
  - inversion E; subst. vm_compute. eauto 10.
  - exists s, h1. splits; auto. exists 2, 0. auto.
Qed.

(** ** C20, C21 *)
Lemma live_runnable V cap (s : state V) i n f (P : op V -> Prop) :
  BInv cap s -> blocked (kn s) f -> (forall o, blocking o i -> P o) -> inq (pcs s f) i -> live (kn s) (pcs s) i n ->
  runnable_in (kn s) (log s) P n.
Proof.
  intros I Hb HP Hi L. destruct L as (l & A & B & C).
  - exists f. auto.
  - exists l. splits; auto. intros g Hg. destruct (C g Hg) as [C1 (o & C2 & C3)]. split; auto.
    exists o. rewrite (b_pend _ _ I). auto.
Qed.

Lemma blocked_in V cap (s : state V) f o :
  BInv cap s -> blocked (kn s) f -> pending (log s) f = Some o -> ~ was_closed (log s) /\
  (is_pop o -> inq (pcs s f) 1) /\ (is_push o -> inq (pcs s f) 0).
Proof.
  intros I Hb Hp. split.
  - intros Hc. apply (b_closed _ _ I) in Hc. eapply (b_cl _ _ I Hc); eauto.
  - rewrite (b_pend _ _ I) in Hp. destruct (blocked_live _ _ _ _ (b_k _ _ I) Hb) as (i & _ & W).
    pose proof (b_wf _ _ I f) as Wf.
    destruct (pcs s f) as [|o'|o' e|o' tp e|o' tp e]; simpl in Hp; inversion Hp; subst; simpl in W, Wf;
      try (destruct W as [W|[tq W]]; discriminate W);
      split; intros X; destruct o; simpl in X, Wf; try contradiction; unfold inq; simpl; eexists; (split; [reflexivity|reflexivity]).
Qed.

(** Full statement of C21 (of which C20 is the special case without timed operations). *)
Definition nobody_stranded {V} (cap : N) (s : state V) : Prop :=
  forall f o, blocked (kn s) f -> pending (log s) f = Some o -> ~ was_closed (log s) /\
    (is_pop o -> runnable_in (kn s) (log s) is_pop (stored (log s))) /\
    (is_push o -> runnable_in (kn s) (log s) is_push (N.to_nat cap - 1 - stored (log s))).

(** Proved under the additional hypothesis that no timed operation has reported a timeout and no copy or move has thrown in an operation that may wait (C93). *)
Theorem C21_nobody_stranded_partial : forall V cap (s0 s : state V),
  construct cap = Some s0 -> reachable step s0 s -> no_timeout (log s) -> no_exception (log s) -> nobody_stranded cap s.
Proof.
  intros V cap s0 s H R Hn0 Hx f o Hb Hp. pose proof (binv_reachable _ _ _ H R) as I.
  assert (Hn : undisturbed (log s)) by (split; auto).
  destruct (blocked_in _ _ _ _ _ I Hb Hp) as (A & B & C). splits; auto.
  - intros Ho. eapply live_runnable; [exact I|exact Hb| |exact (B Ho)|exact (b_cons _ _ I Hn)].
    intros [] X; simpl in *; auto; discriminate.
  - intros Ho. eapply live_runnable; [exact I|exact Hb| |exact (C Ho)|exact (b_prod _ _ I Hn)].
    intros [] X; simpl in *; auto; discriminate.
Qed.

Lemma untimed_no_timeout V cap (s0 s : state V) :
  construct cap = Some s0 -> reachable step s0 s -> untimed (log s) -> no_timeout (log s).
Proof.
  intros H R Hu f o t Hi.
  apply in_split in Hi. destruct Hi as (h2 & h1 & E). destruct (ret_ok_at' _ _ _ _ _ _ _ _ _ _ H R E) as (X & Y & _).
  assert (G : forall (h : list (event V)) f o, pending h f = Some o -> In (ECall f o) h).
  { intros h; induction h as [|[g o'|g o' r t'] h IH]; simpl; intros f' o2 Hp; [discriminate| |];
    destruct (Nat.eqb_spec g f') as [->|]; try discriminate; auto. inversion Hp; auto. }
  apply G in Y. assert (Y' : In (ECall f o) (log s)) by (rewrite E; apply in_app_iff; right; now right).
  destruct (Hu f) as [U1 U2]. destruct o; simpl in X; try (eapply U1; exact Y'); try (eapply U2; exact Y');
    try discriminate X;
    repeat match goal with A : _ \/ _ |- _ => destruct A as [A|A] end; try (destruct X as [X1 X2]; try discriminate X1; destruct X1 as [X1|X1]; try discriminate X1; destruct X1 as [x X1]; discriminate X1).
  destruct X as [b [X _]]. discriminate X.
Qed.

Theorem C20_nobody_stranded : forall V cap (s0 s : state V),
  construct cap = Some s0 -> reachable step s0 s -> untimed (log s) -> no_exception (log s) -> nobody_stranded cap s.
Proof.
  intros V cap s0 s H R Hu Hx. eapply C21_nobody_stranded_partial; eauto. eapply untimed_no_timeout; eauto.
Qed.

(** Two consumers are blocked, one value arrives: one consumer stays blocked, one is runnable. *)
Example C20_ex : exists s0 s : state nat, construct 4 = Some s0 /\ reachable step s0 s /\ untimed (log s) /\ no_exception (log s) /\
  blocked (kn s) 2 /\ pending (log s) 2 = Some Pop /\ stored (log s) = 1.
Proof.
  destruct (construct (V := nat) 4) as [s0|] eqn:E; [|discriminate]. exists s0.
  destruct (reach_by step s0 [LK (Pick 1 1); LK (Pick 2 2); LK (Pick 3 3); LCall 1 ValuePop; LRun 1; LCall 2 Pop; LRun 2; LCall 3 (Push 5); LRun 3]
   (fun s => blocked (kn s) 2 /\ log s = [ERet 3 (Push 5) (RStatus Success) 0; ECall 3 (Push 5); ECall 2 Pop; ECall 1 ValuePop])) as (s & R & A & B).
  - inversion E; subst. vm_compute. auto.
  - exists s. rewrite B. splits; auto.
    + intros f. split; intros; simpl; intuition discriminate.
    + intros f o t _ Hi. simpl in Hi. intuition discriminate.
Qed.

(** C21 is false: fiber 1 waits with deadline 3, fiber 2 without. The push of fiber 3 wakes fiber 1, which is
    resumed only after its deadline and reports timeout. The value stays in the channel, fiber 2 stays blocked,
    and no other fiber is inside an operation. *)
Theorem C21_refuted : exists cap (s0 s : state nat),
  construct cap = Some s0 /\ reachable step s0 s /\ blocked (kn s) 2 /\ pending (log s) 2 = Some Pop /\
  stored (log s) = 1 /\ ~ was_closed (log s) /\ (forall g, g <> 2 -> pending (log s) g = None).
Proof.
  exists 2%N. destruct (construct (V := nat) 2) as [s0|] eqn:E; [|discriminate]. exists s0.
  destruct (reach_by step s0 [LK (Pick 1 1); LK (Pick 2 2); LK (Pick 3 3); LCall 1 (PopUntil 3); LRun 1; LCall 2 Pop; LRun 2;
      LCall 3 (Push 5); LRun 3; LK (Tick 5); LK (Pick 1 1); LRun 1; LRun 1]
   (fun s => blocked (kn s) 2 /\ log s = [ERet 1 (PopUntil 3) (RStatus Timeout) 6; ERet 3 (Push 5) (RStatus Success) 0; ECall 3 (Push 5);
       ECall 2 Pop; ECall 1 (PopUntil 3)])) as (s & R & A & B).
  - inversion E; subst. vm_compute. auto.
  - exists s. rewrite B. splits; auto.
    + intros (f & t & Hi). simpl in Hi. intuition discriminate.
    + intros [|[|[|[|g]]]]; try reflexivity. congruence.
Qed.

(** The same for producers: a free slot, a producer blocked, nobody else inside an operation. *)
Theorem C21_refuted_push : exists cap (s0 s : state nat),
  construct cap = Some s0 /\ reachable step s0 s /\ blocked (kn s) 2 /\ pending (log s) 2 = Some (Push 8) /\
  stored (log s) = 0 /\ ~ was_closed (log s) /\ (forall g, g <> 2 -> pending (log s) g = None).
Proof.
  exists 2%N. destruct (construct (V := nat) 2) as [s0|] eqn:E; [|discriminate]. exists s0.
  destruct (reach_by step s0 [LK (Pick 1 1); LK (Pick 2 2); LK (Pick 3 3); LCall 3 (TryPush 4); LRun 3; LCall 1 (PushUntil 7 3); LRun 1; LCall 2 (Push 8); LRun 2;
      LCall 3 Pop; LRun 3; LK (Tick 5); LK (Pick 1 1); LRun 1; LRun 1]
   (fun s => blocked (kn s) 2 /\ log s = [ERet 1 (PushUntil 7 3) (RStatus Timeout) 6; ERet 3 Pop (RValue (Some 4)) 0; ECall 3 Pop;
       ECall 2 (Push 8); ECall 1 (PushUntil 7 3); ERet 3 (TryPush 4) (RStatus Success) 0; ECall 3 (TryPush 4)])) as (s & R & A & B).
  - inversion E; subst. vm_compute. auto.
  - exists s. rewrite B. splits; auto.
    + intros (f & t & Hi). simpl in Hi. intuition discriminate.
    + intros [|[|[|[|g]]]]; try reflexivity. congruence.
Qed.

(** A timed consumer that was notified in time: hypotheses of C21_nobody_stranded_partial with a timed operation. *)
Example C21_ex : exists s0 s : state nat, construct 2 = Some s0 /\ reachable step s0 s /\ no_timeout (log s) /\ no_exception (log s) /\
  blocked (kn s) 2 /\ pending (log s) 2 = Some Pop /\ stored (log s) = 1 /\ pending (log s) 1 = Some (PopUntil 3).
Proof.
  destruct (construct (V := nat) 2) as [s0|] eqn:E; [|discriminate]. exists s0.
  destruct (reach_by step s0 [LK (Pick 1 1); LK (Pick 2 2); LK (Pick 3 3); LCall 1 (PopUntil 3); LRun 1; LCall 2 Pop; LRun 2; LCall 3 (Push 5); LRun 3]
   (fun s => blocked (kn s) 2 /\ log s = [ERet 3 (Push 5) (RStatus Success) 0; ECall 3 (Push 5); ECall 2 Pop; ECall 1 (PopUntil 3)])) as (s & R & A & B).
  - inversion E; subst. vm_compute. auto.
  - exists s. rewrite B. splits; auto; [intros f o t Hi|intros f o t _ Hi]; simpl in Hi; intuition discriminate.
Qed.

(** ** C22 (buffered part) *)
Theorem C22_buffered_not_early : forall V cap (s0 s : state V) h2 f o t h1,
  construct cap = Some s0 -> reachable step s0 s -> log s = h2 ++ ERet f o (RStatus Timeout) t :: h1 ->
  (exists v tp, o = PushUntil v tp /\ tp <= t) \/ (exists tp, o = PopUntil tp /\ tp <= t).
Proof.
  intros V cap s0 s h2 f o t h1 H R E. pose proof (ret_ok_at _ _ _ _ _ _ _ _ _ _ H R E) as X.
  destruct o; simpl in X; try discriminate X;
    repeat match goal with A : _ \/ _ |- _ => destruct A as [A|A] end; try (destruct X as [X1 X2]; try discriminate X1; eauto);
    try (destruct X1 as [X1|X1]; try discriminate X1; destruct X1 as [x X1]; discriminate X1).
  destruct X2 as [X2 _]. discriminate X2.
Qed.

Example C22_ex : exists (s0 s : state nat) h1, construct 2 = Some s0 /\ reachable step s0 s /\ log s = ERet 1 (PopUntil 3) (RStatus Timeout) 6 :: h1.
Proof.
  destruct (construct (V := nat) 2) as [s0|] eqn:E; [|discriminate]. exists s0.
  destruct (reach_by step s0 [LK (Pick 1 1); LCall 1 (PopUntil 3); LRun 1; LK (Tick 5); LK (Timer 1); LK (Pick 1 1); LRun 1; LRun 1]
   (fun s => exists h1, log s = ERet 1 (PopUntil 3) (RStatus Timeout) 6 :: h1)) as (s & R & h1 & A).
  - inversion E; subst. vm_compute. eauto.
  - exists s, h1. auto.
Qed.

Theorem C08_buffered_no_double_wakeup : forall V cap (s0 s : state V),
  construct cap = Some s0 -> reachable step s0 s -> err (kn s) = false.
Proof. intros V cap s0 s H R. apply (ki_e _ _ _ (b_k _ _ (binv_reachable _ _ _ H R))). Qed.

(** All theorems of this file at once: their assumptions. *)
Definition all_buffered :=
  (@C17_fifo_exactly_once, @C17_pop_takes_oldest, @C18_constructor, @C18_never_more_than_capacity,
   @C18_try_push_full, @C18_try_pop_empty, @C19_no_push_after_close, @C19_closed_means_drained,
   @C19_nobody_blocked_after_close, @C20_nobody_stranded, @C21_nobody_stranded_partial, @C21_refuted,
   @C21_refuted_push, @C22_buffered_not_early, @C08_buffered_no_double_wakeup).
Print Assumptions all_buffered.
