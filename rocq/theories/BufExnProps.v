(** Properties C92-C94: buffered_channel with element types whose copy and move operations may throw. *)
From Coq Require Import List Arith NArith Bool Lia.
From Verif Require Import Base Kernel KernelFacts Buffered BufferedSpec BufferedProofs BufferedProps BufLost.
Import ListNotations.

(** ** C92 *)
(** A call that ends with an exception of the element type has no effect on the channel and on other fibers. *)
Theorem C92_no_effect : forall V (s : state V) l s' f o t,
  step s l = Some s' -> log s' = ERet f o RExn t :: log s ->
  ch s' = ch s /\ kn s' = kn s /\ forall g, g <> f -> pcs s' g = pcs s g.
Proof.
  intros V s l s' f o t Hs Hl.
  assert (NC : forall (x : event V) h, h = x :: h -> False).
  { intros x h E. apply (f_equal (@length _)) in E. simpl in E. lia. }
  destruct l as [kl|f' o'|f'|f'|f'|f']; simpl in Hs.
  - destruct (kstep (kn s) kl); inversion Hs; subst; simpl in Hl. exfalso; eauto.
  - destruct (pcs s f'); try discriminate. destruct (running (fib (kn s) f')); inversion Hs; subst; simpl in Hl. discriminate.
  - exfalso. destruct (running (fib (kn s) f')); [|discriminate]. unfold run_step in Hs.
    destruct (pcs s f') as [|o'|o' e|o' tp e|o' tp e]; [discriminate| | | |]; inversion Hs; subst; clear Hs; simpl in Hl; try (eauto; fail); try discriminate.
    revert Hl. unfold cs, store, fetch, block, block_until, notify1, notifyA. simpl.
    destruct o'; repeat (match goal with
      | |- context [if ?b then _ else _] => destruct b
      | |- context [match ?x with (_, _) => _ end] => destruct x as [? ?]
      end; simpl); intros Hl; try discriminate; eauto.
  - destruct (pcs s f'); try discriminate. destruct (running (fib (kn s) f')); inversion Hs; subst; simpl in Hl. exfalso; eauto.
  - destruct (pcs s f'); try discriminate. destruct (running (fib (kn s) f') && transfers (ch s) o0); inversion Hs; subst; simpl in Hl.
    inversion Hl; subst. simpl. splits; auto. intros g Hg. now updt.
  - destruct (pcs s f'); try discriminate; destruct (running (fib (kn s) f')); inversion Hs; subst; simpl in Hl; exfalso; eauto.
Qed.

(** After a push that has thrown there is still room: a push of any fiber that follows succeeds at once. *)
Theorem C92_retry_push : forall V cap (s0 s : state V) f o t h g o',
  construct cap = Some s0 -> reachable step s0 s -> log s = ERet f o RExn t :: h -> is_push o ->
  running (fib (kn s) g) = true -> pending (log s) g = None -> is_push o' ->
  exists s', exec step s [LCall g o'; LRun g] = Some s' /\
    log s' = ERet g o' (RStatus Success) (now (kn s)) :: ECall g o' :: log s.
Proof.
  intros V cap s0 s f o t h g o' H R El Ho Hr Hp Ho'.
  pose proof (binv_reachable _ _ _ H R) as I.
  pose proof (ret_ok_at V cap s0 s [] f o RExn t h H R El) as X.
  assert (Y : ~ was_closed h /\ stored h < N.to_nat cap - 1).
  { destruct o; simpl in Ho, X; try contradiction;
      repeat match goal with A : _ \/ _ |- _ => destruct A as [A|A] end;
      try (destruct X as [X1 X2]; try discriminate X1; auto); destruct X1; discriminate. }
  destruct Y as [Y1 Y2].
  assert (Hc : closed (ch s) = false).
  { destruct (closed (ch s)) eqn:E; auto. exfalso. apply (b_closed _ _ I) in E. rewrite El in E. apply wc_cons in E; auto. discriminate. }
  assert (Hst : stored (log s) = stored h).
  { rewrite El. apply stored_cons0; auto. now destruct o. }
  assert (Hf : is_full (ch s) = false).
  { destruct (is_full (ch s)) eqn:E; auto. apply (full_spec _ _ I) in E. lia. }
  rewrite (b_pend _ _ I) in Hp. destruct (pcs s g) eqn:Ep; simpl in Hp; try discriminate.
  simpl. rewrite Ep, Hr. simpl. rewrite Hr. unfold run_step. simpl. updt.
  destruct o'; simpl in Ho'; try contradiction; unfold cs; simpl; rewrite Hc, Hf; unfold store, notify1; simpl;
    destruct (notify_one (kn s) (queues (ch s) 1)) as [k' q'] eqn:En;
    destruct (notify_one_mono 1 _ _ _ _ _ (b_k _ _ I) En) as (_ & _ & N & _); rewrite <- N; eexists; split; reflexivity.
Qed.

(** After a pop that has thrown the value is still there: the next pop takes the oldest value that has not been delivered. *)
Theorem C92_retry_pop : forall V cap (s0 s : state V) f o t h g o',
  construct cap = Some s0 -> reachable step s0 s -> log s = ERet f o RExn t :: h -> is_pop o ->
  running (fib (kn s) g) = true -> pending (log s) g = None -> is_pop o' ->
  exists v s', nth_error (accepted h) (length (delivered h)) = Some v /\
    exec step s [LCall g o'; LRun g] = Some s' /\
    log s' = ERet g o' (RValue (Some v)) (now (kn s)) :: ECall g o' :: log s.
Proof.
  intros V cap s0 s f o t h g o' H R El Ho Hr Hp Ho'.
  destruct (ret_ok_at' V cap s0 s [] f o RExn t h H R El) as (X & _ & rest & Q).
  assert (Y : 0 < stored h).
  { destruct o; simpl in Ho, X; try contradiction;
      repeat match goal with A : _ \/ _ |- _ => destruct A as [A|A] end;
      try (destruct X as [X1 X2]; try discriminate X1; auto); destruct X1 as [x X1]; discriminate X1. }
  rewrite (stored_items _ _ Q) in Y. destruct rest as [|v rest]; [simpl in Y; lia|].
  assert (Hn : nth_error (accepted h) (length (delivered h)) = Some v).
  { assert (Z : nth_error (map Some (accepted h)) (length (delivered h)) = Some (Some v)).
    { rewrite Q, nth_error_app2, Nat.sub_diag by lia. reflexivity. }
    rewrite nth_error_map in Z. destruct (nth_error (accepted h) (length (delivered h))); simpl in Z; congruence. }
  assert (Ha : accepted (log s) = accepted h) by (rewrite El, accepted_cons; destruct o; simpl; now rewrite app_nil_r).
  assert (Hd : delivered (log s) = delivered h) by (rewrite El, delivered_cons; simpl; now rewrite app_nil_r).
  destruct (C17_pop_takes_oldest V cap s0 s g o' v H R Hr Hp Ho') as (s' & A & B); [now rewrite Ha, Hd|].
  exists v, s'. auto.
Qed.

(** Fiber 1 waits in push, is woken, and its copy throws; fiber 2 pops a value that was pushed before. *)
Example C92_ex : exists (s0 s : state nat) h, construct 2 = Some s0 /\ reachable step s0 s /\
  log s = ERet 1 (Push 8) RExn 0 :: h /\ running (fib (kn s) 2) = true /\ pending (log s) 2 = None /\ delivered h = [Some 7].
Proof.
  destruct (construct (V := nat) 2) as [s0|] eqn:E; [|discriminate]. exists s0.
  destruct (reach_by step s0 [LK (Pick 1 1); LK (Pick 2 2); LCall 2 (TryPush 7); LRun 2; LCall 1 (Push 8); LRun 1;
      LCall 2 Pop; LRun 2; LK (Pick 1 1); LRun 1; LThrow 1]
    (fun s => exists h, log s = ERet 1 (Push 8) RExn 0 :: h /\ running (fib (kn s) 2) = true /\ pending (log s) 2 = None /\ delivered h = [Some 7]))
    as (s & R & h & A).
  - inversion E; subst. vm_compute. eauto 10.
  - exists s, h. tauto.
Qed.
Example C92_ex_pop : exists (s0 s : state nat) h, construct 2 = Some s0 /\ reachable step s0 s /\
  log s = ERet 1 ValuePop RExn 0 :: h /\ running (fib (kn s) 2) = true /\ pending (log s) 2 = None.
Proof.
  destruct (construct (V := nat) 2) as [s0|] eqn:E; [|discriminate]. exists s0.
  destruct (reach_by step s0 [LK (Pick 1 1); LK (Pick 2 2); LCall 2 (TryPush 7); LRun 2; LCall 1 ValuePop; LThrow 1]
    (fun s => exists h, log s = ERet 1 ValuePop RExn 0 :: h /\ running (fib (kn s) 2) = true /\ pending (log s) 2 = None))
    as (s & R & h & A).
  - inversion E; subst. vm_compute. eauto 10.
  - exists s, h. tauto.
Qed.

(** ** C93: false. Two producers wait for a full channel. A pop wakes the first, whose copy throws; the exception leaves push()
    and the wake-up is passed to nobody. The consumer then waits for a value: the second producer is blocked in push() although the
    channel is empty, the consumer in pop(), and no other fiber is inside an operation. *)
Theorem C93_refuted : exists cap (s0 s : state nat),
  construct cap = Some s0 /\ reachable step s0 s /\ untimed (log s) /\ ~ was_closed (log s) /\ stored (log s) = 0 /\
  blocked (kn s) 2 /\ pending (log s) 2 = Some (Push 8) /\
  blocked (kn s) 3 /\ pending (log s) 3 = Some Pop /\
  (forall g, g <> 2 -> g <> 3 -> pending (log s) g = None).
Proof.
  exists 2%N. destruct (construct (V := nat) 2) as [s0|] eqn:E; [|discriminate]. exists s0.
  destruct (reach_by step s0 [LK (Pick 1 1); LK (Pick 2 2); LK (Pick 3 3); LCall 3 (TryPush 4); LRun 3; LCall 1 (Push 7); LRun 1; LCall 2 (Push 8); LRun 2;
      LCall 3 Pop; LRun 3; LK (Pick 1 1); LRun 1; LThrow 1; LCall 3 Pop; LRun 3]
   (fun s => blocked (kn s) 2 /\ blocked (kn s) 3 /\ log s = [ECall 3 Pop; ERet 1 (Push 7) RExn 0; ERet 3 Pop (RValue (Some 4)) 0; ECall 3 Pop;
       ECall 2 (Push 8); ECall 1 (Push 7); ERet 3 (TryPush 4) (RStatus Success) 0; ECall 3 (TryPush 4)])) as (s & R & A & A' & B).
  - inversion E; subst. vm_compute. auto.
  - exists s. rewrite B. splits; auto.
    + intros f. split; intros; simpl; intuition discriminate.
    + intros (f & t & Hi). simpl in Hi. intuition discriminate.
    + intros [|[|[|[|g]]]] G2 G3; try reflexivity; congruence.
Qed.

(** The same for consumers: a value in the channel, a consumer blocked in pop(), nobody else inside an operation. *)
Theorem C93_refuted_pop : exists cap (s0 s : state nat),
  construct cap = Some s0 /\ reachable step s0 s /\ untimed (log s) /\ ~ was_closed (log s) /\ stored (log s) = 1 /\
  blocked (kn s) 2 /\ pending (log s) 2 = Some Pop /\ (forall g, g <> 2 -> pending (log s) g = None).
Proof.
  exists 2%N. destruct (construct (V := nat) 2) as [s0|] eqn:E; [|discriminate]. exists s0.
  destruct (reach_by step s0 [LK (Pick 1 1); LK (Pick 2 2); LK (Pick 3 3); LCall 1 ValuePop; LRun 1; LCall 2 Pop; LRun 2;
      LCall 3 (Push 5); LRun 3; LK (Pick 1 1); LRun 1; LThrow 1]
   (fun s => blocked (kn s) 2 /\ log s = [ERet 1 ValuePop RExn 0; ERet 3 (Push 5) (RStatus Success) 0; ECall 3 (Push 5);
       ECall 2 Pop; ECall 1 ValuePop])) as (s & R & A & B).
  - inversion E; subst. vm_compute. auto.
  - exists s. rewrite B. splits; auto.
    + intros f. split; intros; simpl; intuition discriminate.
    + intros (f & t & Hi). simpl in Hi. intuition discriminate.
    + intros [|[|[|[|g]]]] G2; try reflexivity; congruence.
Qed.

(** What does hold: exceptions out of try_push() and try_pop() strand nobody.
    (Missing from the full C93: exceptions out of operations that may wait.) *)
Theorem C93_partial : forall V cap (s0 s : state V),
  construct cap = Some s0 -> reachable step s0 s -> untimed (log s) ->
  (forall f o t, In (ERet f o RExn t) (log s) -> (exists v, o = TryPush v) \/ o = TryPop) -> nobody_stranded cap s.
Proof.
  intros V cap s0 s H R Hu Hx. eapply C20_nobody_stranded; eauto.
  intros f o t Hw Hi. destruct (Hx f o t Hi) as [[v ->] | ->]; exact Hw.
Qed.
Example C93_ex : exists s0 s : state nat, construct 4 = Some s0 /\ reachable step s0 s /\ untimed (log s) /\
  (forall f o t, In (ERet f o RExn t) (log s) -> (exists v, o = TryPush v) \/ o = TryPop) /\
  In (ERet 3 TryPop RExn 0) (log s) /\ blocked (kn s) 2 /\ pending (log s) 2 = Some Pop /\ stored (log s) = 1.
Proof.
  destruct (construct (V := nat) 4) as [s0|] eqn:E; [|discriminate]. exists s0.
  destruct (reach_by step s0 [LK (Pick 1 1); LK (Pick 2 2); LK (Pick 3 3); LCall 1 ValuePop; LRun 1; LCall 2 Pop; LRun 2; LCall 3 (Push 5); LRun 3;
      LCall 3 TryPop; LThrow 3]
   (fun s => blocked (kn s) 2 /\ log s = [ERet 3 TryPop RExn 0; ECall 3 TryPop; ERet 3 (Push 5) (RStatus Success) 0; ECall 3 (Push 5); ECall 2 Pop; ECall 1 ValuePop])) as (s & R & A & B).
  - inversion E; subst. vm_compute. auto.
  - exists s. rewrite B. splits; auto.
    + intros f. split; intros; simpl; intuition discriminate.
    + intros f o t Hi. right. simpl in Hi. intuition congruence.
    + now left.
Qed.

(** ** C94 *)
(** [l1] is [l2] with some elements left out. *)
Inductive sublist {A} : list A -> list A -> Prop :=
| sub_nil : sublist [] []
| sub_skip x l1 l2 : sublist l1 l2 -> sublist l1 (x :: l2)
| sub_keep x l1 l2 : sublist l1 l2 -> sublist (x :: l1) (x :: l2).

(** False: value_pop() throws when it returns the value, the value is gone. *)
Theorem C94_refuted : exists (s0 s : state nat),
  construct 2 = Some s0 /\ reachable ystep s0 s /\ accepted (log s) = [7; 8] /\ delivered (log s) = [Some 8] /\
  (forall g, pending (log s) g = None).
Proof.
  destruct (construct (V := nat) 2) as [s0|] eqn:E; [|discriminate]. exists s0.
  destruct (reach_by ystep s0 [YL (LK (Pick 1 1)); YL (LK (Pick 2 2)); YL (LCall 2 (Push 7)); YL (LRun 2); YL (LCall 1 ValuePop); YLost 1;
      YL (LCall 2 (Push 8)); YL (LRun 2); YL (LCall 1 ValuePop); YL (LRun 1)]
   (fun s => log s = [ERet 1 ValuePop (RValue (Some 8)) 0; ECall 1 ValuePop; ERet 2 (Push 8) (RStatus Success) 0; ECall 2 (Push 8);
      ERet 1 ValuePop RExn 0; ECall 1 ValuePop; ERet 2 (Push 7) (RStatus Success) 0; ECall 2 (Push 7)])) as (s & R & A).
  - inversion E; subst. vm_compute. auto.
  - exists s. rewrite A. splits; auto. intros [|[|[|g]]]; reflexivity.
Qed.

(** Logs that differ in the results of some value_pop() calls only: a value on the left, an exception on the right. *)
Definition same_or_lost {V} (e' e : event V) : Prop :=
  e' = e \/ exists f x t, e' = ERet f ValuePop (RValue x) t /\ e = ERet f ValuePop RExn t.
Definition sim {V} (s' s : state V) : Prop :=
  kn s' = kn s /\ ch s' = ch s /\ pcs s' = pcs s /\ Forall2 same_or_lost (log s') (log s).

Lemma sim_cons {V} k c p (e' e : event V) h' h : same_or_lost e' e -> Forall2 same_or_lost h' h ->
  sim (mkState k c p (e' :: h')) (mkState k c p (e :: h)).
Proof. intros A B. unfold sim; simpl. splits; auto. Qed.

(** A step adds at most one event and does not look at the log. *)
Lemma step_log {V} k c p (h : list (event V)) l s' : step (mkState k c p h) l = Some s' ->
  exists k' c' p' es, s' = mkState k' c' p' (es ++ h) /\
    forall h', step (mkState k c p h') l = Some (mkState k' c' p' (es ++ h')).
Proof.
  intros Hs. destruct l as [kl|f' o'|f'|f'|f'|f']; simpl in Hs |- *.
  - destruct (kstep k kl) as [k'|]; inversion Hs; subst. exists k', c, p, []. split; auto.
  - destruct (p f'); try discriminate. destruct (running (fib k f')); inversion Hs; subst. eexists _, _, _, [_]. split; reflexivity.
  - destruct (running (fib k f')); [|discriminate]. unfold run_step in *. simpl in Hs |- *.
    destruct (p f') as [|o'|o' e|o' tp e|o' tp e]; [discriminate| | | |]; inversion Hs; subst; clear Hs.
    + unfold cs, store, fetch, block, block_until, notify1, notifyA, set_queue, ret. simpl.
      destruct o'; try (destruct (notify_all k (queues c 0)) as [k1 q1]; simpl;
        destruct (notify_all k1 (upd (queues c) 0 q1 1)) as [k2 q2]; simpl);
      repeat (match goal with
      | |- context [if ?b then _ else _] => destruct b
      | |- context [match ?x with (_, _) => _ end] => destruct x as [? ?]
      end; simpl);
      first [eexists _, _, _, [_]; split; reflexivity | eexists _, _, _, []; split; reflexivity].
    + eexists _, _, _, []. split; reflexivity.
    + destruct (wait_until_result k tp); eexists _, _, _, []; split; reflexivity.
    + eexists _, _, _, [_]. split; reflexivity.
  - destruct (p f'); try discriminate. destruct (running (fib k f')); inversion Hs; subst. eexists _, _, _, []. split; reflexivity.
  - destruct (p f'); try discriminate. destruct (running (fib k f') && transfers c o); inversion Hs; subst. eexists _, _, _, [_]. split; reflexivity.
  - destruct (p f'); try discriminate; destruct (running (fib k f')); inversion Hs; subst; eexists _, _, _, []; split; reflexivity.
Qed.

Lemma sol_refl {V} (es : list (event V)) : Forall2 same_or_lost es es.
Proof. induction es; constructor; auto. now left. Qed.

Lemma sim_step {V} (s' s : state V) l s2 : sim s' s -> ystep s l = Some s2 ->
  exists l' s2', step s' l' = Some s2' /\ sim s2' s2.
Proof.
  destruct s' as [k' c' p' h'], s as [k c p h]. intros (A & B & C & D) Hs. simpl in A, B, C, D. subst k' c' p'.
  destruct l as [l|f]; simpl in Hs.
  - destruct (step_log _ _ _ _ _ _ Hs) as (k2 & c2 & p2 & es & -> & H).
    exists l, (mkState k2 c2 p2 (es ++ h')). split; auto. unfold sim; simpl. splits; auto. apply Forall2_app; auto. apply sol_refl.
  - destruct (p f) as [|[]| | |] eqn:Ep; try discriminate. destruct (running (fib k f)) eqn:Er; [|discriminate].
    simpl in Hs. destruct (is_empty c) eqn:Ee; [discriminate|]. simpl in Hs. inversion Hs; subst s2; clear Hs.
    exists (LRun f), (fetch (mkState k c p h') f ValuePop). split.
    + simpl. rewrite Er. unfold run_step. simpl. rewrite Ep. unfold cs. simpl. now rewrite Ee.
    + unfold fetch, lost, notify1. simpl. destruct (notify_one k (queues c 0)) as [k2 q2]. unfold ret. simpl.
      apply sim_cons; auto. right. eauto.
Qed.

Lemma sim_reachable {V} (s0 s : state V) : reachable ystep s0 s -> exists s', reachable step s0 s' /\ sim s' s.
Proof.
  intros R. pattern s. eapply reachable_inv; [| |exact R]; cbv beta.
  - exists s0. split; [apply reachable_refl|]. unfold sim; splits; auto. apply sol_refl.
  - intros s1 l s2 (s' & R' & S) Hs. destruct (sim_step _ _ _ _ S Hs) as (l' & s2' & A & B).
    exists s2'. split; auto. eapply reachable_step; eauto.
Qed.

Lemma sub_refl {A} (l : list A) : sublist l l.
Proof. induction l; [apply sub_nil|now apply sub_keep]. Qed.
Lemma sub_app {A} (l1 l2 l3 l4 : list A) : sublist l1 l2 -> sublist l3 l4 -> sublist (l1 ++ l3) (l2 ++ l4).
Proof. induction 1; simpl; intros; auto; [now apply sub_skip; auto|apply sub_keep; auto]. Qed.
Lemma sub_app_r {A} (l1 l2 l3 : list A) : sublist l1 l2 -> sublist l1 (l2 ++ l3).
Proof.
  intros H. rewrite <- (app_nil_r l1). apply sub_app; auto. induction l3; constructor; auto.
Qed.

Lemma sim_log {V} (h' h : list (event V)) : Forall2 same_or_lost h' h ->
  accepted h' = accepted h /\ sublist (delivered h) (delivered h').
Proof.
  induction 1 as [|e' e h' h He _ [IH1 IH2]]; [split; auto; constructor|].
  rewrite !accepted_cons, !delivered_cons. destruct He as [->|(f & x & t & -> & ->)].
  - rewrite IH1. split; auto. apply sub_app; auto. apply sub_refl.
  - rewrite IH1. split; auto. simpl. rewrite app_nil_r. now apply sub_app_r.
Qed.

(** What does hold even then: consumers get accepted values only, each at most once, in the order in which they were accepted.
    (Missing from the full C94: that no value between them is lost; C17 for move constructors that do not throw.) *)
Theorem C94_partial : forall V cap (s0 s : state V),
  construct cap = Some s0 -> reachable ystep s0 s -> sublist (delivered (log s)) (map Some (accepted (log s))).
Proof.
  intros V cap s0 s H R. destruct (sim_reachable _ _ R) as (s' & R' & _ & _ & _ & L).
  destruct (sim_log _ _ L) as [A B]. destruct (C17_fifo_exactly_once _ _ _ _ H R') as [rest E].
  rewrite <- A, E. now apply sub_app_r.
Qed.
(** A value is only lost by a value_pop() that reports an exception. *)
Theorem C94_loss_is_reported_partial : forall V cap (s0 s : state V),
  construct cap = Some s0 -> reachable ystep s0 s -> (forall f t, ~ In (ERet f ValuePop RExn t) (log s)) ->
  exists rest, map Some (accepted (log s)) = delivered (log s) ++ map Some rest.
Proof.
  intros V cap s0 s H R Hn. destruct (sim_reachable _ _ R) as (s' & R' & _ & _ & _ & L).
  assert (E : log s' = log s).
  { revert Hn L. generalize (log s'), (log s). intros h' h Hn L. induction L as [|e' e h' h He L IH]; auto.
    destruct He as [->|(f & x & t & -> & ->)]; [|exfalso; apply (Hn f t); now left].
    rewrite IH; auto. intros f t Hi. apply (Hn f t). now right. }
  rewrite <- E. eapply C17_fifo_exactly_once; eauto.
Qed.
Example C94_ex : exists (s0 s : state nat), construct 2 = Some s0 /\ reachable ystep s0 s /\
  log s = [ERet 1 ValuePop RExn 0; ECall 1 ValuePop; ERet 2 (Push 7) (RStatus Success) 0; ECall 2 (Push 7)].
Proof.
  destruct (construct (V := nat) 2) as [s0|] eqn:E; [|discriminate]. exists s0.
  destruct (reach_by ystep s0 [YL (LK (Pick 1 1)); YL (LK (Pick 2 2)); YL (LCall 2 (Push 7)); YL (LRun 2); YL (LCall 1 ValuePop); YLost 1]
   (fun s => log s = [ERet 1 ValuePop RExn 0; ECall 1 ValuePop; ERet 2 (Push 7) (RStatus Success) 0; ECall 2 (Push 7)])) as (s & R & A).
  - inversion E; subst. vm_compute. auto.
  - exists s. auto.
Qed.

Definition all_buf_exn :=
  (@C92_no_effect, @C92_retry_push, @C92_retry_pop, @C93_refuted, @C93_refuted_pop, @C93_partial, @C94_refuted, @C94_partial,
   @C94_loss_is_reported_partial).
Print Assumptions all_buf_exn.
