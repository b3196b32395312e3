(** Property C132: does a fiber waiting in push() or pop() of a buffered channel get its turn? *)
From Coq Require Import List Arith NArith Bool Lia.
From Verif Require Import Base Lasso Kernel KernelFacts Buffered BufferedSpec BufferedProofs.
Import ListNotations.

Section Fair.
Context {V : Type}.
Variable v : V.
Notation state := (state V).
Notation label := (label V).
Notation event := (event V).

(** The fiber an event belongs to. *)
Definition caller (e : event) : fid := match e with ECall f _ => f | ERet f _ _ _ => f end.
(** Values that a fiber has transferred: successful push() and pop(). *)
Fixpoint transferred (h : list event) (f : fid) : nat :=
  match h with
  | [] => 0
  | ERet g _ (RStatus Success) _ :: h' => (if Nat.eqb g f then 1 else 0) + transferred h' f
  | ERet g _ (RValue _) _ :: h' => (if Nat.eqb g f then 1 else 0) + transferred h' f
  | _ :: h' => transferred h' f
  end.

(** Fiber 2 waits in pop(); fiber 1 repeats { push( v); pop(); yield(); }. *)
Definition pop_pre : list label := [LK (Pick 2 1); LCall 2 Pop; LRun 2; LK (Pick 1 1)].
Definition pop_cycle : list label :=
  [LCall 1 (Push v); LRun 1; LCall 1 Pop; LRun 1; LYield 1; LK (Pick 2 1); LRun 2; LRun 2; LK (Pick 1 1)].
(** Fiber 2 waits in push(); fiber 1 repeats { pop(); push( v); yield(); }. *)
Definition push_pre (k : nat) : list label := LK (Pick 1 1) :: concat (repeat [LCall 1 (Push v); LRun 1] k) ++ [LYield 1; LK (Pick 2 1); LCall 2 (Push v); LRun 2; LK (Pick 1 1)].
Definition push_cycle : list label :=
  [LCall 1 Pop; LRun 1; LCall 1 (Push v); LRun 1; LYield 1; LK (Pick 2 1); LRun 2; LRun 2; LK (Pick 1 1)].

(** The situation at the beginning of each round; o: the operation that waits in queue i. *)
Record round (o : op V) (i cap : nat) (full : bool) (n : nat) (s : state) : Prop := {
  r_pc1 : pcs s 1 = Idle;
  r_run1 : running (fib (kn s) 1) = true;
  r_q1 : queued (fib (kn s) 1) = false;
  r_home1 : home (fib (kn s) 1) = 1;
  r_thr : thr (kn s) 1 = Some 1;
  r_cap : capacity (ch s) = cap;
  r_open : closed (ch s) = false;
  r_idx : pidx (ch s) < cap /\ cidx (ch s) = if full then (pidx (ch s) + 1) mod cap else pidx (ch s);
  r_wait : queues (ch s) i = [(2, epoch (fib (kn s) 2))];
  r_other : queues (ch s) (1 - i) = [];
  r_pc2 : pcs s 2 = Wait o (epoch (fib (kn s) 2));
  r_run2 : running (fib (kn s) 2) = false;
  r_q2 : queued (fib (kn s) 2) = false;
  r_log : transferred (log s) 1 >= 2 * n;
  r_pend : In (ECall 2 o) (log s);
  r_only : forall e, In e (log s) -> caller e = 2 -> e = ECall 2 o
}.

Lemma exec_cons {S L} (stp : S -> L -> option S) s l ls s1 r :
  stp s l = Some s1 -> exec stp s1 ls = r -> exec stp s (l :: ls) = r.
Proof. simpl. now intros ->. Qed.

Lemma succ_mod x cap : 2 <= cap -> x < cap -> (x + 1) mod cap < cap /\ (x + 1) mod cap <> x /\ ((x + 1) mod cap + 1) mod cap <> (x + 1) mod cap.
Proof.
  intros C X. assert (Y : forall y, y < cap -> (y + 1) mod cap <> y).
  { intros y L E. destruct (Nat.eq_dec (y + 1) cap) as [Z|Z]; [rewrite Z, Nat.mod_same in E; lia|rewrite Nat.mod_small in E; lia]. }
  assert ((x + 1) mod cap < cap) by (apply Nat.mod_upper_bound; lia). auto.
Qed.

Lemma notify_hit k f e q : epoch (fib k f) = e -> notify_one k ((f, e) :: q) =
  (mkKern (upd (fib k) f (mkFiber (S e) (running (fib k f)) true (home (fib k f)) (sleep (fib k f)))) (thr k) (now k) (err k || queued (fib k f)), q).
Proof. intros E. cbv beta iota zeta delta [notify_one wake]. rewrite E, Nat.eqb_refl. reflexivity. Qed.
Lemma notify_nil k : notify_one k [] = (k, []).
Proof. reflexivity. Qed.

Ltac quiet He A := repeat (destruct He as [<-|He]; [discriminate|]); now apply A.
Ltac go :=
  repeat (first [rewrite upd_same | rewrite upd_other by discriminate | rewrite Nat.eqb_refl
    | match goal with H : ?x = _ |- context [?x] => lazymatch x with
        | pcs _ _ => fail | _ _ => rewrite H | _ _ _ => rewrite H | _ => fail end end]; cbn [negb andb orb fst snd app epoch running queued home sleep]).
Ltac fields := cbv beta iota zeta; cbn [kn ch pcs log fib thr now err queues slots pidx cidx capacity closed queue_of epoch running queued home sleep fst snd app]; go.
Ltac one := eapply exec_cons; [unfold step, kstep, run_step; fields; unfold cs, store, fetch, block, is_full, is_empty; fields;
   unfold notify1, set_queue, goto, ret, yield, suspend_and_wait, suspend_and_wait_end, create_waker; fields; try rewrite notify_nil; try (rewrite notify_hit by (fields; reflexivity)); fields; unfold suspend, set_fib, kassert; fields; reflexivity|].

Lemma pop_round cap n s : 2 <= cap -> round Pop 1 cap false n s -> exists s', exec step s pop_cycle = Some s' /\ round Pop 1 cap false (S n) s'.
Proof.
  intros C. destruct s as [[fb th nw er] [qs sl pi ci cp cl] pc lg]. intros [A1 A2 A3 A4 A5 A6 A7 [A8 A8'] A9 A9' A10 A11 A12 A13 A14 A15].
  cbn [pcs kn ch log fib thr now err queues slots pidx cidx capacity closed] in *. subst cp cl ci. change (1 - 1) with 0 in A9'.
  destruct (succ_mod pi cap C A8) as (S1 & S2 & S3).
  assert (F1 : Nat.eqb pi ((pi + 1) mod cap) = false) by (apply Nat.eqb_neq; auto).
  unfold pop_cycle. eexists. split.
  - one. one. one. one. one. one. one. one. one. reflexivity.
  - constructor; fields; auto; try (right; right; right; right; auto; fail).
    + cbn [transferred]. rewrite !Nat.eqb_refl. lia.
    + intros e He. quiet He A15.
Qed.

Lemma push_round cap n s : 2 <= cap -> round (Push v) 0 cap true n s -> exists s', exec step s push_cycle = Some s' /\ round (Push v) 0 cap true (S n) s'.
Proof.
  intros C. destruct s as [[fb th nw er] [qs sl pi ci cp cl] pc lg]. intros [A1 A2 A3 A4 A5 A6 A7 [A8 A8'] A9 A9' A10 A11 A12 A13 A14 A15].
  cbn [pcs kn ch log fib thr now err queues slots pidx cidx capacity closed] in *. subst cp cl. change (1 - 0) with 1 in A9'.
  destruct (succ_mod pi cap C A8) as (S1 & S2 & S3). rewrite <- A8' in *.
  destruct (succ_mod ci cap C S1) as (S4 & _ & _).
  assert (F1 : Nat.eqb ci pi = false) by (apply Nat.eqb_neq; auto).
  assert (F2 : Nat.eqb ((ci + 1) mod cap) ci = false) by (apply Nat.eqb_neq; auto).
  symmetry in A8'.
  unfold push_cycle. eexists. split.
  - one. one. one. one. one. one. one. one. one. reflexivity.
  - constructor; fields; auto.
    + cbn [transferred]. rewrite !Nat.eqb_refl. lia.
    + do 4 right. auto.
    + intros e He. quiet He A15.
Qed.

Definition start (cap : nat) : state := mkState kinit (mkChan (fun _ => []) (fun _ => None) 0 0 cap false) (fun _ => Idle) [].

Lemma pop_first cap : 2 <= cap -> exists s1, exec step (start cap) pop_pre = Some s1 /\ round Pop 1 cap false 0 s1.
Proof.
  intros C. eexists. split.
  - unfold pop_pre, start. unfold kinit. one. one. one. one. reflexivity.
  - constructor; fields; auto; try lia; [cbn; auto|]. intros e He. repeat (destruct He as [<-|He]; [try discriminate; auto|]); destruct He.
Qed.

(** After k calls of push() by fiber 1. *)
Record filled (cap k : nat) (s : state) : Prop := {
  f_pc1 : pcs s 1 = Idle;
  f_run1 : running (fib (kn s) 1) = true;
  f_q1 : queued (fib (kn s) 1) = false;
  f_home1 : home (fib (kn s) 1) = 1;
  f_thr : thr (kn s) 1 = Some 1;
  f_cap : capacity (ch s) = cap;
  f_open : closed (ch s) = false;
  f_p : pidx (ch s) = k;
  f_c : cidx (ch s) = 0;
  f_w0 : queues (ch s) 0 = [];
  f_w1 : queues (ch s) 1 = [];
  f_pc2 : pcs s 2 = Idle;
  f_run2 : running (fib (kn s) 2) = false;
  f_q2 : queued (fib (kn s) 2) = true;
  f_only : forall e, In e (log s) -> caller e <> 2
}.
Lemma fill cap k : 2 <= cap -> k <= cap - 1 -> exists s1, exec step (start cap) (LK (Pick 1 1) :: concat (repeat [LCall 1 (Push v); LRun 1] k)) = Some s1 /\ filled cap k s1.
Proof.
  intros C. induction k as [|k IH]; intros K.
  - eexists. split; [unfold start, kinit; cbn [repeat concat]; one; reflexivity|]. constructor; fields; auto.
  - destruct IH as (s1 & E & F); [lia|].
    assert (X : exists s2, exec step s1 [LCall 1 (Push v); LRun 1] = Some s2 /\ filled cap (S k) s2).
    { clear E. destruct s1 as [[fb th nw er] [qs sl pi ci cp cl] pc lg]. destruct F as [A1 A2 A3 A4 A5 A6 A7 A8 A9 A10 A11 A12 A13 A14 A15].
      cbn [pcs kn ch log fib thr now err queues slots pidx cidx capacity closed] in *. subst cp cl pi ci.
      assert (M : (k + 1) mod cap = S k) by (rewrite Nat.mod_small; lia).
      assert (F1 : Nat.eqb 0 ((k + 1) mod cap) = false) by (rewrite M; auto).
      eexists. split; [one; one; reflexivity|]. constructor; fields; auto. intros e He. repeat (destruct He as [<-|He]; [discriminate|]). auto. }
    destruct X as (s2 & E2 & F2). exists s2. split; auto.
    replace (S k) with (k + 1) by lia. rewrite repeat_app, concat_app. change (LK (Pick 1 1) :: concat (repeat [LCall 1 (Push v); LRun 1] k) ++ concat (repeat [LCall 1 (Push v); LRun 1] 1)) with ((LK (Pick 1 1) :: concat (repeat [LCall 1 (Push v); LRun 1] k)) ++ [LCall 1 (Push v); LRun 1]).
    apply exec_app. exists s1. auto.
Qed.
Lemma push_first cap : 2 <= cap -> exists s1, exec step (start cap) (push_pre (cap - 1)) = Some s1 /\ round (Push v) 0 cap true 0 s1.
Proof.
  intros C. destruct (fill cap (cap - 1) C (le_n _)) as (s1 & E & F).
  assert (X : exists s2, exec step s1 [LYield 1; LK (Pick 2 1); LCall 2 (Push v); LRun 2; LK (Pick 1 1)] = Some s2 /\ round (Push v) 0 cap true 0 s2).
  { clear E. destruct s1 as [[fb th nw er] [qs sl pi ci cp cl] pc lg]. destruct F as [A1 A2 A3 A4 A5 A6 A7 A8 A9 A10 A11 A12 A13 A14 A15].
    cbn [pcs kn ch log fib thr now err queues slots pidx cidx capacity closed] in *. subst cp cl pi ci.
    assert (M : (cap - 1 + 1) mod cap = 0) by (replace (cap - 1 + 1) with cap by lia; apply Nat.mod_same; lia).
    assert (F1 : Nat.eqb 0 ((cap - 1 + 1) mod cap) = true) by (rewrite M; auto).
    eexists. split; [one; one; one; one; one; reflexivity|]. constructor; fields; auto; try lia; [left; auto|].
    intros e [<-|He] X; auto. destruct (A15 e He X). }
  destruct X as (s2 & E2 & F2). exists s2. split; auto. unfold push_pre. rewrite app_comm_cons. apply exec_app. exists s1. auto.
Qed.

Lemma notify1_log (s : state) i : log (notify1 s i) = log s.
Proof. unfold notify1. now destruct (notify_one (kn s) (queues (ch s) i)). Qed.
Lemma notifyA_log (s : state) i : log (notifyA s i) = log s.
Proof. unfold notifyA. now destruct (notify_all (kn s) (queues (ch s) i)). Qed.
Lemma block_log (s : state) f i o : log (block s f i o) = log s.
Proof. unfold block. now destruct (suspend_and_wait (kn s) f (queues (ch s) i)) as [[k q] e]. Qed.
Lemma block_until_log (s : state) f i o tp : log (block_until s f i o tp) = log s.
Proof. unfold block_until. now destruct (suspend_and_wait_until (kn s) f (queues (ch s) i) tp) as [[k q] e]. Qed.
Lemma log_grows (s : state) l s' : step s l = Some s' -> exists h, log s' = h ++ log s.
Proof.
  intros H. assert (N : exists h : list event, log s = h ++ log s) by now exists [].
  assert (C : forall e, exists h, e :: log s = h ++ log s) by (intros e; now exists [e]).
  destruct l as [kl|f o|f|f|f|f]; cbn [step] in H.
  - destruct (kstep (kn s) kl); inversion H; subst; auto.
  - destruct (pcs s f); try discriminate. destruct (running (fib (kn s) f)); inversion H; subst; cbn [log]; auto.
  - destruct (running (fib (kn s) f)); [|discriminate]. unfold run_step in H. destruct (pcs s f) as [|o|o e|o tp e|o tp e]; try discriminate; inversion H; subst; cbn [log goto ret]; auto.
    unfold cs, store, fetch. destruct o; repeat match goal with |- context [if ?b then _ else _] => destruct b end; cbn [log ret]; rewrite ?notify1_log, ?notifyA_log, ?block_log, ?block_until_log; cbn [log]; rewrite ?notifyA_log; auto.
  - destruct (pcs s f); try discriminate. destruct (running (fib (kn s) f)); inversion H; subst; cbn [log]; auto.
  - destruct (pcs s f); try discriminate. destruct (running (fib (kn s) f) && transfers (ch s) o); inversion H; subst; cbn [log ret]; auto.
  - destruct (pcs s f); try discriminate; destruct (running (fib (kn s) f)); inversion H; subst; cbn [log]; auto.
Qed.
Lemma log_grows_inf (s0 : state) sch st : infinite step s0 sch st -> forall i j, i <= j -> exists h, log (st j) = h ++ log (st i).
Proof.
  intros [_ H] i j Hij. induction Hij as [|j Hij [h IH]]; [now exists []|].
  destruct (log_grows _ _ _ (H j)) as [h' E]. exists (h' ++ h). now rewrite E, IH, app_assoc.
Qed.
Lemma pending_only (h : list event) f o : In (ECall f o) h -> (forall e, In e h -> caller e = f -> e = ECall f o) -> pending h f = Some o.
Proof.
  induction h as [|e h IH]; simpl; [tauto|]. intros Hi Ho.
  assert (T : forall e', In e' h -> caller e' = f -> e' = ECall f o) by eauto.
  destruct e as [g o'|g o' r a]; simpl.
  - destruct (Nat.eqb_spec g f) as [->|Hn].
    + specialize (Ho _ (or_introl eq_refl) eq_refl). congruence.
    + apply IH; auto. destruct Hi as [Hi|Hi]; [congruence|auto].
  - destruct (Nat.eqb_spec g f) as [->|Hn].
    + specialize (Ho _ (or_introl eq_refl) eq_refl). discriminate.
    + apply IH; auto. destruct Hi as [Hi|Hi]; [discriminate|auto].
Qed.

(** Both fibers run again and again and values pass through the channel without end, and yet the call of fiber 2 never returns. *)
Definition starved (s0 : state) (o : op V) : Prop :=
  exists sch st k, infinite step s0 sch st /\ always_again (fun i => sch i = LRun 1) /\ always_again (fun i => sch i = LRun 2) /\
  (forall n, exists i, transferred (log (st i)) 1 >= n) /\ (forall i, k <= i -> pending (log (st i)) 2 = Some o).

Lemma starve pre cyc s0 s1 o i cap full a b : length cyc = 9 -> nth_error cyc a = Some (LRun 1) -> nth_error cyc b = Some (LRun 2) -> a < 9 -> b < 9 ->
  exec step s0 pre = Some s1 -> round o i cap full 0 s1 -> (forall n s, round o i cap full n s -> exists s', exec step s cyc = Some s' /\ round o i cap full (S n) s') -> starved s0 o.
Proof.
  intros L A B La Lb E R N.
  assert (Hne : cyc <> []) by (intros ->; discriminate).
  destruct (lasso_ex step pre cyc (LYield 1) s0 s1 (round o i cap full) Hne E R N) as (sch & st & Inf & J & _ & Hc). rewrite L in Hc.
  exists sch, st, (length pre). pose proof (J 0) as J0. splits; auto.
  - apply (lasso_again pre cyc _ a); auto. intros n. rewrite Hc by auto. apply nth_error_nth with (d := LYield 1) in A. auto.
  - apply (lasso_again pre cyc _ b); auto. intros n. rewrite Hc by auto. apply nth_error_nth with (d := LYield 1) in B. auto.
  - intros n. exists (at_cycle pre cyc n). pose proof (r_log _ _ _ _ _ _ (J n)). lia.
  - intros j Hj. apply pending_only.
    + destruct (log_grows_inf _ _ _ Inf (at_cycle pre cyc 0) j) as [h ->]; [unfold at_cycle; lia|]. apply in_or_app. right. exact (r_pend _ _ _ _ _ _ J0).
    + intros e He. destruct (log_grows_inf _ _ _ Inf j (at_cycle pre cyc j)) as [h X]; [unfold at_cycle; rewrite L; lia|].
      apply (r_only _ _ _ _ _ _ (J j)). rewrite X. apply in_or_app. now right.
Qed.

(** ** C132: false for pop() and for push(), for channels of every capacity. *)
Theorem C132_refuted_pop : forall cap s0, construct cap = Some s0 -> starved s0 Pop.
Proof.
  intros cap s0 H. apply construct_shape in H. destruct H as [C ->]. destruct (pop_first _ C) as (s1 & E & R).
  apply (starve pop_pre pop_cycle _ s1 Pop 1 (N.to_nat cap) false 1 6); auto; try lia. intros n s. apply pop_round. auto.
Qed.
Theorem C132_refuted_push : forall cap s0, construct cap = Some s0 -> starved s0 (Push v).
Proof.
  intros cap s0 H. apply construct_shape in H. destruct H as [C ->]. destruct (push_first _ C) as (s1 & E & R).
  apply (starve (push_pre (N.to_nat cap - 1)) push_cycle _ s1 (Push v) 0 (N.to_nat cap) true 1 6); auto; try lia. intros n s. apply push_round. auto.
Qed.
End Fair.

Lemma cs_ret V (s : state V) f o : (o = Pop /\ (is_empty (ch s) = false \/ closed (ch s) = true) \/ (exists v, o = Push v) /\ (is_full (ch s) = false \/ closed (ch s) = true)) ->
  exists r a, log (cs s f o) = ERet f o r a :: log s.
Proof.
  intros [[-> H]|[[v ->] H]]; unfold cs, fetch, store.
  - destruct (is_empty (ch s)); [destruct (closed (ch s)); [|destruct H; discriminate]|]; cbn [ret log]; rewrite ?notify1_log; cbn [log]; eauto.
  - destruct (closed (ch s)); [|destruct (is_full (ch s)); [destruct H; discriminate|]]; cbn [ret log]; rewrite ?notify1_log; cbn [log]; eauto.
Qed.
(** What does hold: a waiting fiber that is given the processor while the channel has a value (or has space, or is closed) returns in at most two steps.
    (Missing from the full C132: that this is still so when the woken fiber is resumed.) *)
Theorem C132_partial : forall V cap (s0 s : state V) f o, construct cap = Some s0 -> reachable step s0 s -> running (fib (kn s) f) = true -> pending (log s) f = Some o ->
  (o = Pop /\ (stored (log s) > 0 \/ was_closed (log s)) \/ (exists v, o = Push v) /\ (stored (log s) < N.to_nat cap - 1 \/ was_closed (log s))) ->
  exists n s' r a, n <= 2 /\ exec step s (repeat (LRun f) n) = Some s' /\ log s' = ERet f o r a :: log s.
Proof.
  intros V cap s0 s f o H R Ru P Q. pose proof (binv_reachable _ _ _ H R) as B.
  assert (Q' : o = Pop /\ (is_empty (ch s) = false \/ closed (ch s) = true) \/ (exists v, o = Push v) /\ (is_full (ch s) = false \/ closed (ch s) = true)).
  { destruct (empty_spec _ _ B) as [E1 _]. destruct (full_spec _ _ B) as [F1 _]. pose proof (b_closed _ _ B) as BC.
    destruct Q as [[-> [Q|Q]]|[X [Q|Q]]]; [left|left|right|right]; split; auto; try (right; apply BC; auto; fail).
    - left. destruct (is_empty (ch s)); auto. specialize (E1 eq_refl). lia.
    - left. destruct (is_full (ch s)); auto. specialize (F1 eq_refl). lia. }
  rewrite (b_pend _ _ B) in P. pose proof (b_wf _ _ B f) as W. destruct (pcs s f) as [|o'|o' e|o' tp e|o' tp e] eqn:Hpc; try discriminate; cbn [op_of] in P; inversion P; subst o'.
  - destruct (cs_ret V s f o Q') as (r & a & X). exists 1, (cs s f o), r, a. splits; auto. cbn [repeat exec step]. rewrite Ru. unfold run_step. rewrite Hpc. auto.
  - set (s1 := goto (mkState (suspend_and_wait_end (kn s) (queues (ch s) (queue_of o)) (f, e)) (ch s) (pcs s) (log s)) f (Top o)).
    destruct (cs_ret V s1 f o Q') as (r & a & X). exists 2, (cs s1 f o), r, a. splits; auto. cbn [repeat exec step]. rewrite Ru. unfold run_step at 1. rewrite Hpc. fold s1.
    assert (R1 : running (fib (kn s1) f) = true) by (unfold s1; cbn; auto). assert (P1 : pcs s1 f = Top o) by (unfold s1, goto; cbn [pcs]; apply upd_same).
    rewrite R1. unfold run_step. rewrite P1. auto.
  - exfalso. cbn [wf] in W. destruct Q' as [[-> _]|[[v ->] _]]; auto.
  - exfalso. cbn [wf] in W. destruct Q' as [[-> _]|[[v ->] _]]; auto.
Qed.
Print Assumptions C132_refuted_pop.
Print Assumptions C132_refuted_push.
Print Assumptions C132_partial.

(** A channel of capacity 4 can be constructed. *)
Example C132_case : exists s0 : state nat, construct 4 = Some s0.
Proof. eexists. reflexivity. Qed.
(** Fiber 2 has waited in pop() and runs while there is a value. *)
Example C132_partial_case : exists s, reachable step (start (V := nat) 4) s /\ (running (fib (kn s) 2) = true /\ pending (log s) 2 = Some Pop /\ stored (log s) = 1 /\ exists e, pcs s 2 = Wait Pop e).
Proof. apply (reach_by step (start (V := nat) 4) (pop_pre ++ [LCall 1 (Push 7); LRun 1; LYield 1; LK (Pick 2 1)])). vm_compute. splits; auto. eexists. reflexivity. Qed.
