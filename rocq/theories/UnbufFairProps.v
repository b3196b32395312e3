(** Property C143: does a fiber waiting in push() or pop() of an unbuffered channel get its turn? *)
From Coq Require Import List Arith Bool Lia.
From Verif Require Import Base Lasso Kernel Unbuffered UnbufferedSpec UnbufferedProofs UnbufferedProofs2 UnbufferedProofs6 UnbufferedProps UnbufFair UnbufFairSpec UnbufFairFacts.
Import ListNotations.

Lemma notify1_log V (s : state V) i : log (notify1 s i) = log s.
Proof. unfold notify1. now destruct (notify_one (kn s) (queues s i)). Qed.
Lemma notifyA_log V (s : state V) i : log (notifyA s i) = log s.
Proof. unfold notifyA. now destruct (notify_all (kn s) (queues s i)). Qed.
Lemma log_grows V (s : state V) l s' : step s l = Some s' -> exists h, log s' = h ++ log s.
Proof.
  intros H. assert (N : exists h : list (event V), log s = h ++ log s) by now exists [].
  assert (C : forall e, exists h, e :: log s = h ++ log s) by (intros e; now exists [e]).
  unfold step in H. destruct (ub s); [discriminate|].
  destruct l as [kl|f o|f|f|f].
  - destruct (kstep (kn s) kl); inversion H; subst; auto.
  - destruct (pcs s f); try discriminate. destruct (running (fib (kn s) f)); inversion H; subst. unfold call_op. destruct (value_of o); cbn; auto.
  - destruct (running (fib (kn s) f)); [|discriminate]. unfold run_step, try_push, blockP, blockC, create_waker, suspend_and_wait, suspend_and_wait_until in H.
    destruct (pcs s f); repeat match type of H with context [match ?b with _ => _ end] => destruct b end; inversion H; subst; cbn; rewrite ?notify1_log, ?notifyA_log; auto.
  - destruct (pcs s f); try discriminate. destruct (running (fib (kn s) f)); inversion H; subst; cbn; auto.
  - destruct (pcs s f); try discriminate; destruct (running (fib (kn s) f)); inversion H; subst; cbn; auto.
Qed.
Lemma run1 V (s : state V) f s' ls r : ub s = false -> running (fib (kn s) f) = true -> run_step s f = Some s' -> exec step s' ls = r -> exec step s (LRun f :: ls) = r.
Proof. intros U R H E. cbn [exec]. unfold step. now rewrite U, R, H. Qed.
Lemma rstep_step V fs (x : rstate V) l x' : rstep fs x l = Some x' -> step (ust x) l = Some (ust x').
Proof.
  unfold rstep. destruct l as [[f t|f|d]|f o|f|f|f]; try (destruct (step (ust x) _); intros H; inversion H; subst; reflexivity).
  destruct (rqueue x) as [|g r]; [discriminate|]. destruct (Nat.eqb f g && Nat.eqb t 1); [|discriminate].
  destruct (step (ust x) _); intros H; inversion H; subst; reflexivity.
Qed.
Lemma log_grows_inf V fs (x0 : rstate V) sch st : infinite (rstep fs) x0 sch st -> forall i j, i <= j -> exists h, log (ust (st j)) = h ++ log (ust (st i)).
Proof.
  intros [_ H] i j Hij. induction Hij as [|j Hij [h IH]]; [now exists []|].
  destruct (log_grows _ _ _ _ (rstep_step _ _ _ _ _ (H j))) as [h' E]. exists (h' ++ h). now rewrite E, IH, app_assoc.
Qed.
Lemma pending_only V (h : list (event V)) f o : In (ECall f o) h -> (forall e, In e h -> caller e = f -> e = ECall f o) -> pending h f = Some o.
Proof.
  induction h as [|e h IH]; simpl; [tauto|]. intros Hi Ho.
  assert (T : forall e', In e' h -> caller e' = f -> e' = ECall f o) by eauto.
  destruct e as [g o'|g o' r a|g p x]; simpl.
  - destruct (Nat.eqb_spec g f) as [->|Hn].
    + specialize (Ho _ (or_introl eq_refl) eq_refl). congruence.
    + apply IH; auto. destruct Hi as [Hi|Hi]; [congruence|auto].
  - destruct (Nat.eqb_spec g f) as [->|Hn].
    + specialize (Ho _ (or_introl eq_refl) eq_refl). discriminate.
    + apply IH; auto. destruct Hi as [Hi|Hi]; [discriminate|auto].
  - apply IH; auto. destruct Hi as [Hi|Hi]; [discriminate|auto].
Qed.

(** The lasso with first block [pre] and repeated block [cyc] starves fiber 2. *)
Lemma starve V fs pre cyc (x1 : rstate V) c o (R : nat -> rstate V -> Prop) : cyc <> [] ->
  exec (rstep fs) (rinit fs) pre = Some x1 -> R 0 x1 -> (forall n x, R n x -> exists x', exec (rstep fs) x cyc = Some x' /\ R (S n) x') ->
  (forall g, In g fs -> In (LRun g) cyc) ->
  (forall n x, R n x -> received (log (ust x)) c >= n /\ In (ECall 2 o) (log (ust x)) /\ forall e, In e (log (ust x)) -> caller e = 2 -> e = ECall 2 o) ->
  starved fs c 2 o.
Proof.
  intros Hne E R0 N Hin Q.
  destruct (lasso_ex (rstep fs) pre cyc (LYield 1) (rinit fs) x1 R Hne E R0 N) as (sch & st & Inf & J & _ & Hc).
  exists sch, st, (length pre). splits; auto.
  - intros g Hg. destruct (In_nth _ _ (LYield 1) (Hin g Hg)) as (a & La & Ha). apply (lasso_again pre cyc _ a); auto. intros n. now rewrite Hc.
  - intros n. exists (at_cycle pre cyc n). apply Q, J.
  - intros j Hj. destruct (Q _ _ (J 0)) as (_ & P & _). apply pending_only.
    + destruct (log_grows_inf _ _ _ _ _ Inf (at_cycle pre cyc 0) j) as [h ->]; [unfold at_cycle; lia|]. apply in_or_app. now right.
    + intros e He. destruct (log_grows_inf _ _ _ _ _ Inf j (at_cycle pre cyc j)) as [h X].
      { unfold at_cycle. destruct cyc; [congruence|]. simpl length. nia. }
      apply (Q _ _ (J j)). rewrite X. apply in_or_app. now right.
Qed.

(** ** C143: false for push(): with two producers { push( v); yield(); } and a consumer { pop(); yield(); }, the push() of a third producer never returns. *)
Theorem C143_refuted_push : forall V (v : V), starved [1; 2; 4; 3] 4 2 (Push v).
Proof.
  intros V v. destruct (push_first v) as (x1 & E & R).
  apply (starve V push_fs (push_pre v) (push_cycle v) x1 4 (Push v) (round v 1 3)); auto; [discriminate| |..].
  - intros n x. apply push_round.
  - intros g [<-|[<-|[<-|[<-|[]]]]]; unfold push_cycle, turn; simpl; tauto.
  - intros n x H. unfold round in H. decompose [ex and] H. subst x. cbn. auto.
Qed.
(** False for pop(): with one producer { push( v); } and a consumer { pop(); yield(); }, the pop() of a second consumer never returns. *)
Theorem C143_refuted_pop : forall V (v : V), starved [2; 4; 3] 3 2 (@Pop V).
Proof.
  intros V v. destruct (pop_first v) as (x1 & E & R).
  apply (starve V pop_fs (pop_pre v) (pop_cycle v) x1 3 Pop (pround v)); auto; [discriminate| |..].
  - intros n x. apply pop_round.
  - intros g [<-|[<-|[<-|[]]]]; unfold pop_cycle, pop_tail; simpl; tauto.
  - intros n x H. unfold pround in H. decompose [ex and] H. subst x. cbn. auto.
Qed.

(** What does hold: a producer that was waiting and is given the processor while slot_ is empty offers its value in its next three steps.
    (Missing from the full C143: that slot_ is still empty when the woken fiber is resumed.) *)
Theorem C143_push_partial : forall V (s : state V) f v e, reachable step init s -> ub s = false -> running (fib (kn s) f) = true -> pcs s f = PWait (Push v) e -> slot s = None -> closed s = false ->
  exists s', exec step s (repeat (LRun f) 3) = Some s' /\ slot s' = Some (f, npush (log s) f) /\ log s' = log s.
Proof.
  intros V s f v e R U Ru P Sl Cl. pose proof (inv_reach _ R) as I.
  pose proof (i_fr _ I f) as F. rewrite P in F. destruct (frames s f) as [r|] eqn:Fr; [|discriminate F]. destruct F as (_ & F & _). rewrite (i_calls _ I) in F.
  eexists. split; [|split].
  - cbn [repeat]. eapply run1; auto; [unfold run_step; rewrite P; reflexivity|].
    eapply run1; [exact U|exact Ru|unfold run_step; cbn; rewrite upd_same, Cl; reflexivity|].
    eapply run1; [exact U|exact Ru|unfold run_step; cbn; rewrite upd_same, Fr; unfold try_push; cbn; rewrite Sl; reflexivity|]. reflexivity.
  - cbn. now rewrite F.
  - reflexivity.
Qed.
(** A consumer that was waiting and is given the processor while a value is offered returns a value after five steps, if nobody holds the spinlock of the producers. *)
Theorem C143_pop_partial : forall V (s : state V) f o e, reachable step init s -> never_closed (log s) -> no_push_timeout (log s) -> running (fib (kn s) f) = true -> pcs s f = CWait o e -> slot s <> None -> lkP s = None ->
  exists s' x p, exec step s (repeat (LRun f) 5) = Some s' /\ log s' = ERet f o (RValue x) (now (kn s)) :: EXfer f p x :: log s /\ slot s = Some p.
Proof.
  intros V s f o e R NC NT Ru P Sl Lk. destruct (slot s) as [p|] eqn:Es; [clear Sl|congruence].
  pose proof (C25_no_dead_slot_partial _ _ R NC NT) as U.
  assert (X : exists s3, exec step s (repeat (LRun f) 3) = Some s3 /\ log s3 = log s /\ pcs s3 f = CRead o p /\ running (fib (kn s3) f) = true /\ now (kn s3) = now (kn s)).
  { destruct (notify_one (suspend_and_wait_end (kn s) (queues s 1) (f, e)) (queues s 0)) as [k' q'] eqn:E.
    eexists. split.
    { cbn [repeat]. eapply run1; auto; [unfold run_step; rewrite P; reflexivity|].
      eapply run1; [exact U|exact Ru|unfold run_step; cbn; rewrite upd_same, Es; reflexivity|].
      eapply run1; [exact U|exact Ru|unfold run_step; cbn; rewrite upd_same, Lk; unfold notify1; cbn; rewrite E; reflexivity|]. reflexivity. }
    cbn. rewrite upd_same.
    assert (Y : forall q k k' q', notify_one k q = (k', q') -> running (fib k' f) = running (fib k f) /\ now k' = now k).
    { induction q as [|[g w] q IH]; cbn [notify_one wake]; intros k0 k1 q1 H; [inversion H; auto|].
      cbv beta iota zeta delta [notify_one wake] in H. fold notify_one in H. destruct (Nat.eqb (epoch (fib k0 g)) w); [|eauto]. inversion H; subst. cbn [fib now]. split; auto. destruct (Nat.eq_dec g f) as [->|Hn]; [now rewrite upd_same|now rewrite upd_other by congruence]. }
    destruct (Y _ _ _ _ E) as [Y1 Y2]. splits; auto. rewrite Y1. auto. }
  destruct X as (s3 & E3 & L3 & P3 & R3 & N3).
  assert (Re3 : reachable step init s3) by (destruct R as [ls R]; exists (ls ++ repeat (LRun f) 3); apply exec_app; eauto).
  rewrite <- L3 in NC, NT. pose proof (C25_no_dead_slot_partial _ _ Re3 NC NT) as U3.
  destruct (deref s3 p) as [r|] eqn:D.
  2: { exfalso. assert (St : step s3 (LRun f) = Some (set_ub s3)) by (unfold step; rewrite U3, R3; unfold run_step; now rewrite P3, D).
       pose proof (reachable_step step init _ _ _ Re3 St) as Re4. pose proof (C25_no_dead_slot_partial _ _ Re4 NC NT). discriminate. }
  set (s4 := goto (add_log (set_frame s3 (fst p) (Some (mkSlot (call r) None (we r)))) (EXfer f p (sval r))) f (CWake o p (sval r))).
  assert (St : step s3 (LRun f) = Some s4) by (unfold step; rewrite U3, R3; unfold run_step; now rewrite P3, D).
  assert (D4 : deref s4 p = Some (mkSlot (call r) None (we r))).
  { unfold deref in *. cbn. rewrite upd_same. cbn. destruct (frames s3 (fst p)) as [r'|]; [|discriminate D]. destruct (Nat.eqb_spec (call r') (snd p)); [|discriminate D]. inversion D; subst r'. destruct (Nat.eqb_spec (call r) (snd p)); congruence. }
  eexists. exists (sval r), p. split; [|split; [|reflexivity]].
  - change 5 with (3 + 2). rewrite repeat_app. apply exec_app. exists s3. split; [exact E3|].
    cbn [repeat exec]. rewrite St. unfold step. replace (ub s4) with false by (symmetry; exact U3). replace (running (fib (kn s4) f)) with true by (symmetry; exact R3).
    unfold run_step. replace (pcs s4 f) with (CWake o p (sval r)) by (symmetry; apply upd_same). rewrite D4. reflexivity.
  - cbn. unfold wake. cbn. destruct (Nat.eqb _ _); cbn; rewrite L3, N3; reflexivity.
Qed.
Print Assumptions C143_refuted_push.
Print Assumptions C143_refuted_pop.
Print Assumptions C143_push_partial.
Print Assumptions C143_pop_partial.

(** Fiber 2 has waited in push() and runs while slot_ is empty. *)
Example C143_push_partial_case : exists s, reachable step (@init nat) s /\ (ub s = false /\ running (fib (kn s) 2) = true /\ slot s = None /\ closed s = false /\ exists e, pcs s 2 = PWait (Push 7) e).
Proof. apply (reach_by step init (push_pre 7 ++ [LK (Pick 4 1); LCall 4 Pop; LRun 4; LRun 4; LRun 4; LRun 4; LYield 4; LK (Pick 2 1)])). vm_compute. splits; auto. eexists. reflexivity. Qed.
(** Fiber 2 has waited in pop() and runs while a value is offered. *)
Example C143_pop_partial_case : exists s, reachable step (@init nat) s /\ (running (fib (kn s) 2) = true /\ slot s = Some (4, 1) /\ lkP s = None /\ log s = [ECall 4 (Push 7); ECall 2 Pop] /\ exists e, pcs s 2 = CWait Pop e).
Proof. apply (reach_by step init [LK (Pick 2 1); LCall 2 Pop; LRun 2; LRun 2; LRun 2; LK (Pick 4 1); LCall 4 (Push 7); LRun 4; LRun 4; LRun 4; LK (Pick 2 1)]). vm_compute. splits; auto. eexists. reflexivity. Qed.
