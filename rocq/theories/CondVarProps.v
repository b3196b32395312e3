(** C10-C13: theorems about condition variables. *)
From Coq Require Import List Arith Bool Lia.
From Verif Require Import Base Kernel KernelFacts WakeFacts CondVar CondVarSpec CondVarProofs.
Import ListNotations.

Lemma wake_now k w : now (fst (wake k w)) = now k.
Proof. destruct w as [f e]. unfold wake. simpl. destruct (Nat.eqb (epoch (fib k f)) e); reflexivity. Qed.
Lemma notify_one_now : forall q k k' q', notify_one k q = (k', q') -> now k' = now k.
Proof.
  intros q k k' q' H. destruct (notify_one_split _ _ _ _ H) as [(q1 & f & e & _ & _ & _ & ->)|(_ & -> & _)]; auto.
  apply wake_now.
Qed.
Lemma notify_all_now : forall q k k' q', notify_all k q = (k', q') -> now k' = now k.
Proof.
  induction q as [|w q IH]; intros k k' q' H; [inversion H; auto|].
  change ((let (k1, _) := wake k w in notify_all k1 q) = (k', q')) in H.
  pose proof (wake_now k w) as E. destruct (wake k w) as [k1 b]. simpl in E. apply IH in H. congruence.
Qed.

Lemma cv_ok_split h1 h0 : cv_ok (h1 ++ h0) -> cv_ok h0.
Proof. induction h1 as [|[f o|g f|f o r a] h1 IH]; simpl; auto; intros H; apply IH; tauto. Qed.

Lemma cv_ok_at s h1 e h0 : reachable step init s -> log s = h1 ++ e :: h0 -> cv_ok (e :: h0).
Proof. intros R E. apply cinv_reachable in R. pose proof (c_log _ R) as L. rewrite E in L. eapply cv_ok_split; eauto. Qed.

(** ** C10 *)
(** [f] called wait() owning the mutex; afterwards somebody acquired the mutex, and then [g] called notify_all().
    When notify_all() returns, [f] has been made ready (or it was a timed wait whose deadline has passed). *)
Theorem C10_notify_all_reaches : forall s h1 g r a h0 f o,
  reachable step init s -> log s = h1 ++ ERet g NotifyAll r a :: h0 ->
  f <> g -> pending h0 f = Some o -> is_wait o = true -> called_inside h0 f = true -> after_acq h0 f g = true ->
  woken h0 f = true \/ deadline_passed o a.
Proof.
  intros s h1 g r a h0 f o R E H1 H2 H3 H4 H5. pose proof (cv_ok_at _ _ _ _ R E) as L.
  simpl in L. destruct L as [[_ L] _]. eapply L; eauto.
Qed.

(** The same with notify_one(): [f] has been made ready, or this notify_one() made another waiting fiber ready. *)
Theorem C10_notify_one_reaches : forall s h1 g r a h0 f o,
  reachable step init s -> log s = h1 ++ ERet g NotifyOne r a :: h0 ->
  f <> g -> pending h0 f = Some o -> is_wait o = true -> called_inside h0 f = true -> after_acq h0 f g = true ->
  woken h0 f = true \/ deadline_passed o a \/ used h0 g = true.
Proof.
  intros s h1 g r a h0 f o R E H1 H2 H3 H4 H5. pose proof (cv_ok_at _ _ _ _ R E) as L.
  simpl in L. destruct L as [[_ L] _]. eapply L; eauto.
Qed.

(** A fiber that acquires the mutex after [f] gave it up in wait() finds [f] registered or holding the lock of the
    condition variable: before the mutex is free, [f] holds the spinlock that every notification needs. *)
Theorem C10_registered_before_notify : forall s f o,
  reachable step init s -> pending (log s) f = Some o -> is_wait o = true -> called_inside (log s) f = true ->
  since_acq (log s) f = true -> woken (log s) f = false -> ~ deadline_passed o (now (kn s)) ->
  splk s = Some f \/ (blocked (kn s) f /\ In f (map fst (cvq s))).
Proof.
  intros s f o R Hp Hw Hc Hs Hn Hd. apply cinv_reachable in R. pose proof R as R0. destruct R0.
  destruct (c_l f) as (A & B & C & D). rewrite Hp in B.
  assert (Q : forall i e, waits_in (wst (pcs s f)) i e -> xblocked (fib (kn s) f) ->
              In (f, epoch (fib (kn s) f)) (qsof (mx s) (cvq s) i)).
  { intros i e W Hb. destruct (blocked_live _ _ _ _ c_k Hb) as (j & Hj & W'). cbv beta in W'.
    assert (j = i) as ->; [|auto]. refine (proj1 (waits_in_det (wst (pcs s f)) j _ i e _ W)).
    destruct W' as [W'|[tp W']]; unfold waits_in; eauto. }
  destruct (pcs s f) as [|o' r|o' r e| |tp|tp|tp|e|tp e|tp e|all] eqn:Ep; simpl in *; inversion B; subst; try discriminate;
    try (destruct all; discriminate).
  - exfalso. unfold lock_res in D. destruct o'; simpl in *; try discriminate; intuition congruence.
  - exfalso. unfold lock_res in D. destruct o'; simpl in *; try discriminate; intuition congruence.
  - exfalso. destruct D as (_ & D & D'). rewrite <- D in D'. rewrite D' in Hs; auto; discriminate.
  - exfalso. destruct D as (_ & D & D'). rewrite <- D in D'. rewrite D' in Hs; auto; discriminate.
  - left. apply c_splk. now rewrite Ep.
  - right. destruct D as [[D _]|[_ D]]; [|congruence]. split; [exact D|].
    apply in_map_iff. eexists. split; [|apply (Q 1 e); [left; reflexivity|auto]]. reflexivity.
  - right. destruct D as [[D _]|[_ [D|D]]]; [|congruence|simpl in Hd; lia]. split; [exact D|].
    apply in_map_iff. eexists. split; [|apply (Q 1 e); [right; left; eauto|auto]]. reflexivity.
  - simpl in Hd. lia.
Qed.

(** Fiber 1 waits; fiber 2 acquires, releases and notifies while a third fiber tries to interfere. *)
Definition c10_run (n : op) : list label :=
  [LK (Pick 1 1); LK (Pick 2 2); LK (Pick 3 3); LCall 1 Lock; LRun 1; LCall 2 Lock; LRun 2;
   LCall 1 Wait; LRun 1; LRun 1; LK (Pick 2 2); LRun 2; LRun 2; LCall 2 Unlock; LRun 2;
   LCall 3 NotifyOne; LRun 1; LCall 2 n; LRun 2].
Example C10_ex : exists s, reachable step init s /\
  log s = [ERet 2 NotifyAll ROk 0; EWake 2 1; ECall 2 NotifyAll; ECall 3 NotifyOne; ERet 2 Unlock ROk 0; ECall 2 Unlock; ERet 2 Lock ROk 0;
           ECall 1 Wait; ECall 2 Lock; ERet 1 Lock ROk 0; ECall 1 Lock].
Proof. apply (reach_by _ _ (c10_run NotifyAll)). vm_compute. reflexivity. Qed.
Example C10_ex_hyp : let h := [EWake 2 1; ECall 2 NotifyAll; ECall 3 NotifyOne; ERet 2 Unlock ROk 0; ECall 2 Unlock; ERet 2 Lock ROk 0;
           ECall 1 Wait; ECall 2 Lock; ERet 1 Lock ROk 0; ECall 1 Lock] in
  pending h 1 = Some Wait /\ called_inside h 1 = true /\ after_acq h 1 2 = true /\ woken h 1 = true.
Proof. vm_compute. auto. Qed.
Example C10_ex_one : exists s, reachable step init s /\
  exists h, log s = ERet 2 NotifyOne ROk 0 :: EWake 2 1 :: ECall 2 NotifyOne :: h.
Proof. apply (reach_by _ _ (c10_run NotifyOne)). vm_compute. eauto. Qed.
(** In between (before step 17, LRun 1, registers fiber 1) fiber 3 has called notify_one() and cannot proceed. *)
Example C10_ex_blocked : exists s, reachable step init s /\
  splk s = Some 1 /\ pending (log s) 3 = Some NotifyOne /\ since_acq (log s) 1 = true /\ woken (log s) 1 = false /\
  step s (LRun 3) = None.
Proof. apply (reach_by _ _ (firstn 16 (c10_run NotifyOne))). vm_compute. auto. Qed.

(** ** C11 *)
(** Every wake-up: by a notify_one() that has woken nobody yet or by a notify_all(), of a fiber inside
    wait()/wait_until() that has not been woken since it called it. *)
Theorem C11_wake_justified : forall s h1 g f h0,
  reachable step init s -> log s = h1 ++ EWake g f :: h0 ->
  ((pending h0 g = Some NotifyOne /\ used h0 g = false) \/ pending h0 g = Some NotifyAll) /\
  (exists o, pending h0 f = Some o /\ is_wait o = true) /\ woken h0 f = false.
Proof. intros s h1 g f h0 R E. pose proof (cv_ok_at _ _ _ _ R E) as L. simpl in L. tauto. Qed.

(** Every return from wait() was preceded by a wake-up of this very call. *)
Theorem C11_wait_return_justified : forall s h1 f r a h0,
  reachable step init s -> log s = h1 ++ ERet f Wait r a :: h0 ->
  (r = ROk /\ woken h0 f = true) \/ (r = RErr /\ called_inside h0 f = false).
Proof. intros s h1 f r a h0 R E. pose proof (cv_ok_at _ _ _ _ R E) as L. simpl in L. tauto. Qed.

(** Calls and returns of every fiber alternate properly. *)
Fixpoint wf (h : list event) : Prop :=
  match h with
  | [] => True
  | ECall g _ :: h' => pending h' g = None /\ wf h'
  | ERet g o _ _ :: h' => pending h' g = Some o /\ wf h'
  | EWake _ _ :: h' => wf h'
  end.
Lemma wevs_wf f fs : forall h, wf h -> wf (rev (map (EWake f) fs) ++ h).
Proof. induction fs as [|x fs IH]; intros h H; auto. rewrite wevs_cons. apply IH. exact H. Qed.
Lemma wf_step s l s' : CInv s -> wf (log s) -> step s l = Some s' -> wf (log s').
Proof.
  intros I W. unfold step. destruct l as [kl|f o|f|f|f].
  - destruct (kstep (kn s) kl); intros H; inversion H; auto.
  - destruct (pcs s f) eqn:Ep; try discriminate. destruct (running (fib (kn s) f)); intros H; inversion H. simpl.
    destruct (c_l _ I f) as (_ & B & _). rewrite Ep in B. auto.
  - destruct (running (fib (kn s) f)); [|discriminate]. unfold run_step.
    destruct (c_l _ I f) as (_ & B & _ & D).
    destruct (pcs s f) as [|o r|o r e| |tp|tp|tp|e|tp e|tp e|all]; simpl in B, D; intros H.
    + discriminate.
    + inversion H. unfold lock_step. destruct (is_owner (mx s) f).
      * destruct o; simpl; auto.
      * destruct (is_free (mx s)); [simpl; auto|]. destruct (suspend_and_wait _ _ _) as [[k q] e]. auto.
    + inversion H. auto.
    + destruct (is_owner (mx s) f); inversion H; [|simpl; auto].
      unfold release. destruct (notify_one _ _). simpl. auto.
    + destruct (splk s); inversion H. auto.
    + destruct (is_owner (mx s) f); inversion H; [|simpl; auto].
      unfold release. destruct (notify_one _ _). auto.
    + destruct tp as [tp|]; [destruct (suspend_and_wait_until _ _ _ _) as [[k q] e]|destruct (suspend_and_wait _ _ _) as [[k q] e]];
        inversion H; auto.
    + inversion H. auto.
    + destruct (wait_until_result (kn s) tp); inversion H; auto.
    + destruct (splk s); inversion H. auto.
    + destruct (splk s); inversion H. unfold notify_step.
      destruct (if all then notify_all (kn s) (cvq s) else notify_one (kn s) (cvq s)). simpl.
      rewrite wevs_pending. split; [exact B|]. now apply wevs_wf.
  - destruct (pcs s f); try discriminate. destruct (running (fib (kn s) f)); intros H; inversion H; auto.
  - destruct (pcs s f); try discriminate. destruct (running (fib (kn s) f)); intros H; inversion H; auto.
Qed.
Lemma wf_reachable s : reachable step init s -> wf (log s).
Proof.
  intros R. assert (CInv s /\ wf (log s)) as [_ W]; [|exact W].
  apply (reachable_inv step (fun s => CInv s /\ wf (log s)) init); auto.
  - split; [apply cinv_init|exact I].
  - intros t l t' [A B] Hs. split; [eapply cinv_step; eauto|eapply wf_step; eauto].
Qed.

(** Successful returns of a fiber from wait()/wait_until() never outnumber its wake-ups by notifications. *)
Fixpoint wait_returns (h : list event) (f : fid) : nat :=
  match h with
  | [] => 0
  | ERet g Wait ROk _ :: h' => (if Nat.eqb g f then 1 else 0) + wait_returns h' f
  | ERet g (WaitUntil _) ROk _ :: h' => (if Nat.eqb g f then 1 else 0) + wait_returns h' f
  | _ :: h' => wait_returns h' f
  end.
Fixpoint wakes (h : list event) (f : fid) : nat :=
  match h with
  | [] => 0
  | EWake _ g :: h' => (if Nat.eqb g f then 1 else 0) + wakes h' f
  | _ :: h' => wakes h' f
  end.
Lemma counts_ok f : forall h, cv_ok h -> wf h ->
  wait_returns h f + (match pending h f with Some _ => if woken h f then 1 else 0 | None => 0 end) <= wakes h f.
Proof.
  induction h as [|[g o|g x|g o r a] h IH]; intros L P; simpl; auto.
  - specialize (IH L (proj2 P)). destruct (Nat.eqb g f); [lia|auto].
  - simpl in L. destruct L as (_ & (o & L1 & _) & L2 & L).
    specialize (IH L P). destruct (Nat.eqb_spec x f) as [->|].
    + rewrite L1, L2 in IH. rewrite L1. lia.
    + simpl. auto.
  - simpl in L. destruct L as (L0 & L). destruct P as [Pg P]. specialize (IH L P).
    destruct (Nat.eqb_spec g f) as [->|].
    + rewrite Pg in IH. destruct o, r; try lia.
      * destruct L0 as [[_ L0]|[X _]]; [|discriminate]. rewrite L0 in IH. lia.
      * destruct L0 as [[_ L0]|[[X _]|[X _]]]; try discriminate. rewrite L0 in IH. lia.
    + destruct o, r; simpl; auto.
Qed.
Theorem C11_returns_bounded_by_wakes : forall s f, reachable step init s ->
  wait_returns (log s) f <= wakes (log s) f.
Proof.
  intros s f R. pose proof (counts_ok f (log s) (c_log _ (cinv_reachable _ R)) (wf_reachable _ R)). lia.
Qed.

(** The wake-ups made by notify_one() are exactly one if a fiber waits, none otherwise.
    [waiting]: blocked inside wait()/wait_until(), not woken, deadline not reached. *)
Definition waiting (s : state) (f : fid) : Prop :=
  blocked (kn s) f /\ woken (log s) f = false /\
  exists o, pending (log s) f = Some o /\ is_wait o = true /\ ~ deadline_passed o (now (kn s)).

Lemma waiting_kdep s f : CInv s -> waiting s f -> kdep (pcs s f) = true /\ xblocked (fib (kn s) f).
Proof.
  intros R (Hb & Hn & o & Hp & Hw & Hd). split; [|exact Hb]. destruct (c_l _ R f) as (A & B & C & D). rewrite Hp in B.
  pose proof (ki_f _ _ _ (c_k _ R) f) as F. unfold fok in F. cbv beta in F.
  destruct (pcs s f) as [|o' r|o' r e| |tp|tp|tp|e|tp e|tp e|all] eqn:Ep; simpl in *; auto; inversion B; subst; try discriminate;
    try (exfalso; destruct F as (_ & _ & [F|F] & _); destruct Hb; congruence).
  unfold lock_res in D. destruct o'; simpl in *; try discriminate; intuition congruence.
Qed.

Theorem C11_notify_one_wakes_exactly_one : forall s g s' f,
  reachable step init s -> pending (log s) g = Some NotifyOne -> step s (LRun g) = Some s' -> waiting s f ->
  exists x a, log s' = ERet g NotifyOne ROk a :: EWake g x :: log s /\ blocked (kn s) x /\ runnable (kn s') x /\
              forall y, y <> x -> fib (kn s') y = fib (kn s) y.
Proof.
  intros s g s' f R Hg Hs Hf. apply cinv_reachable in R. destruct (waiting_kdep _ _ R Hf) as [Hk Hb].
  destruct (c_l _ R g) as (_ & B & _ & D). rewrite Hg in B. unfold step in Hs. destruct (running (fib (kn s) g)) eqn:Er; [|discriminate].
  unfold run_step in Hs. destruct (pcs s g) as [|o' r|o' r e| |tp|tp|tp|e|tp e|tp e|all] eqn:Ep; simpl in B, D; inversion B as [B'].
  - subst o'. destruct D.
  - subst o'. destruct D.
  - destruct tp; discriminate.
  - destruct tp; discriminate.
  - destruct tp; discriminate.
  - destruct all; [discriminate|]. destruct (splk s); [discriminate|]. inversion Hs; subst s'; clear Hs. unfold notify_step.
    destruct (notify_one (kn s) (cvq s)) as [k q] eqn:En.
    destruct (notify_facts s false k q R En) as (K & Hn & F1 & F2 & F3 & F4 & F5).
    destruct (flips (kn s) k (map fst (cvq s))) as [|x [|y l]]; simpl in *; [|exists x|lia].
    + rewrite (F5 eq_refl f Hb) in Hk. discriminate.
    + eexists. splits; [reflexivity|..].
      * apply (F1 x). auto.
      * right. apply (F1 x). auto.
      * intros y Hy. apply F2. intros [E|[]]. congruence.
Qed.

(** notify_all() wakes every waiting fiber; any notification makes ready exactly the fibers it reports. *)
Theorem C11_notify_all_wakes_all : forall s g s',
  reachable step init s -> pending (log s) g = Some NotifyAll -> step s (LRun g) = Some s' ->
  exists fs a, log s' = ERet g NotifyAll ROk a :: rev (map (EWake g) fs) ++ log s /\ NoDup fs /\
    (forall f, waiting s f -> In f fs) /\ (forall f, In f fs -> blocked (kn s) f /\ runnable (kn s') f) /\
    (forall f, ~ In f fs -> fib (kn s') f = fib (kn s) f).
Proof.
  intros s g s' R Hg Hs. apply cinv_reachable in R.
  destruct (c_l _ R g) as (_ & B & _ & D). rewrite Hg in B. unfold step in Hs. destruct (running (fib (kn s) g)) eqn:Er; [|discriminate].
  unfold run_step in Hs. destruct (pcs s g) as [|o' r|o' r e| |tp|tp|tp|e|tp e|tp e|all] eqn:Ep; simpl in B, D; inversion B as [B'].
  - subst o'. destruct D.
  - subst o'. destruct D.
  - destruct tp; discriminate.
  - destruct tp; discriminate.
  - destruct tp; discriminate.
  - destruct all; [|discriminate]. destruct (splk s); [discriminate|]. inversion Hs; subst s'; clear Hs. unfold notify_step.
    destruct (notify_all (kn s) (cvq s)) as [k q] eqn:En.
    destruct (notify_facts s true k q R En) as (K & Hn & F1 & F2 & F3 & F4).
    exists (flips (kn s) k (map fst (cvq s))). eexists. splits; [reflexivity|..]; auto.
    + intros f Hf. destruct (waiting_kdep _ _ R Hf). auto.
    + intros f Hf. destruct (F1 f Hf) as (A1 & A2 & A3 & A4). split; [exact A1|right; exact A4].
Qed.

Example C11_ex : exists s, reachable step init s /\
  pending (log s) 2 = Some NotifyOne /\ waiting s 1 /\ waiting s 3 /\ exists s', step s (LRun 2) = Some s'.
Proof.
  apply (reach_by _ _ [LK (Pick 1 1); LK (Pick 2 2); LK (Pick 3 3); LCall 1 Lock; LRun 1; LCall 1 Wait; LRun 1; LRun 1; LRun 1;
    LCall 3 Lock; LRun 3; LCall 3 (WaitUntil 9); LRun 3; LRun 3; LRun 3; LCall 2 NotifyOne]).
  vm_compute. splits; auto.
  - exists Wait. splits; auto.
  - eexists. splits; auto. intros X. inversion X.
  - eexists. reflexivity.
Qed.

(** ** C12 *)
Theorem C12_mutual_exclusion : forall s f g,
  reachable step init s -> inside (log s) f = true -> inside (log s) g = true -> f = g.
Proof.
  intros s f g R Hf Hg. apply cinv_reachable in R. destruct (c_l _ R f) as (A & _). destruct (c_l _ R g) as (A' & _).
  rewrite Hf in A. rewrite Hg in A'. symmetry in A, A'. apply andb_true_iff in A. apply andb_true_iff in A'.
  destruct A as [A _], A' as [A' _]. apply is_owner_spec in A. apply is_owner_spec in A'. congruence.
Qed.

(** At the moment wait()/wait_until() returns (other than by an exception) the caller owns the mutex, and no
    other fiber is in its critical section. *)
Theorem C12_wait_returns_owning : forall s f o r a h,
  reachable step init s -> log s = ERet f o r a :: h -> is_wait o = true -> r <> RErr ->
  owner (mx s) = Some f /\ forall g, g <> f -> inside (log s) g = false.
Proof.
  intros s f o r a h R E Hw Hr.
  assert (X : inside (log s) f = true).
  { rewrite E. simpl. rewrite Nat.eqb_refl. destruct o, r; try discriminate; try congruence; auto.
    pose proof (cv_ok_at _ [] _ _ R E) as L. simpl in L. intuition discriminate. }
  split.
  - pose proof (cinv_reachable _ R) as C. destruct (c_l _ C f) as (A & _). rewrite X in A. symmetry in A.
    apply andb_true_iff in A. now apply is_owner_spec.
  - intros g Hg. destruct (inside (log s) g) eqn:Eg; auto. exfalso. apply Hg. eapply C12_mutual_exclusion; eauto.
Qed.

(** wait() throws only if the caller did not own the mutex; relocking never fails (no std::terminate()), and no
    scheduler assertion is ever violated. *)
Theorem C12_no_internal_error : forall s, reachable step init s -> err (kn s) = false.
Proof. intros s R. apply cinv_reachable in R. apply (ki_e _ _ _ (c_k _ R)). Qed.
Theorem C12_wait_error_only_unowned : forall s h1 f o a h0,
  reachable step init s -> log s = h1 ++ ERet f o RErr a :: h0 -> is_wait o = true -> called_inside h0 f = false.
Proof.
  intros s h1 f o a h0 R E Hw. pose proof (cv_ok_at _ _ _ _ R E) as L. simpl in L. destruct o; try discriminate; intuition discriminate.
Qed.

(** A woken waiter is not stuck: if it is blocked (on the mutex) then somebody is in the critical section or in
    the middle of leaving it, or another fiber is able to run and about to take the mutex. *)
Theorem C12_relock_progress : forall s f o,
  reachable step init s -> pending (log s) f = Some o -> is_wait o = true -> woken (log s) f = true -> blocked (kn s) f ->
  (exists g, owner (mx s) = Some g) \/
  (exists g o', runnable (kn s) g /\ pending (log s) g = Some o' /\ (o' = Lock \/ is_wait o' = true)).
Proof.
  intros s f o R Hp Hw Hk Hb. apply cinv_reachable in R. destruct (owner (mx s)) as [g|] eqn:Eo; [left; eauto|right].
  assert (Lf : locking (pcs s f) = true).
  { destruct (c_l _ R f) as (A & B & C & D). rewrite Hp in B.
    pose proof (ki_f _ _ _ (c_k _ R) f) as F. unfold fok in F. cbv beta in F.
    destruct (pcs s f) as [|o' r|o' r e| |tp|tp|tp|e|tp e|tp e|all] eqn:Ep; simpl in *; auto; inversion B; subst; try discriminate;
    try (exfalso; destruct F as (_ & _ & [F|F] & _); destruct Hb; congruence).
    - exfalso. destruct D as [[_ D]|[[D|D] _]]; [congruence|destruct Hb; congruence..].
    - exfalso. destruct D as [[_ D]|[[D|D] _]]; [congruence|destruct Hb; congruence..]. }
  destruct (c_live _ R Eo) as (g & G1 & G2); [exists f; split; [exact Hb|exact Lf]|].
  destruct (c_l _ R g) as (A & B & C & D). exists g.
  destruct (pcs s g) as [|o' r|o' r e| |tp|tp|tp|e|tp e|tp e|all]; simpl in *; try discriminate; exists o'; splits; auto;
    unfold lock_res in D; destruct o'; auto; destruct D.
Qed.

Example C12_ex : exists s, reachable step init s /\
  exists h, log s = ERet 1 (WaitUntil 2) RTimeout 4 :: h /\ owner (mx s) = Some 1.
Proof.
  apply (reach_by _ _ [LK (Pick 1 1); LK (Pick 2 2); LCall 1 Lock; LRun 1; LCall 1 (WaitUntil 2); LRun 1; LRun 1; LRun 1;
    LCall 2 Lock; LRun 2; LK (Tick 3); LK (Timer 1); LK (Pick 1 1); LRun 1; LRun 1; LRun 1; LCall 2 Unlock; LRun 2;
    LK (Pick 1 1); LRun 1; LRun 1]).
  vm_compute. eexists. split; reflexivity.
Qed.
Example C12_ex_blocked_relock : exists s, reachable step init s /\
  pending (log s) 1 = Some Wait /\ woken (log s) 1 = true /\ blocked (kn s) 1.
Proof.
  apply (reach_by _ _ [LK (Pick 1 1); LK (Pick 2 2); LCall 1 Lock; LRun 1; LCall 1 Wait; LRun 1; LRun 1; LRun 1;
    LCall 2 Lock; LRun 2; LCall 2 NotifyOne; LRun 2; LK (Pick 1 1); LRun 1; LRun 1]).
  vm_compute. auto.
Qed.

(** ** C13 *)
Theorem C13_timeouts_honest : forall s h1 f tp r a h0,
  reachable step init s -> log s = h1 ++ ERet f (WaitUntil tp) r a :: h0 ->
  (r = RTimeout -> tp <= a) /\ (r = ROk -> woken h0 f = true).
Proof.
  intros s h1 f tp r a h0 R E. pose proof (cv_ok_at _ _ _ _ R E) as L. simpl in L.
  split; intros ->; intuition (try discriminate).
Qed.

(** The time stamp is the clock at the return. *)
Theorem C13_stamp_is_clock : forall s l s' f o r a,
  step s l = Some s' -> log s' = ERet f o r a :: log s -> a = now (kn s) /\ now (kn s') = now (kn s).
Proof.
  intros s l s' f o r a Hs E.
  assert (NC : forall (x : event) h, h = x :: h -> False).
  { intros x h X. apply (f_equal (@length event)) in X. simpl in X. lia. }
  unfold step in Hs. destruct l as [kl|g o'|g|g|g].
  - destruct (kstep (kn s) kl); inversion Hs; subst; simpl in E. exfalso; eauto.
  - destruct (pcs s g); try discriminate. destruct (running (fib (kn s) g)); inversion Hs; subst; simpl in E. discriminate.
  - destruct (running (fib (kn s) g)); [|discriminate]. unfold run_step in Hs.
    destruct (pcs s g) as [|o' r'|o' r' e| |tp|tp|tp|e|tp e|tp e|all].
    + discriminate.
    + inversion Hs; subst s'; clear Hs. revert E. unfold lock_step. destruct (is_owner (mx s) g).
      * destruct o'; simpl; intros E; inversion E; subst; auto.
      * destruct (is_free (mx s)); [simpl; intros E; inversion E; subst; auto|].
        destruct (suspend_and_wait _ _ _) as [[k q] e]. simpl. intros E. exfalso; eauto.
    + inversion Hs; subst; simpl in E. exfalso; eauto.
    + destruct (is_owner (mx s) g); inversion Hs; subst s'; clear Hs; [|simpl in E; inversion E; auto].
      revert E. unfold release. destruct (notify_one (kn s) (mwaiters (mx s))) as [k q] eqn:En. simpl. intros E. inversion E; subst.
      pose proof (notify_one_now _ _ _ _ En). auto.
    + destruct (splk s); inversion Hs; subst; simpl in E. exfalso; eauto.
    + destruct (is_owner (mx s) g); inversion Hs; subst s'; clear Hs; [|simpl in E; inversion E; auto].
      revert E. unfold release. destruct (notify_one (kn s) (mwaiters (mx s))) as [k q]. simpl. intros E. exfalso; eauto.
    + destruct tp as [tp|]; [destruct (suspend_and_wait_until _ _ _ _) as [[k q] e]|destruct (suspend_and_wait _ _ _) as [[k q] e]];
        inversion Hs; subst; simpl in E; exfalso; eauto.
    + inversion Hs; subst; simpl in E. exfalso; eauto.
    + destruct (wait_until_result (kn s) tp); inversion Hs; subst; simpl in E; exfalso; eauto.
    + destruct (splk s); inversion Hs; subst; simpl in E. exfalso; eauto.
    + destruct (splk s); inversion Hs; subst s'; clear Hs. revert E. unfold notify_step.
      destruct (if all then notify_all (kn s) (cvq s) else notify_one (kn s) (cvq s)) as [k q] eqn:En. simpl. intros E.
      inversion E; subst. assert (now k = now (kn s)); auto.
      destruct all; [eapply notify_all_now|eapply notify_one_now]; eauto.
  - destruct (pcs s g); try discriminate. destruct (running (fib (kn s) g)); inversion Hs; subst; simpl in E. exfalso; eauto.
  - destruct (pcs s g); try discriminate. destruct (running (fib (kn s) g)); inversion Hs; subst; simpl in E. exfalso; eauto.
Qed.

Example C13_ex_notified : exists s, reachable step init s /\
  exists h, log s = ERet 1 (WaitUntil 2) ROk 0 :: ERet 2 NotifyOne ROk 0 :: EWake 2 1 :: h.
Proof.
  apply (reach_by _ _ [LK (Pick 1 1); LK (Pick 2 2); LCall 1 Lock; LRun 1; LCall 1 (WaitUntil 2); LRun 1; LRun 1; LRun 1;
    LCall 2 NotifyOne; LRun 2; LK (Pick 1 1); LRun 1; LRun 1]).
  vm_compute. eauto.
Qed.
(** The deadline passes first: the later notification does not find the fiber, which reports timeout. *)
Example C13_ex_timeout : exists s, reachable step init s /\
  exists h, log s = ERet 1 (WaitUntil 2) RTimeout 4 :: ERet 2 NotifyOne ROk 4 :: ECall 2 NotifyOne :: h.
Proof.
  apply (reach_by _ _ [LK (Pick 1 1); LK (Pick 2 2); LCall 1 Lock; LRun 1; LCall 1 (WaitUntil 2); LRun 1; LRun 1; LRun 1;
    LK (Tick 3); LK (Timer 1); LCall 2 NotifyOne; LRun 2; LK (Pick 1 1); LRun 1; LRun 1; LRun 1]).
  vm_compute. eauto.
Qed.

(** All theorems of this file at once: their assumptions. *)
Definition all_condVar :=
  (@C10_notify_all_reaches, @C10_notify_one_reaches, @C10_registered_before_notify, @C11_wake_justified,
   @C11_wait_return_justified, @C11_returns_bounded_by_wakes, @C11_notify_one_wakes_exactly_one,
   @C11_notify_all_wakes_all, @C12_mutual_exclusion, @C12_wait_returns_owning, @C12_no_internal_error,
   @C12_wait_error_only_unowned, @C12_relock_progress, @C13_timeouts_honest, @C13_stamp_is_clock).
Print Assumptions all_condVar.
