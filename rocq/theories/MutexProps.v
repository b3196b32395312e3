(** Properties C01-C08 (mutex part), C59, C60. *)
From Coq Require Import List Arith Bool Lia.
From Verif Require Import Base Kernel KernelFacts Mutex MutexSpec MutexProofs.
Import ListNotations.

(** Examples use fibers 1, 2, 3 on threads 1, 2, 3. *)
Definition ex_contended : list label :=
  [LK (Pick 1 1); LK (Pick 2 2); LCall 1 Lock; LRun 1; LCall 2 Lock; LRun 2].

(** ** C01 *)
Theorem C01_mutual_exclusion : forall mk s f g,
  reachable (step mk) init s -> inside (log s) f > 0 -> inside (log s) g > 0 -> f = g.
Proof.
  intros mk s f g R Hf Hg. apply minv_reachable in R.
  pose proof (m_in _ _ R f) as A. pose proof (m_in _ _ R g) as B. unfold held in *.
  destruct (is_owner (mx s) f) eqn:E1; [|lia]. destruct (is_owner (mx s) g) eqn:E2; [|lia].
  apply is_owner_spec in E1. apply is_owner_spec in E2. congruence.
Qed.

Theorem C01_nonrecursive_entered_once : forall mk s f,
  recursive mk = false -> reachable (step mk) init s -> inside (log s) f <= 1.
Proof.
  intros mk s f Hk R. apply minv_reachable in R.
  pose proof (m_in _ _ R f) as A. unfold held in *. rewrite Hk in A.
  destruct (is_owner (mx s) f); lia.
Qed.

Example C01_ex : exists s, reachable (step KMutex) init s /\
  (inside (log s) 1 = 1 /\ inside (log s) 2 = 0 /\ pending (log s) 2 = Some Lock /\ blocked (kn s) 2).
Proof. apply (reach_by _ _ ex_contended). vm_compute. auto. Qed.

Example C01_ex_handover : exists s, reachable (step KMutex) init s /\
  (inside (log s) 1 = 0 /\ inside (log s) 2 = 1).
Proof.
  apply (reach_by _ _ (ex_contended ++ [LCall 1 Unlock; LRun 1; LK (Pick 2 2); LRun 2; LRun 2])).
  vm_compute. auto.
Qed.

(** ** C02 *)
Theorem C02_unlock_result : forall mk s h1 f r a h0,
  reachable (step mk) init s -> log s = h1 ++ ERet f Unlock r a :: h0 ->
  (owned h0 f = 0 /\ r = RErr ENotPermitted) \/ (owned h0 f > 0 /\ r = ROk).
Proof.
  intros mk s h1 f r a h0 R E. apply minv_reachable in R. pose proof (m_log _ _ R) as L.
  rewrite E in L. apply log_ok_split in L. exact L.
Qed.

Theorem C02_lock_result : forall mk s h1 f r a h0,
  reachable (step mk) init s -> log s = h1 ++ ERet f Lock r a :: h0 ->
  if recursive mk then r = ROk
  else (owned h0 f > 0 /\ r = RErr EDeadlock) \/ (owned h0 f = 0 /\ r = ROk).
Proof.
  intros mk s h1 f r a h0 R E. apply minv_reachable in R. pose proof (m_log _ _ R) as L.
  rewrite E in L. apply log_ok_split in L. exact L.
Qed.

Theorem C02_try_lock_result : forall mk s h1 f r a h0,
  reachable (step mk) init s -> log s = h1 ++ ERet f TryLock r a :: h0 ->
  if recursive mk then r = RBool true \/ (r = RBool false /\ owned h0 f = 0)
  else (owned h0 f > 0 /\ r = RErr EDeadlock) \/ (owned h0 f = 0 /\ exists b, r = RBool b).
Proof.
  intros mk s h1 f r a h0 R E. apply minv_reachable in R. pose proof (m_log _ _ R) as L.
  rewrite E in L. apply log_ok_split in L. exact L.
Qed.

(** A failing call changes neither the mutex nor the scheduling state of anybody. *)
Theorem C02_errors_harmless : forall mk s l s' f o e a,
  step mk s l = Some s' -> log s' = ERet f o (RErr e) a :: log s ->
  kn s' = kn s /\ mx s' = mx s /\ forall g, g <> f -> pcs s' g = pcs s g.
Proof.
  intros mk s l s' f o e a Hs Hl.
  assert (NC : forall (x : event) h, h = x :: h -> False).
  { intros x h E. apply (f_equal (@length event)) in E. simpl in E. lia. }
  destruct l as [kl|f' o'|f'|f'|f']; simpl in Hs.
  - destruct (kstep (kn s) kl); inversion Hs; subst; simpl in Hl. exfalso; eauto.
  - destruct (pcs s f'); try discriminate.
    destruct (running (fib (kn s) f') && permitted mk o'); inversion Hs; subst; simpl in Hl. discriminate.
  - destruct (running (fib (kn s) f')); [|discriminate]. unfold run_step in Hs.
    destruct (pcs s f') as [|  |e'| | | | |tp|tp|tp e'|tp e']; try discriminate.
    + inversion Hs; subst; clear Hs. revert Hl. unfold lock_step.
      destruct (is_owner (mx s) f'); [destruct (recursive mk)|destruct (is_free (mx s))]; simpl; intros Hl; try discriminate.
      * inversion Hl; subst. splits; auto. intros g Hg. now updt.
      * exfalso; eauto.
    + inversion Hs; subst; clear Hs. simpl in Hl. exfalso; eauto.
    + inversion Hs; subst; clear Hs. revert Hl. unfold try_step.
      destruct (recursive mk), (is_owner (mx s) f'), (is_free (mx s)); simpl; intros Hl; try (exfalso; eauto; fail); try discriminate;
        inversion Hl; subst; splits; auto; intros g Hg; now updt.
    + inversion Hs; subst; clear Hs. simpl in Hl. exfalso; eauto.
    + inversion Hs; subst; clear Hs. simpl in Hl. discriminate.
    + inversion Hs; subst; clear Hs. revert Hl. unfold unlock_step, release.
      destruct (notify_one (kn s) (waiters (mx s))).
      destruct (is_owner (mx s) f'), (recursive mk), (Nat.eqb (pred (count (mx s))) 0); simpl; intros Hl; try discriminate;
        inversion Hl; subst; splits; auto; intros g Hg; now updt.
    + destruct (Nat.ltb tp (now (kn s))); inversion Hs; subst; clear Hs; simpl in Hl; [discriminate|exfalso; eauto].
    + inversion Hs; subst; clear Hs. revert Hl. unfold until_step.
      destruct (recursive mk && is_owner (mx s) f'); [|destruct (is_free (mx s))]; simpl; intros Hl; try discriminate.
      exfalso; eauto.
    + destruct (wait_until_result (kn s) tp); inversion Hs; subst; clear Hs; simpl in Hl; exfalso; eauto.
    + inversion Hs; subst; clear Hs. simpl in Hl. discriminate.
  - destruct (pcs s f'); try discriminate.
    destruct (running (fib (kn s) f')); inversion Hs; subst; simpl in Hl. exfalso; eauto.
  - destruct (pcs s f'); try discriminate.
    destruct (running (fib (kn s) f')); inversion Hs; subst; simpl in Hl. exfalso; eauto.
Qed.

Example C02_ex : exists s, reachable (step KMutex) init s /\
  exists h, log s = ERet 2 Unlock (RErr ENotPermitted) 0 :: ECall 2 Unlock ::
                    ERet 1 Lock (RErr EDeadlock) 0 :: ECall 1 Lock :: ERet 1 Lock ROk 0 :: h.
Proof.
  apply (reach_by _ _ [LK (Pick 1 1); LK (Pick 2 2); LCall 1 Lock; LRun 1; LCall 1 Lock; LRun 1; LCall 2 Unlock; LRun 2]).
  vm_compute. eauto.
Qed.

(** ** C03 *)
Theorem C03_try_lock_never_blocks : forall mk s f,
  reachable (step mk) init s -> pending (log s) f = Some TryLock -> runnable (kn s) f.
Proof.
  intros mk s f R Hp. apply minv_reachable in R. rewrite (m_pend _ _ R) in Hp.
  pose proof (ki_f _ _ _ (m_k _ _ R) f) as F. unfold fok in F.
  destruct (pcs s f); simpl in Hp; try discriminate; simpl in F; apply F.
Qed.

(** false is only reported to a fiber that does not own the mutex; true only if nobody else is inside. *)
Theorem C03_try_lock_truthful : forall mk s f b a h0,
  reachable (step mk) init s -> log s = ERet f TryLock (RBool b) a :: h0 ->
  (b = false -> owned (log s) f = 0) /\
  (b = true -> owned (log s) f > 0 /\ forall g, g <> f -> inside (log s) g = 0).
Proof.
  intros mk s f b a h0 R E. pose proof R as R0. apply minv_reachable in R. split; intros ->.
  - rewrite E. simpl. rewrite Nat.eqb_refl. simpl.
    pose proof (C02_try_lock_result mk s [] f (RBool false) a h0 R0 E) as H.
    destruct (recursive mk).
    + destruct H as [H|[_ H]]; [discriminate|exact H].
    + destruct H as [[_ H]|[H _]]; [discriminate|exact H].
  - split.
    + rewrite E. simpl. rewrite Nat.eqb_refl. simpl. lia.
    + intros g Hg. destruct (inside (log s) g) eqn:Ei; auto. exfalso. apply Hg.
      apply (C01_mutual_exclusion mk s g f R0); [lia|]. rewrite E. simpl. rewrite Nat.eqb_refl. simpl. lia.
Qed.

(** With nobody owning the mutex and nobody else in the middle of a try_lock(), the call succeeds. *)
Theorem C03_try_lock_succeeds_when_free : forall mk s f,
  reachable (step mk) init s -> running (fib (kn s) f) = true -> pending (log s) f = None ->
  (forall g, owned (log s) g = 0) -> (forall g, pending (log s) g <> Some TryLock) ->
  exists s' a, exec (step mk) s [LCall f TryLock; LRun f; LRun f; LK (Pick f (home (fib (kn s) f))); LRun f] = Some s' /\
    log s' = ERet f TryLock (RBool true) a :: ECall f TryLock :: log s.
Proof.
  intros mk s f R Hr Hp Ho Ht. apply minv_reachable in R.
  pose proof (owner_owned _ _ R Ho Ht) as Hown. pose proof (pending_idle _ _ _ R Hp) as Hpc.
  unfold exec, step at 1. rewrite Hpc, Hr. simpl andb.
  replace (permitted mk TryLock) with true by reflexivity. cbv iota beta.
  unfold step at 1. simpl kn. rewrite Hr. unfold run_step. simpl pcs. updt. unfold start_pc, try_step. simpl mx.
  assert (Hf : is_free (mx s) = true) by (apply is_free_spec; auto).
  assert (Hno : is_owner (mx s) f = false) by (apply is_owner_false; congruence).
  rewrite Hf, Hno.
  replace (if recursive mk then _ else _) with
    (goto (set_mx {| kn := kn s; mx := mx s; pcs := upd (pcs s) f TryTop; log := ECall f TryLock :: log s |} (take mk (mx s) f)) f TryYield)
    by (destruct (recursive mk); reflexivity).
  unfold step at 1. simpl kn. rewrite Hr. unfold run_step. simpl pcs. updt.
  unfold step at 1. simpl kn. unfold kstep, yield. simpl. updt. simpl.
  unfold run_step. simpl. updt. unfold is_owner, take. simpl. rewrite Nat.eqb_refl.
  eexists _, _. split; [reflexivity|]. reflexivity.
Qed.

Example C03_ex : exists s, reachable (step KRec) init s /\
  (exists h, log s = ERet 2 TryLock (RBool false) 0 :: h) /\ owned (log s) 1 = 2.
Proof.
  apply (reach_by _ _ [LK (Pick 1 1); LK (Pick 2 2); LCall 1 Lock; LRun 1; LCall 1 TryLock; LRun 1; LRun 1; LK (Pick 1 1); LRun 1;
    LCall 2 TryLock; LRun 2; LRun 2; LK (Pick 2 2); LRun 2]).
  vm_compute. eauto.
Qed.

Example C03_ex_free : exists s, reachable (step KMutex) init s /\
  running (fib (kn s) 1) = true /\ pending (log s) 1 = None /\ owned (log s) 1 = 0.
Proof. apply (reach_by _ _ [LK (Pick 1 1)]). vm_compute. auto. Qed.

(** ** C04 *)
(** While some fiber has more successful acquisitions than successful unlocks, no other fiber acquires. *)
Theorem C04_unavailable_while_owned : forall mk s l s' f g o r a,
  reachable (step mk) init s -> owned (log s) f > 0 -> g <> f ->
  step mk s l = Some s' -> log s' = ERet g o r a :: log s -> acquired o r = false.
Proof.
  intros mk s l s' f g o r a R Hf Hg Hs Hl.
  assert (R' : reachable (step mk) init s') by (eapply reachable_step; eauto).
  apply minv_reachable in R'. destruct (acquired o r) eqn:E; auto. exfalso.
  pose proof (m_ow _ _ R' g) as A. pose proof (m_ow _ _ R' f) as B. rewrite Hl in A, B. simpl in A, B.
  rewrite Nat.eqb_refl, E in A. rewrite (proj2 (Nat.eqb_neq g f)) in B by auto.
  unfold held in *. destruct (is_owner (mx s') g) eqn:E1; [|lia]. destruct (is_owner (mx s') f) eqn:E2; [|lia].
  apply is_owner_spec in E1. apply is_owner_spec in E2. congruence.
Qed.

(** As soon as every acquisition has been undone, lock() of any fiber succeeds at once. *)
Theorem C04_available_when_all_undone : forall mk s f,
  reachable (step mk) init s -> running (fib (kn s) f) = true -> pending (log s) f = None ->
  (forall g, owned (log s) g = 0) -> (forall g, pending (log s) g <> Some TryLock) ->
  exists s' a, exec (step mk) s [LCall f Lock; LRun f] = Some s' /\
    log s' = ERet f Lock ROk a :: ECall f Lock :: log s.
Proof.
  intros mk s f R Hr Hp Ho Ht. apply minv_reachable in R.
  pose proof (owner_owned _ _ R Ho Ht) as Hown. pose proof (pending_idle _ _ _ R Hp) as Hpc.
  unfold exec, step at 1. rewrite Hpc, Hr. simpl andb.
  replace (permitted mk Lock) with true by reflexivity. cbv iota beta.
  unfold step at 1. simpl kn. rewrite Hr. unfold run_step. simpl pcs. updt. unfold start_pc, lock_step. simpl mx.
  assert (Hf : is_free (mx s) = true) by (apply is_free_spec; auto).
  assert (Hno : is_owner (mx s) f = false) by (apply is_owner_false; congruence).
  rewrite Hf, Hno. eexists _, _. split; reflexivity.
Qed.

(** The owner can always lock a recursive mutex again, and unlock succeeds exactly as often. *)
Theorem C04_owner_relocks : forall mk s f,
  recursive mk = true -> reachable (step mk) init s -> running (fib (kn s) f) = true ->
  pending (log s) f = None -> owned (log s) f > 0 ->
  exists s' a, exec (step mk) s [LCall f Lock; LRun f] = Some s' /\
    log s' = ERet f Lock ROk a :: ECall f Lock :: log s.
Proof.
  intros mk s f Hrec R Hr Hp Ho. apply minv_reachable in R. pose proof (pending_idle _ _ _ R Hp) as Hpc.
  assert (Hown : is_owner (mx s) f = true).
  { pose proof (m_ow _ _ R f) as A. unfold held in A. destruct (is_owner (mx s) f); auto. lia. }
  unfold exec, step at 1. rewrite Hpc, Hr. simpl andb.
  replace (permitted mk Lock) with true by reflexivity. cbv iota beta.
  unfold step at 1. simpl kn. rewrite Hr. unfold run_step. simpl pcs. updt. unfold start_pc, lock_step. simpl mx.
  rewrite Hown, Hrec. eexists _, _. split; reflexivity.
Qed.

Example C04_ex : exists s, reachable (step KRecTimed) init s /\
  owned (log s) 1 = 2 /\ running (fib (kn s) 1) = true /\ pending (log s) 1 = None /\ blocked (kn s) 2.
Proof.
  apply (reach_by _ _ [LK (Pick 1 1); LK (Pick 2 2); LCall 1 Lock; LRun 1; LCall 1 (TryLockUntil 3); LRun 1; LRun 1;
    LCall 2 Lock; LRun 2]).
  vm_compute. auto.
Qed.

(** ** C05 *)
Theorem C05_no_lost_wakeup : forall mk s f,
  timed mk = false -> reachable (step mk) init s ->
  pending (log s) f = Some Lock -> blocked (kn s) f ->
  exists g, owned (log s) g > 0 \/ (runnable (kn s) g /\ pending (log s) g <> None).
Proof.
  intros mk s f Hk R _ Hb. apply minv_reachable in R. eapply no_lost_wakeup; eauto.
  intros g tp a Hi. apply (m_logk _ _ R) in Hi. congruence.
Qed.

Example C05_ex : exists s, reachable (step KMutex) init s /\
  (pending (log s) 3 = Some Lock /\ blocked (kn s) 3 /\ owned (log s) 1 = 0 /\ queued (fib (kn s) 2) = true).
Proof.
  apply (reach_by _ _ (ex_contended ++ [LK (Pick 3 3); LCall 3 Lock; LRun 3; LCall 1 Unlock; LRun 1])).
  vm_compute. auto.
Qed.

(** ** C06 *)
Theorem C06_timeout_not_early : forall mk s h1 f tp r a h0,
  reachable (step mk) init s -> log s = h1 ++ ERet f (TryLockUntil tp) r a :: h0 ->
  r = RBool true \/ (r = RBool false /\ tp <= a).
Proof.
  intros mk s h1 f tp r a h0 R E. apply minv_reachable in R. pose proof (m_log _ _ R) as L.
  rewrite E in L. apply log_ok_split in L. exact L.
Qed.

Theorem C06_timer_releases_waiter : forall mk s f tp,
  reachable (step mk) init s -> pending (log s) f = Some (TryLockUntil tp) -> blocked (kn s) f ->
  tp <= now (kn s) -> thr (kn s) (home (fib (kn s) f)) = None ->
  exists s', step mk s (LK (Timer f)) = Some s' /\ runnable (kn s') f.
Proof.
  intros mk s f tp R Hp Hb Ht Hi. apply minv_reachable in R. rewrite (m_pend _ _ R) in Hp.
  pose proof (ki_f _ _ _ (m_k _ _ R) f) as F. unfold fok in F. destruct F as (_ & _ & F).
  unfold xrunnable, xblocked in F. unfold blocked in Hb.
  destruct (pcs s f) as [|  |e| | | | |tp'|tp'|tp' e|tp' e]; simpl in Hp; try discriminate; inversion Hp; subst tp'; simpl in F;
    try (destruct F as [[F|F] _]; destruct Hb; congruence).
  destruct F as [(_ & He & _ & Hs)|([F|F] & _)]; [|destruct Hb; congruence|destruct Hb; congruence].
  simpl. rewrite Hi, Hs. rewrite (proj2 (Nat.leb_le _ _) Ht). eexists. split; [reflexivity|].
  simpl. rewrite upd_same. simpl. rewrite (proj2 (Nat.eqb_eq _ _) He).
  right. simpl. now rewrite upd_same.
Qed.

Example C06_ex : exists s, reachable (step KTimed) init s /\
  (pending (log s) 2 = Some (TryLockUntil 3) /\ blocked (kn s) 2 /\ 3 <= now (kn s) /\
   thr (kn s) (home (fib (kn s) 2)) = None).
Proof.
  apply (reach_by _ _ [LK (Pick 1 1); LK (Pick 2 2); LCall 1 Lock; LRun 1; LCall 2 (TryLockUntil 3); LRun 2; LRun 2; LK (Tick 5)]).
  vm_compute. repeat split; lia.
Qed.

(** ** C07: false for the timed mutexes. *)
(** Fiber 2 waits with deadline 3, fiber 3 waits without deadline. unlock() of fiber 1 wakes
    fiber 2, but fiber 2 is resumed only after its deadline, reports failure and passes the
    notification to nobody. *)
Definition c07_run : list label :=
  [LK (Pick 1 1); LK (Pick 2 2); LK (Pick 3 3);
   LCall 1 Lock; LRun 1;
   LCall 2 (TryLockUntil 3); LRun 2; LRun 2;
   LCall 3 Lock; LRun 3;
   LCall 1 Unlock; LRun 1;
   LK (Tick 5); LK (Pick 2 2); LRun 2; LRun 2].

Theorem C07_refuted : forall mk, timed mk = true ->
  exists s f, reachable (step mk) init s /\ pending (log s) f = Some Lock /\ blocked (kn s) f /\
    (forall g, owned (log s) g = 0) /\ (forall g, g <> f -> pending (log s) g = None).
Proof.
  intros mk Hk.
  destruct (reach_by (step mk) init c07_run (fun s => blocked (kn s) 3 /\
    log s = [ERet 2 (TryLockUntil 3) (RBool false) 6; ERet 1 Unlock ROk 0; ECall 1 Unlock; ECall 3 Lock;
             ECall 2 (TryLockUntil 3); ERet 1 Lock ROk 0; ECall 1 Lock])) as (s & R & A & B).
  - destruct mk; try discriminate Hk; vm_compute; auto.
  - exists s, 3. rewrite B. splits; auto.
    + intros [|[|[|[|g]]]]; reflexivity.
    + intros [|[|[|[|g]]]]; try reflexivity. congruence.
Qed.

(** What does hold: as long as no timed acquisition has reported failure, nobody is stranded.
    (Missing from the full C07: executions in which a timed acquisition has failed.) *)
Theorem C07_no_lost_wakeup_partial : forall mk s f,
  reachable (step mk) init s -> no_timed_failure (log s) ->
  pending (log s) f = Some Lock -> blocked (kn s) f ->
  exists g, owned (log s) g > 0 \/ (runnable (kn s) g /\ pending (log s) g <> None).
Proof. intros mk s f R Hn _ Hb. apply minv_reachable in R. eapply no_lost_wakeup; eauto. Qed.

Example C07_ex : exists s, reachable (step KTimed) init s /\
  (pending (log s) 3 = Some Lock /\ blocked (kn s) 3 /\ owned (log s) 2 = 1).
Proof.
  apply (reach_by _ _ [LK (Pick 1 1); LK (Pick 2 2); LK (Pick 3 3); LCall 1 Lock; LRun 1;
   LCall 2 (TryLockUntil 9); LRun 2; LRun 2; LCall 3 Lock; LRun 3; LCall 1 Unlock; LRun 1;
   LK (Pick 2 2); LRun 2; LRun 2; LRun 2]).
  vm_compute. auto.
Qed.

(** ** C08 (mutex part): no ready-queue or wait-queue assertion is ever violated. *)
Theorem C08_mutex_no_double_wakeup : forall mk s,
  reachable (step mk) init s -> err (kn s) = false.
Proof. intros mk s R. apply minv_reachable in R. apply (ki_e _ _ _ (m_k _ _ R)). Qed.

(** ** C59: false. A passed deadline does not behave as try_lock(): a free mutex is refused. *)
Theorem C59_refuted : forall mk, timed mk = true ->
  exists s f, reachable (step mk) init s /\ running (fib (kn s) f) = true /\ pending (log s) f = None /\
    (forall g, owned (log s) g = 0 /\ pending (log s) g = None) /\
    exists s' a, exec (step mk) s [LCall f (TryLockUntil 3); LRun f] = Some s' /\
      log s' = ERet f (TryLockUntil 3) (RBool false) a :: ECall f (TryLockUntil 3) :: log s.
Proof.
  intros mk Hk.
  destruct (reach_by (step mk) init [LK (Pick 1 1); LK (Tick 5)] (fun s =>
    running (fib (kn s) 1) = true /\ log s = [] /\ pcs s 1 = Idle /\ now (kn s) = 6)) as (s & R & A & B & C & D).
  - vm_compute. auto.
  - exists s, 1. rewrite B. splits; auto.
    simpl. rewrite C, A. destruct mk; try discriminate Hk; simpl; rewrite A; unfold run_step; cbn [pcs kn]; rewrite upd_same, D; simpl; eexists _, _; rewrite B; split; reflexivity.
Qed.

(** ** C60: false. The owner of a timed_mutex calling try_lock_until is not told about the deadlock:
    it waits until the deadline and gets false. *)
Theorem C60_refuted : exists s h, reachable (step KTimed) init s /\
  log s = ERet 1 (TryLockUntil 3) (RBool false) 6 :: h /\ owned h 1 = 1.
Proof.
  destruct (reach_by (step KTimed) init
    [LK (Pick 1 1); LCall 1 Lock; LRun 1; LCall 1 (TryLockUntil 3); LRun 1; LRun 1; LK (Tick 5); LK (Timer 1); LK (Pick 1 1); LRun 1; LRun 1]
    (fun s => exists h, log s = ERet 1 (TryLockUntil 3) (RBool false) 6 :: h /\ owned h 1 = 1)) as (s & R & h & A & B).
  - vm_compute. eauto.
  - exists s, h. auto.
Qed.

(** All theorems of this file at once: their assumptions. *)
Definition all_mutex :=
  (@C01_mutual_exclusion, @C01_nonrecursive_entered_once, @C02_unlock_result, @C02_lock_result,
   @C02_try_lock_result, @C02_errors_harmless, @C03_try_lock_never_blocks, @C03_try_lock_truthful,
   @C03_try_lock_succeeds_when_free, @C04_unavailable_while_owned, @C04_available_when_all_undone,
   @C04_owner_relocks, @C05_no_lost_wakeup, @C06_timeout_not_early, @C06_timer_releases_waiter, @C07_refuted,
   @C07_no_lost_wakeup_partial, @C08_mutex_no_double_wakeup, @C59_refuted, @C60_refuted).
Print Assumptions all_mutex.
