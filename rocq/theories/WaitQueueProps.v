(** C08, C09: theorems about wait queues. *)
From Coq Require Import List Arith Bool Lia.
From Verif Require Import Base Kernel KernelFacts WakeFacts WaitQueue WaitQueueSpec WaitQueueProofs.
Import ListNotations.

(** ** C08 *)
(** Every execution obeys the wait discipline (see WaitQueueSpec.discipline). *)
Theorem C08_one_wakeup_per_wait : forall s, reachable step init s -> discipline (log s).
Proof. intros s R. apply winv_reachable in R. apply (w_disc _ R). Qed.

(** No fiber is put into a ready queue in which it already is, and no waker object is destroyed while linked. *)
Theorem C08_no_double_insertion : forall s, reachable step init s -> err (kn s) = false.
Proof. intros s R. apply winv_reachable in R. apply (ki_e _ _ _ (w_k _ R)). Qed.

(** The log tells the truth about who is blocked: a fiber is blocked in the kernel
    exactly as long as its last event is EBlock. *)
Theorem C08_blocked_iff_logged : forall s f, reachable step init s ->
  (blocked (kn s) f <-> exists i tp, stat (log s) f = Blocked i tp).
Proof.
  intros s f R. apply winv_reachable in R. pose proof (w_stat _ R f) as St.
  pose proof (ki_f _ _ _ (w_k _ R) f) as F. unfold fok in F. destruct F as (_ & _ & F).
  unfold blocked. destruct (pcs s f) as [|i e|i tp e|i tp e]; simpl in *.
  - rewrite St. split; [|intros (i & tp & E); discriminate]. destruct F as [[A|A] _]; intros [? ?]; congruence.
  - destruct St as [[A B]|[A (j & B)]]; rewrite B.
    + split; eauto.
    + split; [|intros (i' & tp & E); discriminate]. destruct A as [A|A]; intros [? ?]; congruence.
  - destruct St as [[A B]|[A (j & B & _)]]; rewrite B.
    + split; eauto.
    + split; [|intros (i' & tp' & E); discriminate]. destruct A as [A|A]; intros [? ?]; congruence.
  - destruct St as (src & B & _). rewrite B. split; [|intros (i' & tp' & E); discriminate].
    destruct F as ([A|A] & _); intros [? ?]; congruence.
Qed.

(** Fiber 1 waits on queue 0 until time 3; the timer wins, a later notify finds nobody, fiber 1 waits again
    (now on queue 1) and is notified there. *)
Definition c08_run : list label :=
  [LK (Pick 1 1); LK (Pick 2 2); LWaitUntil 1 0 3; LK (Tick 4); LK (Timer 1); LNotifyOne 2 0; LK (Pick 1 1); LRun 1; LRun 1;
   LWait 1 1; LNotifyOne 2 0; LNotifyAll 2 1; LK (Pick 1 1); LRun 1].
Example C08_ex : exists s, reachable step init s /\
  log s = [ELeave 1 true 5; EReady 1 (ByNotify 1) 5; EBlock 1 1 None; ELeave 1 false 5; EReady 1 ByTimer 5; EBlock 1 0 (Some 3)].
Proof. apply (reach_by _ _ c08_run). vm_compute. reflexivity. Qed.

(** ** C09 *)
Lemma waiting_of_queue s i : WInv s -> waiting (log s) i = map fst (filter (live (kn s)) (qs s i)).
Proof. intros I. apply (w_wait _ I). Qed.

(** notify_one() makes exactly the longest waiting fiber ready, or nobody if nobody waits on that queue. *)
Theorem C09_notify_one_fifo : forall s g i s', reachable step init s -> step s (LNotifyOne g i) = Some s' ->
  match waiting (log s) i with
  | [] => log s' = log s /\ forall f, fib (kn s') f = fib (kn s) f
  | f :: _ => log s' = EReady f (ByNotify i) (now (kn s)) :: log s /\
              runnable (kn s') f /\ (forall f', f' <> f -> fib (kn s') f' = fib (kn s) f')
  end.
Proof.
  intros s g i s' R Hs. apply winv_reachable in R. rewrite (waiting_of_queue _ i R).
  unfold step in Hs. destruct (pcs s g) eqn:Ep; try discriminate. destruct (running (fib (kn s) g)) eqn:Er; [|discriminate].
  destruct (notify_one (kn s) (qs s i)) as [k q] eqn:En. inversion Hs; subst s'; clear Hs. simpl.
  pose proof (kinv_nodup_fst _ _ _ i (w_k _ R)) as Hnd.
  destruct (notify_one_split _ _ _ _ En) as [(q1 & f & e & Hq & Hst & Hli & ->)|(Hst & -> & ->)].
  - assert (Hin : In (f, e) (qs s i)) by (rewrite Hq; apply in_app_iff; right; now left).
    pose proof (proj1 (live_in_queue _ _ _ _ _ _ (w_k _ R) Hin) Hli) as Hb.
    rewrite (wake_fib _ _ _ Hli). simpl.
    assert (E : filter (live (kn s)) (qs s i) = (f, e) :: filter (live (kn s)) q).
    { rewrite Hq, filter_app, (filter_none _ _ Hst). simpl. now rewrite Hli. }
    rewrite E. simpl. splits.
    + unfold ready_events. simpl.
      assert (flips (kn s) (fst (wake (kn s) (f, e))) (map fst (qs s i)) = [f]) as X.
      { unfold flips. rewrite <- (filter_eq_single f (map fst (qs s i)) Hnd) by (apply in_map_iff; now exists (f, e)).
        apply filter_ext_in'. intros x _. rewrite (wake_fib _ _ _ Hli). simpl. destruct (Nat.eqb_spec x f) as [->|Hne].
        - updt. simpl. destruct Hb as [_ Hb]. now rewrite Hb.
        - updt. now destruct (queued (fib (kn s) x)). }
      rewrite (wake_fib _ _ _ Hli) in X. rewrite X. reflexivity.
    + right. simpl. now updt.
    + intros f' Hf. now updt.
  - rewrite (filter_none _ _ Hst). simpl. split; auto.
    unfold ready_events, flips. rewrite filter_none; auto. intros x _. now destruct (queued (fib (kn s) x)).
Qed.

(** notify_all() makes all of them ready, in that order, and nobody else. *)
Theorem C09_notify_all : forall s g i s', reachable step init s -> step s (LNotifyAll g i) = Some s' ->
  log s' = rev (map (fun f => EReady f (ByNotify i) (now (kn s))) (waiting (log s) i)) ++ log s /\
  (forall f, In f (waiting (log s) i) -> runnable (kn s') f) /\
  (forall f, ~ In f (waiting (log s) i) -> fib (kn s') f = fib (kn s) f).
Proof.
  intros s g i s' R Hs. apply winv_reachable in R. rewrite (waiting_of_queue _ i R).
  unfold step in Hs. destruct (pcs s g) eqn:Ep; try discriminate. destruct (running (fib (kn s) g)) eqn:Er; [|discriminate].
  destruct (notify_all (kn s) (qs s i)) as [k q] eqn:En. inversion Hs; subst s'; clear Hs. simpl.
  destruct (notify_all_inv i (qs s i) (kn s) (qs s) _ k q (w_k _ R) eq_refl En) as (K & -> & N1 & _ & N4 & N5).
  assert (Hfs : forall g, In g (map fst (filter (live (kn s)) (qs s i))) <-> In (g, epoch (fib (kn s) g)) (qs s i)).
  { intros x. rewrite in_map_iff. split.
    - intros ([g' e] & E & Hg). simpl in E. subst g'. apply filter_In in Hg. destruct Hg as [Hg Hl].
      apply live_spec in Hl. now rewrite Hl.
    - intros Hg. eexists. split; [|apply filter_In; split; [exact Hg|now apply live_spec]]. reflexivity. }
  splits.
  - unfold ready_events. rewrite N1. do 3 f_equal.
    unfold flips. rewrite filter_map. f_equal. apply filter_ext_in'. intros [x e] Hx. simpl.
    destruct (live (kn s) (x, e)) eqn:El.
    + apply live_spec in El. subst e. destruct (N4 _ Hx) as [[_ Hb] Hf]. now rewrite Hb, Hf.
    + rewrite N5; [now destruct (queued (fib (kn s) x))|].
      intros Hg'. assert (e = epoch (fib (kn s) x)) by (eapply (kinv_entry_det (kn s) (qs s)); eauto; apply (w_k _ R)).
      subst e. unfold live in El. simpl in El. rewrite Nat.eqb_refl in El. discriminate.
  - intros x Hx. apply Hfs in Hx. destruct (N4 _ Hx) as [A B]. right. now rewrite B.
  - intros x Hx. apply N5. intros X. apply Hx. now apply Hfs.
Qed.

(** The waiting list is exact: it contains precisely the fibers blocked on that queue, each once. *)
Theorem C09_waiting_exact : forall s i, reachable step init s ->
  NoDup (waiting (log s) i) /\
  forall f, In f (waiting (log s) i) <-> exists tp, stat (log s) f = Blocked i tp.
Proof.
  intros s i R. apply winv_reachable in R. rewrite (waiting_of_queue _ i R). split.
  - pose proof (kinv_nodup_fst _ _ _ i (w_k _ R)) as Hnd.
    revert Hnd. generalize (qs s i). intros l. induction l as [|[g e] l IH]; simpl; intros Hn; [constructor|].
    inversion Hn; subst. destruct (live (kn s) (g, e)); simpl; auto. constructor; auto.
    intros Hi. apply H1. apply in_map_iff in Hi. destruct Hi as (x & E & Hx). apply filter_In in Hx.
    apply in_map_iff. exists x. tauto.
  - intros f. rewrite in_map_iff. split.
    + intros ([g e] & E & Hg). simpl in E. subst g. apply filter_In in Hg. destruct Hg as [Hg Hl].
      apply live_spec in Hl. destruct (live_blocked _ _ _ _ _ _ (w_k _ R) Hg Hl) as [Hb W]. cbv beta in W.
      pose proof (w_stat _ R f) as St.
      destruct W as [W|[tp W]]; destruct (pcs s f); simpl in W; inversion W; subst; simpl in St;
        (destruct St as [[_ St]|[[A|A] _]]; [eauto|destruct Hb; congruence..]).
    + intros (tp & St). pose proof (w_stat _ R f) as X. rewrite St in X.
      pose proof (ki_f _ _ _ (w_k _ R) f) as F. unfold fok in F. destruct F as (_ & _ & F).
      destruct (pcs s f) as [|i' e|i' tp' e|i' tp' e]; simpl in *.
      * discriminate.
      * destruct X as [[Hb X]|[_ (j & X)]]; [|discriminate]. inversion X; subst.
        destruct F as (_ & [(_ & E & Hi)|([A|A] & _)]); [|destruct Hb; congruence..].
        exists (f, e). split; auto. apply filter_In. split; auto. now apply live_spec.
      * destruct X as [[Hb X]|[_ (j & X & _)]]; [|discriminate]. inversion X; subst.
        destruct F as [(_ & E & Hi & _)|([A|A] & _)]; [|destruct Hb; congruence..].
        exists (f, e). split; auto. apply filter_In. split; auto. now apply live_spec.
      * destruct X as (src & X & _). discriminate.
Qed.

(** Three fibers wait; the first has timed out but not yet left; notify_one reaches the second. *)
Definition c09_run : list label :=
  [LK (Pick 1 1); LWaitUntil 1 0 3; LK (Pick 2 1); LWait 2 0; LK (Pick 3 1); LWait 3 0; LK (Tick 4); LK (Timer 1); LK (Pick 4 4)].
Example C09_ex : exists s, reachable step init s /\
  (waiting (log s) 0 = [2; 3] /\ length (qs s 0) = 3 /\ running (fib (kn s) 4) = true /\ pcs s 4 = Idle).
Proof. apply (reach_by _ _ c09_run). vm_compute. auto. Qed.

(** All theorems of this file at once: their assumptions. *)
Definition all_waitQueue :=
  (@C08_one_wakeup_per_wait, @C08_no_double_insertion, @C08_blocked_iff_logged, @C09_notify_one_fifo,
   @C09_notify_all, @C09_waiting_exact).
Print Assumptions all_waitQueue.
