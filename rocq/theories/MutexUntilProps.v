(** What holds of try_lock_until() where the documented behaviour (C59, C60) is refuted in MutexProps.v. *)
From Coq Require Import List Arith Bool Lia.
From Verif Require Import Base Kernel KernelFacts Mutex MutexSpec MutexProofs.
Import ListNotations.

(** ** C59: with a deadline that has not passed, a free mutex is acquired at once.
    (Missing from the full C59: a deadline that has passed, where the call does not behave as try_lock();
    see [C59_expired_partial] for what it does instead.) *)
Theorem C59_partial : forall mk s f tp,
  timed mk = true -> reachable (step mk) init s ->
  running (fib (kn s) f) = true -> pending (log s) f = None ->
  (forall g, owned (log s) g = 0) -> (forall g, pending (log s) g <> Some TryLock) ->
  now (kn s) <= tp ->
  exists s', exec (step mk) s [LCall f (TryLockUntil tp); LRun f; LRun f] = Some s' /\
    log s' = ERet f (TryLockUntil tp) (RBool true) (now (kn s)) :: ECall f (TryLockUntil tp) :: log s /\
    running (fib (kn s') f) = true.
Proof.
  intros mk s f tp Hk R Hr Hp Ho Ht Hn. apply minv_reachable in R.
  pose proof (owner_owned _ _ R Ho Ht) as Hown. pose proof (pending_idle _ _ _ R Hp) as Hpc.
  unfold exec, step at 1. rewrite Hpc, Hr. unfold permitted. cbn [andb].
  rewrite Hk. cbv iota beta.
  unfold step at 1. simpl kn. rewrite Hr. unfold run_step. simpl pcs. rewrite upd_same. unfold start_pc. simpl kn.
  rewrite (proj2 (Nat.ltb_ge _ _) Hn).
  unfold step at 1. simpl kn. rewrite Hr. unfold run_step. simpl pcs. rewrite upd_same.
  unfold until_step. simpl mx.
  assert (Hf : is_free (mx s) = true) by (apply is_free_spec; auto).
  assert (Hno : is_owner (mx s) f = false) by (apply is_owner_false; congruence).
  rewrite Hf, Hno, Bool.andb_false_r.
  eexists. splits; [reflexivity| |]; simpl; auto.
Qed.

(** With a passed deadline the call fails at once, whoever owns the mutex, and touches neither the mutex nor
    the scheduler. *)
Theorem C59_expired_partial : forall mk s f tp,
  timed mk = true -> reachable (step mk) init s ->
  running (fib (kn s) f) = true -> pending (log s) f = None -> tp < now (kn s) ->
  exists s', exec (step mk) s [LCall f (TryLockUntil tp); LRun f] = Some s' /\
    log s' = ERet f (TryLockUntil tp) (RBool false) (now (kn s)) :: ECall f (TryLockUntil tp) :: log s /\
    mx s' = mx s /\ kn s' = kn s.
Proof.
  intros mk s f tp Hk R Hr Hp Hn. apply minv_reachable in R. pose proof (pending_idle _ _ _ R Hp) as Hpc.
  unfold exec, step at 1. rewrite Hpc, Hr. unfold permitted. cbn [andb].
  rewrite Hk. cbv iota beta.
  unfold step at 1. simpl kn. rewrite Hr. unfold run_step. simpl pcs. rewrite upd_same. unfold start_pc. simpl kn.
  rewrite (proj2 (Nat.ltb_lt _ _) Hn).
  eexists. splits; [reflexivity| | |]; simpl; auto.
Qed.

(** A mutex that has been locked and unlocked, with another fiber about to call unlock() wrongly. *)
Example C59_partial_ex : exists s, reachable (step KRecTimed) init s /\
  (running (fib (kn s) 1) = true /\ pending (log s) 1 = None /\ now (kn s) <= 9 /\ 3 < now (kn s) /\
   log s = [ECall 2 Unlock; ERet 1 Unlock ROk 6; ECall 1 Unlock; ERet 1 Lock ROk 0; ECall 1 Lock]).
Proof.
  apply (reach_by _ _ [LK (Pick 1 1); LK (Pick 2 2); LCall 1 Lock; LRun 1; LK (Tick 5); LCall 1 Unlock; LRun 1;
    LCall 2 Unlock]).
  vm_compute. repeat split; lia.
Qed.

(** ** C60: the owner of a timed_mutex never acquires it a second time.
    (Missing from the full C60: the exception; the call reports failure instead, after the deadline.) *)
Fixpoint until_log (h : list event) : Prop :=
  match h with
  | [] => True
  | ERet f (TryLockUntil tp) (RBool true) _ :: h' => owned h' f = 0 /\ until_log h'
  | _ :: h' => until_log h'
  end.

Lemma until_log_step s l s' : MInv KTimed s -> until_log (log s) -> step KTimed s l = Some s' -> until_log (log s').
Proof.
  intros I L H. destruct l as [kl|f o|f|f|f]; simpl in H.
  - destruct (kstep (kn s) kl); inversion H; subst; auto.
  - destruct (pcs s f); try discriminate.
    destruct (running _ && permitted _ _); inversion H; subst. simpl. auto.
  - destruct (running (fib (kn s) f)); try discriminate. unfold run_step in H.
    pose proof (m_ow _ _ I f) as O.
    destruct (pcs s f) as [|  |e| | | | |tp|tp|tp e|tp e] eqn:P; try discriminate.
    + inversion H; subst; clear H. unfold lock_step. simpl recursive.
      destruct (is_owner (mx s) f); [simpl; auto|]. destruct (is_free (mx s)); [simpl; auto|].
      destruct (suspend_and_wait _ _ _) as [[k q] e]. simpl; auto.
    + inversion H; subst; auto.
    + inversion H; subst; clear H. unfold try_step. simpl recursive.
      destruct (is_owner (mx s) f); [simpl; auto|]. destruct (is_free (mx s)); simpl; auto.
    + inversion H; subst; auto.
    + inversion H; subst; simpl; auto.
    + inversion H; subst; clear H. unfold unlock_step. simpl recursive.
      destruct (is_owner (mx s) f); simpl; auto. unfold release.
      destruct (notify_one _ _) as [k q]. simpl; auto.
    + destruct (Nat.ltb _ _); inversion H; subst; simpl; auto.
    + inversion H; subst; clear H. unfold until_step. simpl recursive. cbn [andb].
      destruct (is_free (mx s)) eqn:Fr.
      * simpl. split; auto. apply is_free_spec in Fr. unfold held, adj_ow, is_owner in O. rewrite Fr in O. lia.
      * destruct (suspend_and_wait_until _ _ _ _) as [[k q] e]. simpl; auto.
    + destruct (wait_until_result _ _); inversion H; subst; simpl; auto.
    + inversion H; subst; simpl; auto.
  - destruct (pcs s f); try discriminate. destruct (running _); inversion H; subst; auto.
  - destruct (pcs s f); try discriminate. destruct (running _); inversion H; subst; auto.
Qed.

Lemma until_log_reachable s : reachable (step KTimed) init s -> until_log (log s).
Proof.
  intros R. enough (MInv KTimed s /\ until_log (log s)) by tauto.
  split; [now apply minv_reachable|].
  pattern s. revert s R.
  assert (X : forall s, reachable (step KTimed) init s -> reachable (step KTimed) init s /\ until_log (log s)).
  { apply (reachable_inv (step KTimed) (fun s => reachable (step KTimed) init s /\ until_log (log s))).
    - split; [exists []; reflexivity|exact Logic.I].
    - intros s l s' (R & L) H. split; [eapply reachable_step; eauto|].
      eapply until_log_step; eauto. now apply minv_reachable. }
  intros s R. now apply X.
Qed.

Lemma until_log_split h1 f tp a h0 : until_log (h1 ++ ERet f (TryLockUntil tp) (RBool true) a :: h0) -> owned h0 f = 0.
Proof.
  induction h1 as [|[g o|g o r b] h1 IH]; simpl; auto; [now intros (A & _)|].
  destruct o; auto. destruct r as [|[|]|]; auto; intros (_ & A); auto.
Qed.

Theorem C60_partial : forall s h1 f tp r a h0,
  reachable (step KTimed) init s -> log s = h1 ++ ERet f (TryLockUntil tp) r a :: h0 -> owned h0 f > 0 ->
  r = RBool false /\ tp <= a /\ owned (ERet f (TryLockUntil tp) r a :: h0) f = owned h0 f.
Proof.
  intros s h1 f tp r a h0 R E O. pose proof (until_log_reachable _ R) as L. apply minv_reachable in R.
  pose proof (m_log _ _ R) as K. rewrite E in K, L. apply log_ok_split in K. simpl in K.
  destruct K as [->|(-> & K)].
  - apply until_log_split in L. lia.
  - splits; auto. simpl. rewrite Nat.eqb_refl. reflexivity.
Qed.

(** The owner asks twice, once with a deadline in the future and once with a passed one, then unlocks. *)
Example C60_partial_ex : exists s h1 h0, reachable (step KTimed) init s /\
  log s = h1 ++ ERet 1 (TryLockUntil 3) (RBool false) 6 :: h0 /\ owned h0 1 > 0 /\ owned (log s) 1 = 0 /\ length h1 = 4.
Proof.
  destruct (reach_by (step KTimed) init
    [LK (Pick 1 1); LCall 1 Lock; LRun 1; LCall 1 (TryLockUntil 3); LRun 1; LRun 1; LK (Tick 5); LK (Timer 1);
     LK (Pick 1 1); LRun 1; LRun 1; LCall 1 (TryLockUntil 2); LRun 1; LCall 1 Unlock; LRun 1]
    (fun s => exists h1 h0, log s = h1 ++ ERet 1 (TryLockUntil 3) (RBool false) 6 :: h0 /\ owned h0 1 > 0 /\
       owned (log s) 1 = 0 /\ length h1 = 4)) as (s & R & h1 & h0 & A & B & C & D).
  - vm_compute. eexists [_;_;_;_], _. splits; reflexivity.
  - exists s, h1, h0. auto.
Qed.

Definition all_until := (@C59_partial, @C59_expired_partial, @C60_partial).
Print Assumptions all_until.
