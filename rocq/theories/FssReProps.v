(** Theorems about cleanup functions that use fiber-local storage or throw (properties C95, C96, C97). *)
From Coq Require Import List Arith Bool Lia.
From Verif Require Import Base FssRe FssReSpec FssReFacts.
Import ListNotations.

(** ** C95. Every stored object is cleaned up exactly once, also if cleanup functions call reset() and release(). *)
(** Holds if each cleanup function modifies only pointer objects at higher addresses: the fiber ends (nothing undefined, no endless recursion, as much fuel as there are addresses suffices), its storage is empty, and each object has been cleaned up or released as often as stored. *)
Theorem C95_exactly_once_partial body K os n : upwards body -> (forall k v, below K (body k v)) -> below K os -> no_throw os -> K <= n ->
  exists s, fiber body n os = Done s /\ nodes s = [] /\ balanced (log s).
Proof. intros U B Bo NT Hn. destruct (fiber_ok body U K B n os Hn Bo NT) as (s & E & N & _ & Ba). eauto. Qed.
(** No iterator is used after its element has been erased if cleanup functions never take a value away; whatever the calls of the fiber are. *)
Theorem C95_defined_partial body os n s : only_stores body -> fiber body n os <> UB s.
Proof.
  intros OS. unfold fiber.
  assert (C : forall o s0 s1, do_op (cleanup body n) o s0 <> UB s1).
  { intros o s0 s1. pose proof (cleanup_grows body OS n) as G. assert (X : forall k t ce, set_fss_data (cleanup body n) k t ce s0 <> UB s1).
    { intros k t ce. unfold set_fss_data. destruct (find k (nodes s0)) as [i|] eqn:F; [|discriminate]. destruct ce; simpl.
      - specialize (G k (n_vp i) s0). destruct (cleanup body n k (n_vp i) s0); simpl in *; try tauto; try discriminate. rewrite (G _ (find_alive _ _ _ F)). discriminate.
      - rewrite (find_alive _ _ _ F). discriminate. }
    destruct o as [k|k t|k|]; simpl; try discriminate.
    - destruct (same _ t); [discriminate|]. specialize (X k t true). destruct (set_fss_data _ k t true s0); simpl; congruence.
    - specialize (X k None false). destruct (set_fss_data _ k None false s0); simpl; congruence. }
  assert (A : forall os0 s0 s1, calls body n os0 s0 <> UB s1).
  { induction os0 as [|o os0 IH]; simpl; intros s0 s1; [discriminate|]. specialize (C o s0 s1). destruct (do_op (cleanup body n) o s0); auto; congruence. }
  specialize (A os init_state). destruct (calls body n os init_state) as [s1| | | |]; simpl; auto; try discriminate.
  unfold terminate. destruct (least _ (nodes s1)) as [nd|] eqn:L; [|discriminate].
  pose proof (loop_grows body OS n n nd s1) as G. destruct (loop _ n nd s1); simpl in *; try discriminate; exfalso; apply G; apply alive_true; exists nd; split; auto; apply (least_some _ _ _ L).
Qed.

(** Three ways to fail. An object stored during terminate() in a pointer object at a lower address is never cleaned up. *)
Definition stores_below (k : nat) (v : option nat) : list op := if k =? 5 then [OReset 3 (Some 8)] else [].
Theorem C95_refuted_leak : exists s, fiber stores_below 9 [OReset 5 (Some 7)] = Done s /\ nodes s = [] /\
  rev (log s) = [EReset 5 None (Some 7); ECleanup 5 (Some 7); EReset 3 None (Some 8); EExit] /\ stores (log s) 3 8 = 1 /\ cleaned (log s) 3 8 = 0 /\ releases (log s) 3 8 = 0.
Proof. eexists. splits; reflexivity. Qed.
(** A cleanup function that calls release() of its own pointer object: the element is erased under the iterator, in reset() and in terminate(). *)
Definition releases_own (k : nat) (v : option nat) : list op := [ORelease k].
Theorem C95_refuted_undefined : (exists s, fiber releases_own 9 [OReset 5 (Some 7)] = UB s) /\ (exists s, fiber releases_own 9 [OReset 5 (Some 7); OReset 5 (Some 8)] = UB s).
Proof. split; eexists; reflexivity. Qed.
(** A cleanup function that calls reset( nullptr) of its own pointer object (or two that call that of each other): endless recursion, any depth of nesting is exhausted. *)
Definition resets_own (k : nat) (v : option nat) : list op := [OReset k None].
Theorem C95_refuted_recursion : forall n, fiber resets_own n [OReset 5 (Some 7)] = Out.
Proof.
  assert (H : forall n lg, cleanup resets_own n 5 (Some 7) (mkSt [mkNode 0 5 (Some 7)] 1 lg) = Out).
  { induction n as [|n IH]; intros lg; auto. change (run (cleanup resets_own n) [OReset 5 None] (mkSt [mkNode 0 5 (Some 7)] 1 (ECleanup 5 (Some 7) :: lg)) = Out).
    revert IH. generalize (cleanup resets_own n). intros cl IH. simpl. unfold set_fss_data. simpl. now rewrite IH. }
  intros n. destruct n as [|n]; [reflexivity|]. unfold fiber, terminate. specialize (H (S n)).
  change (calls resets_own (S n) [OReset 5 (Some 7)] init_state) with (Done (mkSt [mkNode 0 5 (Some 7)] 1 [EReset 5 None (Some 7)])).
  remember (cleanup resets_own (S n)) as cl eqn:Ecl. simpl. now rewrite H.
Qed.

(** ** C96. get() does not return a pointer to an object that the cleanup function has destroyed. *)
Theorem C96_live_partial body K os n : upwards body -> looks_up body -> (forall k v, below K (body k v)) -> below K os -> no_throw os -> K <= n ->
  exists s, fiber body n os = Done s /\ live (log s).
Proof. intros U LU B Bo NT Hn. destruct (fiber_ok body U K B n os Hn Bo NT) as (s & E & _ & L & _). eauto. Qed.
(** terminate() leaves a pointer in the storage after its object has been destroyed. *)
Definition looks_below (k : nat) (v : option nat) : list op := if k =? 5 then [OGet 3] else [].
Theorem C96_refuted : exists s, fiber looks_below 9 [OReset 3 (Some 7); OReset 5 (Some 8)] = Done s /\
  rev (log s) = [EReset 3 None (Some 7); EReset 5 None (Some 8); ECleanup 3 (Some 7); ECleanup 5 (Some 8); EGet 3 (Some 7); EExit] /\ ~ live (log s).
Proof. eexists. splits; [reflexivity|reflexivity|]. simpl. lia. Qed.
(** reset() as well. *)
Definition looks_own (k : nat) (v : option nat) : list op := [OGet k].
Theorem C96_refuted_reset : exists s, calls looks_own 9 [OReset 3 (Some 7); OReset 3 (Some 8)] init_state = Done s /\
  rev (log s) = [EReset 3 None (Some 7); ECleanup 3 (Some 7); EGet 3 (Some 7); EReset 3 (Some 7) (Some 8)] /\ ~ live (log s).
Proof. eexists. splits; [reflexivity|reflexivity|]. simpl. lia. Qed.

(** ** C97. An exception out of a cleanup function. *)
(** It leaves reset() with the storage as it was (so the documented exception is possible), if the cleanup function did nothing else. *)
Theorem C97_reset_partial body n k t x s : body k (Some x) = [OThrow] -> get_fss_data s k = Some x -> t <> Some x ->
  do_op (cleanup body (S n)) (OReset k t) s = Thrown (note (ECleanup k (Some x)) s) /\
  get_fss_data (note (ECleanup k (Some x)) s) k = Some x.
Proof.
  intros B G Ht. split; [|exact G]. unfold do_op. rewrite G. destruct (same (Some x) t) eqn:SM; [apply same_eq in SM; congruence|].
  unfold set_fss_data. unfold get_fss_data in G. destruct (find k (nodes s)) as [i|]; [|discriminate]. rewrite G. simpl. rewrite B. reflexivity.
Qed.
(** The object is still stored, so it is handed to the cleanup function again: by the next reset() or, at the end of the fiber, where the exception ends the program. *)
Definition throws (k : nat) (v : option nat) : list op := [OThrow].
Theorem C97_refuted : exists s, fiber throws 9 [OReset 3 (Some 7); OReset 3 (Some 8)] = Abort s /\
  rev (log s) = [EReset 3 None (Some 7); ECleanup 3 (Some 7); ECleanup 3 (Some 7)] /\ stores (log s) 3 7 = 1 /\ cleaned (log s) 3 7 = 2.
Proof. eexists. splits; reflexivity. Qed.

(** ** Examples *)
(** The hypotheses of C95 and C96: the cleanup function of 3 replaces and releases objects in 5 and 6 and looks at 5; all objects are cleaned up. *)
Definition busy (k : nat) (v : option nat) : list op := if k =? 3 then [OGet 5; OReset 5 (Some 20); ORelease 6] else if k =? 5 then [OReset 6 (Some 30)] else [].
Example ex_busy : upwards busy /\ looks_up busy /\ (forall k v, below 7 (busy k v)) /\ below 7 [OReset 3 (Some 1); OReset 5 (Some 2)] /\ no_throw [OReset 3 (Some 1); OReset 5 (Some 2)] /\
  exists s, fiber busy 7 [OReset 3 (Some 1); OReset 5 (Some 2)] = Done s /\
  rev (log s) = [EReset 3 None (Some 1); EReset 5 None (Some 2); ECleanup 3 (Some 1); EGet 5 (Some 2); ECleanup 5 (Some 2); EReset 6 None (Some 30); EReset 5 (Some 2) (Some 20); ERelease 6 (Some 30);
                 ECleanup 5 (Some 20); EReset 6 None (Some 30); ECleanup 6 (Some 30); EExit].
Proof.
  assert (C : forall k v o, In o (busy k v) -> (k = 3 /\ (o = OGet 5 \/ o = OReset 5 (Some 20) \/ o = ORelease 6)) \/ (k = 5 /\ o = OReset 6 (Some 30))).
  { intros k v o. unfold busy. destruct (Nat.eqb_spec k 3); [|destruct (Nat.eqb_spec k 5)]; simpl; intuition. }
  splits.
  - intros k v o H. apply C in H. destruct H as [[-> [-> |[-> | ->]]]|[-> ->]]; simpl; auto; lia.
  - intros k v j H. apply C in H. destruct H as [[-> [H|[H|H]]]|[-> H]]; inversion H; lia.
  - intros k v o H. apply C in H. destruct H as [[-> [-> |[-> | ->]]]|[-> ->]]; simpl; auto; lia.
  - intros o H. simpl in H. destruct H as [<-|[<-|[]]]; simpl; lia.
  - intros H. simpl in H. destruct H as [H|[H|[]]]; discriminate.
  - eexists. split; reflexivity.
Qed.
Example ex_only_stores : only_stores stores_below.
Proof. intros k v o. unfold stores_below. destruct (k =? 5); simpl; [|tauto]. intros [<-|[]]. exact I. Qed.
Example ex_throws : exists s, calls throws 9 [OReset 3 (Some 7)] init_state = Done s /\ get_fss_data s 3 = Some 7 /\ throws 3 (Some 7) = [OThrow].
Proof. eexists. splits; reflexivity. Qed.

Print Assumptions C95_exactly_once_partial.
Print Assumptions C95_defined_partial.
Print Assumptions C96_live_partial.
Print Assumptions C97_reset_partial.
