(** Theorems about the lock-free ready queue under the C++ memory model (C98). *)
From Coq Require Import List Arith Bool Lia.
From Verif Require Import Base SpmcWeak SpmcWeakSpec SpmcWeakFacts.
Import ListNotations.

(** As long as no thief accesses an array whose construction does not happen before the access, no fiber is given out twice, and only fibers that were pushed. *)
Theorem C98_exactly_once_partial : forall pinned c s n,
  0 < c -> reachable (step pinned) (init_state c) s -> race_free (log s) ->
  takes (log s) n <= 1 /\ (0 < takes (log s) n -> pushed (log s) n).
Proof. intros pinned c s n Hc R RF. exact (i_once s (inv_reach pinned c s Hc R RF) n). Qed.

(** The call of push() happens before the steal() that returns the fiber: the thief may use it. *)
Theorem C98_published_partial : forall pinned c s u n hb,
  0 < c -> reachable (step pinned) (init_state c) s -> race_free (log s) ->
  In (ESteal u (Some (n, hb))) (log s) -> hb = true.
Proof. intros pinned c s u n hb Hc R RF. exact (i_steal s (inv_reach pinned c s Hc R RF) u n hb). Qed.

(** No fiber is lost: pop() returns null only if everything pushed before has been given out. *)
Theorem C98_pop_empty_partial : forall pinned c s l1 l2 n,
  0 < c -> reachable (step pinned) (init_state c) s -> race_free (log s) ->
  log s = l1 ++ EPop None :: l2 -> pushed l2 n -> takes l2 n = 1.
Proof. intros pinned c s l1 l2 n Hc R RF. exact (none_reach pinned c s Hc R RF l1 l2 n). Qed.

(** A thief finds a null pointer only if another thread has taken the element at its index since it loaded top_. *)
Theorem C98_null_partial : forall pinned c s u k s' t a,
  0 < c -> reachable (step pinned) (init_state c) s -> step pinned s (Go u k) = Some s' -> race_free (log s') ->
  thief s u = SCell t a -> thief s' u = TCrashed -> t < top s.
Proof.
  intros pinned c s u k s' t a Hc R E RF T T'. destruct (step_log _ _ _ _ E) as (e & X). assert (RF0 : race_free (log s)) by (rewrite X in RF; eapply race_free_app; eauto).
  pose proof (inv_reach pinned c s Hc R RF0) as I. pose proof (i_thief s I u) as TK. unfold thief_ok in TK. rewrite T in TK. destruct TK as (A & B & C & D).
  pose proof (i_top s I) as (_ & _ & T3 & _). destruct (Nat.eq_dec t (top s)) as [->|]; [|lia]. exfalso.
  destruct (B eq_refl) as [B1 B2]. simpl in E. unfold thief_step in E. rewrite T in E.
  destruct (nth_error (visible (to_ s u) (cells s a (top s mod cap s a))) k) as [[q [m|]]|] eqn:N; [| |discriminate]; injection E as <-; simpl in T'; rewrite upd_same in T'; [discriminate|].
  apply nth_visible in N. pose proof (hi_hic s I) as HH.
  assert (HB : created s a < to_ s u). { destruct (Nat.ltb_spec (created s a) (to_ s u)) as [|L]; auto. exfalso. apply (RF u a). simpl. right. left. destruct (Nat.ltb_spec (created s a) (to_ s u)); [lia|auto]. }
  pose proof (i_cc s I (to_ s u) (top s) a (q, None) (proj1 (i_to s I u)) (le_n _) ltac:(lia) B2 (C HB) N) as Y. discriminate.
Qed.

(** While the first array has not been replaced, no such access is possible, so all of the above holds. *)
Theorem C98_fixed_array_partial : forall pinned c s,
  reachable (step pinned) (init_state c) s -> no_growth (log s) -> race_free (log s).
Proof. intros pinned c s R NG. exact (proj2 (proj2 (proj2 (created_reach pinned c s R)) NG)). Qed.

(** ** What goes wrong *)
Definition none (c : nat) : bool := false.
Definition push_tr (c : nat) := [Push c; Own 0; Own 0; Own 0; Own 0; Own 0].
(** The queue has one cell. Thief 1 has found bottom_ = 1 when the owner pushes a second fiber, which replaces the array. array_ is stored with memory_order_relaxed: thief 1 loads the new pointer and nothing makes the construction of the array visible to it. *)
Definition grow_tr := push_tr 7 ++ [Steal 1 0; Go 1 0; Go 1 0; Push 8; Own 0; Own 0; Go 1 0].

(** A thief accesses an array although its construction does not happen before (a data race), while nobody has taken anything. *)
Theorem C98_refuted_array : exists s, reachable (step none) (init_state 1) s /\
  ~ race_free (log s) /\ top s = 0 /\ forall n, takes (log s) n = 0.
Proof.
  apply (reach_by (step none) (init_state 1) (grow_tr ++ [Go 1 0])). vm_compute. splits; auto. intros H. apply (H 1 1). auto.
Qed.
(** ... and finds a null pointer there, which it dereferences, although the fiber at its index is still in the queue. *)
Theorem C98_refuted_null : exists s, reachable (step none) (init_state 1) s /\
  thief s 1 = TCrashed /\ In EAssert (log s) /\ pushed (log s) 0 /\ top s = 0 /\ forall n, takes (log s) n = 0.
Proof.
  apply (reach_by (step none) (init_state 1) (grow_tr ++ [Go 1 1])). vm_compute. splits; auto 10.
Qed.
(** Without any growth: a thief that was overtaken finds a fiber that was pushed later and asks for its type although its construction does not happen before. *)
Definition over_tr := push_tr 7 ++ [Steal 1 0; Go 1 0; Go 1 0; Go 1 0; Pop; Own 0; Own 0; Own 0; Own 0; Own 0] ++ [Push 8; Own 1; Own 0; Own 0] ++ [Go 1 0; Go 1 0].
Theorem C98_refuted_access : exists s, reachable (step none) (init_state 1) s /\
  no_growth (log s) /\ exists u n, In (EAccess u n false) (log s).
Proof.
  apply (reach_by (step none) (init_state 1) over_tr). vm_compute. split; [intuition discriminate|exists 1, 1; auto].
Qed.

(** The hypotheses are met by an execution with growth in which both threads take fibers and pop() then finds nothing. *)
Definition good_tr := push_tr 7 ++ push_tr 8 ++ [Steal 1 0; Go 1 0; Go 1 0; Go 1 0; Go 1 0; Go 1 0; Go 1 0] ++ [Pop; Own 0; Own 0; Own 1; Own 0; Own 0; Pop; Own 0; Own 0; Own 2].
Example C98_example : exists s, reachable (step none) (init_state 1) s /\ race_free (log s) /\ In EGrow (log s) /\
  (exists l2, log s = EPop None :: l2 /\ pushed l2 0 /\ pushed l2 1) /\ In (ESteal 1 (Some (0, true))) (log s) /\ In (EPop (Some 1)) (log s).
Proof.
  apply (reach_by (step none) (init_state 1) good_tr). vm_compute. splits; auto 20.
  - intros u a. intuition discriminate.
  - eexists. splits; [reflexivity|simpl; auto 20|simpl; auto 20].
Qed.
(** A thief that was overtaken finds a null pointer in the new array, without any race: element 0 is stolen by thief 2, three more are pushed. *)
Definition push1_tr (c : nat) := [Push c; Own 1; Own 0; Own 0; Own 0; Own 0].
Definition null_tr := push_tr 7 ++ [Steal 1 0; Steal 2 0; Go 2 0; Go 2 0; Go 2 0; Go 2 0; Go 2 0; Go 2 0] ++ push1_tr 8 ++ push1_tr 9 ++ push1_tr 10 ++ [Go 1 0; Go 1 0; Go 1 0].
Example C98_null_example : exists s, reachable (step none) (init_state 2) s /\
  thief s 1 = SCell 0 1 /\ top s = 1 /\ race_free (log s) /\
  exists k s', step none s (Go 1 k) = Some s' /\ thief s' 1 = TCrashed /\ race_free (log s').
Proof.
  apply (reach_by (step none) (init_state 2) null_tr). vm_compute. splits; auto.
  - intros u a. intuition discriminate.
  - exists 0. eexists. splits; [reflexivity|reflexivity|]. intros u a. simpl. intuition discriminate.
Qed.

Print Assumptions C98_exactly_once_partial.
Print Assumptions C98_published_partial.
Print Assumptions C98_pop_empty_partial.
Print Assumptions C98_null_partial.
Print Assumptions C98_fixed_array_partial.
Print Assumptions C98_refuted_array.
Print Assumptions C98_refuted_null.
Print Assumptions C98_refuted_access.
