(** C102: creating a fiber succeeds or has no effect, and what a fiber owns is destroyed exactly once. C103: after join() no copy of the function object and of the arguments is left. *)
From Coq Require Import List Arith Bool Lia.
From Verif Require Import Base FiberMake FiberMakeSpec FiberMakeFacts.
Import ListNotations.

(** C102, at most once: no object is destroyed twice, none is destroyed that was not made. *)
Theorem C102_once : forall n given s, reachable (step n given) (init_state given) s ->
  forall r, gone r (log s) <= made r (log s) <= 1.
Proof.
  intros n g s R r. pose proof (inv_reach n g s R) as I. rewrite (i_made _ _ s I), (i_gone _ _ s I).
  destruct I as [_ _ _ Ipre _ Is _ Ik]. unfold mkM, mkG.
  destruct (at_ s) as [| |k|[[|k]|]| | |k| | |[k|]], r; cbn -[Nat.ltb Nat.eqb] in *; try (destruct (Ipre eq_refl) as (_ & _ & Hf & _); rewrite Hf);
    try (destruct (props s)); repeat match goal with |- context [?a <? ?b] => destruct (Nat.ltb_spec a b) | |- context [?a =? ?b] => destruct (Nat.eqb_spec a b) end;
    try (destruct (freed s)); cbn; lia.
Qed.

(** C102, no leak: when the last reference to a fiber has been released, nothing is left: its function object, its arguments, every property object it had and its stack have been destroyed. What is missing: the creation that throws ([C102_refuted]). *)
Theorem C102_released_partial : forall n given s, reachable (step n given) (init_state given) s ->
  freed s = true -> nothing_left (log s).
Proof.
  intros n g s R F r. pose proof (inv_reach n g s R) as I. rewrite (i_made _ _ s I), (i_gone _ _ s I).
  pose proof (i_noprops _ _ s I F) as P. destruct I as [_ _ _ Ipre If Is _ _].
  destruct (created (at_ s)) eqn:C; [|destruct (Ipre eq_refl) as (_ & _ & X & _); congruence].
  assert (A : at_ s = Ended).
  { specialize (If eq_refl). rewrite F in If. symmetry in If. apply negb_true_iff, orb_false_iff in If.
    destruct (at_ s); try discriminate; auto; specialize (Is eq_refl); destruct If; rewrite Is in *; congruence. }
  unfold mkM, mkG. rewrite A, F, P. destruct r; cbn; auto.
Qed.

(** C102, references: the context is destroyed exactly when the fiber has been created, its handle joined or detached, and the fiber has terminated and been released by the dispatcher. *)
Theorem C102_when_released : forall n given s, reachable (step n given) (init_state given) s ->
  freed s = true <-> In Created (log s) /\ handle s = false /\ self s = false.
Proof.
  intros n g s R. pose proof (inv_reach n g s R) as I. pose proof (hinv_reach n g s R) as H. split.
  - intros F. destruct (created (at_ s)) eqn:C.
    + pose proof (i_free _ _ s I C) as X. rewrite F in X. symmetry in X. apply negb_true_iff, orb_false_iff in X. split; auto. now apply (h_created _ s H).
    + destruct (i_pre _ _ s I C) as (_ & _ & X & _). congruence.
  - intros (Cr & A & B). destruct (created (at_ s)) eqn:C.
    + rewrite (i_free _ _ s I C), A, B. reflexivity.
    + apply (in_plain Created) in Cr; auto. apply (o_created s (oinv_reach n g s R)) in Cr. congruence.
Qed.

(** C102, order: the function is called after the creation, while the copies it is called with exist; the fiber counts as terminated after they have been destroyed; the stack goes last. *)
Theorem C102_order : forall n given s, reachable (step n given) (init_state given) s ->
  forall a b,
  (log s = a ++ Created :: b -> made Stack b = 1 /\ gone Stack b = 0 /\ made MemFn b = 1 /\ forall i, i < n -> made (MemArg i) b = 1) /\
  (log s = a ++ Invoked :: b -> In Created b /\ made LocFn b = 1 /\ gone LocFn b = 0 /\ forall i, i < n -> made (LocArg i) b = 1 /\ gone (LocArg i) b = 0) /\
  (log s = a ++ Terminated :: b -> In Invoked b /\ gone LocFn b = 1 /\ forall i, i < n -> gone (LocArg i) b = 1) /\
  (log s = a ++ Gone Stack :: b -> In Terminated b /\ forall r, r <> Stack -> gone r b = made r b).
Proof.
  intros n g s R a b. pose proof (h_hist _ s (hinv_reach n g s R)) as H. splits; intros E; rewrite E in H; apply hist_split in H; cbn [when] in H.
  - destruct H as (A & B & C & D & K). splits; auto. intros i L. now apply K.
  - exact H.
  - exact H.
  - exact H.
Qed.

(** C102, a creation that throws: all copies made so far are destroyed again, and no fiber has been created or run. What is missing: the stack and the property object of the caller ([C102_refuted]). *)
Theorem C102_throw_partial : forall n given s, reachable (step n given) (init_state given) s ->
  In Threw (log s) ->
  (forall r, is_copy r = true -> gone r (log s) = made r (log s)) /\ handle s = false /\ ~ In Created (log s) /\ ~ In Invoked (log s).
Proof.
  intros n g s R T. 
  apply (in_plain Threw) in T; auto. destruct (o_threw s (oinv_reach n g s R) T) as [k A]. pose proof (inv_reach n g s R) as I.
  destruct (i_pre _ _ s I) as (B & _ & F & _); [now rewrite A|].
  assert (NC : ~ In Created (log s)).
  { intros C. pose proof (C102_when_released n g s R) as W. destruct (i_pre _ _ s I) as (X & Y & Z & _); [now rewrite A|].
    assert (freed s = true) by (apply W; auto). congruence. }
  splits; auto.
  - intros r C. rewrite (i_made _ _ s I), (i_gone _ _ s I). unfold mkM, mkG. rewrite A, F. destruct k as [[|k]|], r; try discriminate; auto.
  - intros C. apply in_split in C. destruct C as (a & b & E). destruct (C102_order n g s R a b) as (_ & X & _). specialize (X E). apply NC. rewrite E. apply in_or_app. right. right. apply X.
Qed.

(** C102 is false of the code: if copying the function object or an argument throws, the stack that has been allocated for the fiber is never freed, and the property object passed by the caller, which the fiber would have owned, is not deleted. *)
Theorem C102_refuted : exists n given s, reachable (step n given) (init_state given) s /\
  over s /\ In Threw (log s) /\ made Stack (log s) = 1 /\ gone Stack (log s) = 0 /\ made (Props 0) (log s) = 1 /\ gone (Props 0) (log s) = 0.
Proof.
  exists 1, true. apply (reach_by (step 1 true) (init_state true) [Copy true; Copy true; Copy false]). vm_compute. splits; auto. right. eauto.
Qed.

(** A fiber with two arguments whose property object is replaced, joined and released. *)
Example C102_case : exists s, reachable (step 2 true) (init_state true) s /\ freed s = true /\ In Created (log s) /\ In Invoked (log s) /\ In (Gone Stack) (log s) /\ In (Gone (Props 1)) (log s).
Proof.
  apply (reach_by (step 2 true) (init_state true) [Copy true; Copy true; Copy true; Copy true; Ctor; Start; Copy true; Replace; Copy true; Copy true; Call; Return true; Join; Reap]).
  vm_compute. splits; auto 20.
Qed.
Example C102_throw_case : exists s, reachable (step 2 false) (init_state false) s /\ In Threw (log s) /\ made (MemArg 0) (log s) = 1 /\ gone (MemArg 0) (log s) = 1.
Proof. apply (reach_by (step 2 false) (init_state false) [Copy true; Copy true; Copy true; Copy false]). vm_compute. splits; auto. Qed.

(** C103, the copies the function was called with are gone when join() returns. What is missing: the members of the context ([C103_refuted]). *)
Theorem C103_locals_partial : forall n given s, reachable (step n given) (init_state given) s ->
  forall a b, log s = a ++ Joined :: b ->
  In Terminated b /\ gone LocFn b = 1 /\ forall i, i < n -> gone (LocArg i) b = 1.
Proof.
  intros n g s R a b E. pose proof (h_hist _ s (hinv_reach n g s R)) as H. pose proof H as H0. rewrite E in H. apply hist_split in H. cbn [when] in H.
  split; auto. apply in_split in H. destruct H as (c & d & ->).
  destruct (C102_order n g s R (a ++ Joined :: c) d) as (_ & _ & X & _). rewrite <- app_assoc in X. specialize (X E).
  destruct X as (_ & X1 & X2).
  assert (Up : forall r, gone r d = 1 -> gone r (c ++ Terminated :: d) = 1).
  { intros r D. pose proof (C102_once n g s R r) as O. rewrite E in O.
    rewrite !gone_app, !gone_cons, gone_app, gone_cons in O. rewrite gone_app, gone_cons. cbn in *. lia. }
  split; auto.
Qed.

(** C103, after the dispatcher has also released the terminated fiber, no copy is left at all. *)
Theorem C103_reaped_partial : forall n given s, reachable (step n given) (init_state given) s ->
  In Joined (log s) -> self s = false -> forall r, is_copy r = true -> gone r (log s) = made r (log s).
Proof.
  intros n g s R J S r _. apply (C102_released_partial n g); auto. pose proof (inv_reach n g s R) as I.
  apply (C102_when_released n g s R).
  apply in_split in J. destruct J as (a & b & E).
  assert (Cr : In Created (log s)).
  { destruct (C103_locals_partial n g s R a b E) as (T & _). apply in_split in T. destruct T as (c & d & ->).
    destruct (C102_order n g s R (a ++ Joined :: c) d) as (_ & _ & X & _). rewrite <- app_assoc in X. specialize (X E). destruct X as (X & _).
    apply in_split in X. destruct X as (u & v & ->).
    destruct (C102_order n g s R ((a ++ Joined :: c) ++ Terminated :: u) v) as (_ & X & _). rewrite <- !app_assoc in X. specialize (X E).
    destruct X as (X & _). rewrite E. do 3 (apply in_or_app; right; right). exact X. }
  splits; auto. apply (o_joined s (oinv_reach n g s R)). apply (proj1 (in_plain Joined (log s) eq_refl)). rewrite E. apply in_or_app; right; now left.
Qed.

(** C103 is false of the code: the members fn_ and arg_ of the context are moved from, not destroyed, when the function is called; when join() has returned they still exist (their destructors run whenever the dispatcher releases the fiber). *)
Theorem C103_refuted : exists n given s, reachable (step n given) (init_state given) s /\
  In Joined (log s) /\ made MemFn (log s) = 1 /\ gone MemFn (log s) = 0 /\ made (MemArg 0) (log s) = 1 /\ gone (MemArg 0) (log s) = 0.
Proof.
  exists 1, false. apply (reach_by (step 1 false) (init_state false) [Copy true; Copy true; Copy true; Ctor; Start; Copy true; Copy true; Call; Return true; Join]).
  vm_compute. splits; auto.
Qed.
Example C103_case : exists s, reachable (step 1 false) (init_state false) s /\ In Joined (log s) /\ self s = false /\ gone MemFn (log s) = 1.
Proof.
  apply (reach_by (step 1 false) (init_state false) [Copy true; Copy true; Copy true; Ctor; Start; Copy true; Copy true; Call; Return true; Join; Reap]).
  vm_compute. splits; auto 20.
Qed.
Print Assumptions C102_once.
Print Assumptions C102_released_partial.
Print Assumptions C102_when_released.
Print Assumptions C102_order.
Print Assumptions C102_throw_partial.
Print Assumptions C102_refuted.
Print Assumptions C103_locals_partial.
Print Assumptions C103_reaped_partial.
Print Assumptions C103_refuted.
