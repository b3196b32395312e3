(** C104: a fiber has one handle until it is joined or detached. *)
From Coq Require Import List Arith Bool Lia.
From Verif Require Import Base Handle HandleSpec HandleFacts.
Import ListNotations.

(** C104, at most one handle refers to a fiber, however handles are moved and exchanged. *)
Theorem C104_unique : forall s, reachable step init_state s ->
  forall a b c, refers s a c -> refers s b c -> a = b.
Proof. intros s R. exact (i_uniq s (inv_reach s R)). Qed.
Print Assumptions C104_unique.

(** C104, the context of a fiber is destroyed exactly when no handle refers to it and the scheduler has released it, which it does after the fiber has terminated; no destroyed context is accessed through a handle. *)
Theorem C104_lifetime : forall s, reachable step init_state s ->
  (forall c, In (EFree c) (log s) <-> made (log s) c /\ (forall h, ~ refers s h c) /\ reaped s c = true) /\
  (forall c, reaped s c = true -> In (EEnd c) (log s)) /\
  (forall c, ~ In (EDangling c) (log s)).
Proof.
  intros s R. pose proof (inv_reach s R) as I. splits.
  - intros c. rewrite (l_free s I), (l_made s I). split.
    + intros (C & Z). split; auto. assert (N : forall h, ~ refers s h c) by (intros h X; destruct (i_held s I h c X); lia).
      split; auto. pose proof (i_free s I c C N) as Y. unfold self in Y. destruct (reaped s c); auto. lia.
    + intros (C & N & Rp). split; auto. rewrite (i_free s I c C N). unfold self. now rewrite Rp.
  - intros c X. now apply (l_end s I), (i_reap s I).
  - exact (l_dang s I).
Qed.
Print Assumptions C104_lifetime.

(** C104, join() returns only after the fiber that the handle referred to when it was called has terminated. *)
Theorem C104_join : forall s, reachable step init_state s ->
  forall f h c, In (EJoined f h c) (log s) -> In (EEnd c) (log s).
Proof. intros s R f h c X. pose proof (inv_reach s R) as I. apply (l_end s I). eapply (l_joined s I); eauto. Qed.
Print Assumptions C104_join.

(** C104, std::terminate() is called by the destructor and by the move assignment, exactly if the handle is joinable (also if a joinable handle is assigned to itself), and by nothing else. *)
Theorem C104_abort : forall s l s', reachable step init_state s -> step s l = Some s' ->
  (aborted s' = true <-> exists f h c, refers s h c /\ (l = Destroy f h \/ exists r, l = Assign f h r)).
Proof.
  intros s l s' R E. pose proof (inv_reach s R) as I. unfold step in E. destruct (aborted s) eqn:A; [discriminate|].
  assert (RA : forall x h, inv x -> aborted x = false -> aborted (reset x h) = false) by (intros x h Ix Ax; destruct (reset_effect x h Ix) as (_ & _ & _ & X & _); congruence).
  assert (FA : forall x f h c, inv x -> aborted x = false -> ended x c = true -> aborted (finish_join x f h c) = false).
  { intros x f h c Ix Ax Ex. unfold finish_join. destruct (hnd x h) as [[d|]|]; auto. apply RA; auto. apply inv_emit; auto. repeat constructor; auto. }
  destruct l as [f h|f h|f d r|f d r|f a b|f h|f h|f h|f|c|c].
  4: { destruct (can_act s f); [|discriminate]. destruct (hnd s d) as [[x|]|] eqn:H; [|destruct (Nat.eqb d r)|discriminate]; (destruct (hnd s r) eqn:H2; [|discriminate]); injection E as <-.
       - split; auto. intros _. exists f, d, x. split; [exact H|eauto].
       - rewrite A. split; [discriminate|]. intros (g & y & c & X & [Y|(z & Y)]); [discriminate|]. injection Y as -> -> ->. unfold refers in X. congruence.
       - cbn. rewrite A. split; [discriminate|]. intros (g & y & c & X & [Y|(z & Y)]); [discriminate|]. injection Y as -> -> ->. unfold refers in X. congruence. }
  5: { destruct (can_act s f); [|discriminate]. destruct (hnd s h) as [[x|]|] eqn:H; [| |discriminate]; injection E as <-.
       - split; auto. intros _. exists f, h, x. split; [exact H|eauto].
       - cbn. rewrite A. split; [discriminate|]. intros (g & y & c & X & [Y|(z & Y)]); [|discriminate]. injection Y as -> ->. unfold refers in X. congruence. }
  all: assert (Z : aborted s' = false); [|rewrite Z; split; [discriminate|]; intros (g & y & c' & X & [Y|(z & Y)]); discriminate].
  - destruct (can_act s f); [|discriminate]. destruct (hnd s h); [discriminate|]. now injection E as <-.
  - destruct (can_act s f); [|discriminate]. destruct (hnd s h); [discriminate|]. now injection E as <-.
  - destruct (can_act s f); [|discriminate]. destruct (hnd s d); [discriminate|]. destruct (hnd s r); [|discriminate]. now injection E as <-.
  - destruct (can_act s f); [|discriminate]. destruct (hnd s a); [|discriminate]. destruct (hnd s b); [|discriminate]. now injection E as <-.
  - destruct (can_act s f); [|discriminate]. destruct (hnd s h) as [[x|]|]; [| |discriminate]; injection E as <-; auto. apply RA; auto. apply inv_emit; auto. repeat constructor.
  - destruct (can_act s f); [|discriminate]. unfold join in E. destruct (hnd s h) as [[c|]|]; [| |discriminate]; [|now injection E as <-].
    destruct (Nat.eqb c f); [now injection E as <-|]. destruct (Nat.eqb (refs s c) 0); [now injection E as <-|]. destruct (ended s c) eqn:N; injection E as <-; auto.
  - destruct (joining s f) as [[h c]|]; [|discriminate]. destruct (ended s c) eqn:N; [|discriminate]. injection E as <-. apply FA; auto. apply inv_joining; auto. discriminate.
  - destruct (_ && _) in E; [|discriminate]. destruct (joining s c); [discriminate|]. now injection E as <-.
  - destruct (_ && _) in E; [|discriminate]. injection E as <-. unfold release. cbn. destruct (refs s c) as [|[|k]]; auto.
Qed.
Print Assumptions C104_abort.

(** C104, errors of join() and detach(): join() on a handle without fiber and detach() on one report invalid_argument, join() of a fiber by itself reports resource_deadlock_would_occur; nothing changes. *)
Theorem C104_errors : forall s f h, reachable step init_state s -> aborted s = false -> can_act s f = true ->
  (hnd s h = Some None -> step s (Join f h) = Some (emit s [EInvalid f h]) /\ step s (Detach f h) = Some (emit s [EInvalid f h])) /\
  (refers s h f -> step s (Join f h) = Some (emit s [EDeadlock f h])).
Proof.
  intros s f h R A C. unfold step, join, refers. rewrite A, C. splits; intros X; rewrite X; auto. now rewrite Nat.eqb_refl.
Qed.
Print Assumptions C104_errors.

(** C104, in executions in which no fiber stores into a handle or destroys it while another fiber waits in join() called on it: a fiber that has neither terminated nor been detached still has its handle; join() gives up the reference to a terminated fiber only, and never continues on a destroyed handle.
    What is missing: other executions ([C104_refuted], [C104_refuted_destroyed]). *)
Theorem C104_kept_partial : forall s, quiet s ->
  (forall c, made (log s) c -> ~ In (EEnd c) (log s) -> ~ detached (log s) c -> exists h, refers s h c) /\
  (forall f h c, In (EReset f h c) (log s) -> In (EEnd c) (log s)) /\
  (forall f h, ~ In (EBadHandle f h) (log s)).
Proof.
  intros s Q. pose proof (inv_reach s (quiet_reach s Q)) as I. pose proof (qinv_quiet s Q) as [_ K B R]. splits; auto.
  - intros c C E D. apply K; auto.
    + now apply (l_made s I).
    + destruct (ended s c) eqn:X; auto. apply (l_end s I) in X. tauto.
  - intros f h c X. apply (l_end s I). eauto.
Qed.
Print Assumptions C104_kept_partial.

(** C104 is false of the code: two fibers join the same handle; the first one to return starts a new fiber and stores it in the handle; the second one then resets the handle, so that the new fiber, which runs, has lost its handle without having been joined or detached. *)
Theorem C104_refuted : exists s, reachable step init_state s /\
  exists c, made (log s) c /\ ~ In (EEnd c) (log s) /\ ~ detached (log s) c /\ hnd s 0 = Some None /\ hnd s 1 = Some (Some 2) /\ hnd s 2 = Some None /\ In (EReset 2 0 c) (log s) /\ forall h, ~ refers s h c.
Proof.
  assert (W : exists s, reachable step init_state s /\ log s = [EJoined 2 0 1; EReset 2 0 3; ECreate 0 2 3; EJoined 0 0 1; EReset 0 0 1; EEnd 1; EWait 0 0 1; EWait 2 0 1; ECreate 0 1 2; ECreate 0 0 1]
            /\ hnd s 0 = Some None /\ hnd s 1 = Some (Some 2) /\ hnd s 2 = Some None /\ refs s 3 = 1 /\ reaped s 3 = false).
  { apply (reach_by step init_state [Create 0 0; Create 0 1; Join 2 0; Join 0 0; End 1; Resume 0; Create 0 2; Assign 0 0 2; Resume 2]). vm_compute. splits; auto. }
  destruct W as (s & R & L & H0 & H1 & H2 & F & P). exists s. split; auto. exists 3. rewrite L. splits; auto.
  - exists 0, 2. cbn. auto 20.
  - cbn. intros X. repeat (destruct X as [X|X]; try discriminate); auto.
  - intros (f & h & X). cbn in X. repeat (destruct X as [X|X]; try discriminate); auto.
  - cbn. auto.
  - intros h X. destruct (i_held s (inv_reach s R) h 3 X) as (_ & Y). unfold self in Y. rewrite P in Y. lia.
Qed.
Print Assumptions C104_refuted.

(** C104 is false of the code: the first of two joining fibers to return may destroy the handle (it is no longer joinable); the second one then continues in join() on the destroyed handle. *)
Theorem C104_refuted_destroyed : exists s, reachable step init_state s /\ In (EBadHandle 2 0) (log s) /\ aborted s = false.
Proof.
  apply (reach_by step init_state [Create 0 0; Create 0 1; Join 2 0; Join 0 0; End 1; Resume 0; Destroy 0 0; Resume 2]). vm_compute. splits; auto.
Qed.
Print Assumptions C104_refuted_destroyed.

(** Two fibers join the same handle, and nothing is stored in it. *)
Example C104_case : exists s, quiet s /\ In (EJoined 2 0 1) (log s) /\ In (EJoined 0 0 1) (log s) /\ In (EFree 1) (log s) /\ made (log s) 2 /\ ~ In (EEnd 2) (log s) /\ ~ detached (log s) 2.
Proof.
  assert (Qs : forall ls s, quiet s -> (forall s' l r, In (l, r) (map (fun l => (l, tt)) ls) -> forall h, being_joined s' h -> ~ writes l h) -> forall s2, exec step s ls = Some s2 -> quiet s2).
  { induction ls as [|l ls IH]; cbn; intros s Q N s2 E; [congruence|]. destruct (step s l) as [s1|] eqn:E1; [|discriminate].
    apply (IH s1); auto. - apply (q_step s l s1); auto. intros h B. apply (N s l tt); auto. - intros s' x r X. apply (N s' x r). now right. }
  assert (Q1 : exists s1, exec step init_state [Create 0 0; Create 0 1] = Some s1 /\ quiet s1).
  { destruct (exec step init_state [Create 0 0; Create 0 1]) as [s1|] eqn:E; [|vm_compute in E; discriminate]. exists s1. split; auto.
    cbn [exec] in E. destruct (step init_state (Create 0 0)) as [u|] eqn:E1; [|discriminate]. destruct (step u (Create 0 1)) as [v|] eqn:E2; [|discriminate].
    injection E as <-. apply (q_step u (Create 0 1)); auto.
    - apply (q_step init_state (Create 0 0)); auto; [constructor|]. intros h (f & c & X). discriminate.
    - intros h (f & c & X). vm_compute in E1. injection E1 as <-. discriminate. }
  destruct Q1 as (s1 & E1 & Q1).
  destruct (exec step s1 [Join 2 0; Join 0 0; End 1; Resume 0; Resume 2; Reap 1]) as [s2|] eqn:E2.
  - exists s2. split.
    + apply (Qs _ s1 Q1) with (2 := E2). intros s' l r X h _. cbn in X. repeat (destruct X as [X|X]; [injection X as <- <-; cbn; tauto|]). destruct X.
    + vm_compute in E1. injection E1 as <-. vm_compute in E2. injection E2 as <-. cbn [log]. splits; try (cbn; auto 20; fail).
      * exists 0, 1. cbn. auto 20.
      * cbn. intros X. repeat (destruct X as [X|X]; try discriminate); auto.
      * intros (f & h & X). cbn in X. repeat (destruct X as [X|X]; try discriminate); auto.
  - exfalso. vm_compute in E1. injection E1 as <-. vm_compute in E2. discriminate.
Qed.
(** A joinable handle that is assigned to itself. *)
Example C104_abort_case : exists s, reachable step init_state s /\ refers s 0 1 /\ exists s', step s (Assign 0 0 0) = Some s' /\ aborted s' = true.
Proof. apply (reach_by step init_state [Create 0 0]). vm_compute. split; auto. eexists. split; reflexivity. Qed.
