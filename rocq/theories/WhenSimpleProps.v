(** C114, C115: wait_first_simple(), wait_all_simple() and wait_all_members() of examples/wait_stuff.cpp. *)
From Coq Require Import List Arith Bool Lia.
From Verif Require Import Base WhenSimple WhenSimpleSpec WhenSimpleFacts.
Import ListNotations.

(** C114 is false: without functions wait_first_simple() does not return immediately but waits for ever for a notification. *)
Theorem C114_refuted : exists s, reachable (step FirstSimple 0 (fun _ => true)) (init_state FirstSimple) s /\ stuck FirstSimple 0 (fun _ => true) s /\ ~ call_over s.
Proof.
  exists (mkSt (fun _ => PRun) CSleep false 0 []). splits.
  - exists [Caller]. reflexivity.
  - intros [i|i|]; reflexivity.
  - intros (e & [] & _).
Qed.
Print Assumptions C114_refuted.

(** C114: wait_first_simple() returns only if a function has ended. *)
Theorem C114_first_partial : forall n ok s, reachable (step FirstSimple n ok) (init_state FirstSimple) s -> call_over s -> exists i, i < n /\ has_ended s i.
Proof.
  intros n ok s R O. pose proof (inv_reach FirstSimple n ok s R) as Iv. destruct O as (e & X & Y). pose proof (i_res _ _ _ s Iv e X) as M. destruct e as [i|is|i]; [destruct Y| |destruct M; discriminate].
  destruct (i_kind _ _ _ s Iv) as (_ & Rd & _). apply Rd in M. destruct M as (i & P). exists i.
  assert (Z : has_ended s i). { apply (i_run _ _ _ s Iv). destruct (Nat.ltb_spec i n) as [L|L]; [split; auto; destruct P as [-> | ->]; auto|]. rewrite (i_out _ _ _ s Iv i L) in P. destruct P; discriminate. }
  split; auto. apply (i_run _ _ _ s Iv) in Z. tauto.
Qed.
Print Assumptions C114_first_partial.

(** C114: wait_all_simple() returns only if all functions have ended. *)
Theorem C114_all_partial : forall n ok s, reachable (step AllSimple n ok) (init_state AllSimple) s -> call_over s -> forall i, i < n -> has_ended s i.
Proof.
  intros n ok s R (e & X & Y) i Hi. pose proof (i_res _ _ _ s (inv_reach AllSimple n ok s R) e X) as M. destruct e as [j|is|j]; [destruct Y|apply M; auto|destruct M; discriminate].
Qed.
Print Assumptions C114_all_partial.

(** C114: if all functions end, wait_all_simple() returns; wait_first_simple() does with at least one function. Both end after a bounded number of steps. *)
Theorem C114_returns_partial : forall k n ok tr s, (k = AllSimple \/ k = FirstSimple /\ 0 < n) -> exec (step k n ok) (init_state k) tr = Some s -> length tr <= 6 * n + 2 /\ (stuck k n ok s -> call_over s).
Proof.
  intros k n ok tr s Hk E. split; [exact (steps_bound k n ok tr s E)|]. intros St. assert (Iv : inv k n ok s) by (apply inv_reach; exists tr; auto).
  apply (i_over _ _ _ s Iv). apply (stuck_over k n ok s Iv St). destruct Hk as [-> |(-> & ?)]; [discriminate|auto].
Qed.
Print Assumptions C114_returns_partial.

(** C114: wait_first_simple() does not wait for the other functions: as soon as one function has ended and notified, the call returns although no other function goes on. *)
Theorem C114_prompt_partial : forall n ok s i, reachable (step FirstSimple n ok) (init_state FirstSimple) s -> has_ended s i ->
  exists tr s', exec (step FirstSimple n ok) s tr = Some s' /\ call_over s' /\ length tr <= 4 /\ forall j, In (End j) tr -> False.
Proof.
  intros n ok s i R He. pose proof (inv_reach FirstSimple n ok s R) as Iv. pose proof (proj1 (i_run _ _ _ s Iv i) He) as (Hi & Hr). destruct (i_kind _ _ _ s Iv) as (W & Rd & Sl & Gt).
  assert (Done1 : forall s0, cons s0 = CStart -> ready s0 = true -> exists s', exec (step FirstSimple n ok) s0 [Caller] = Some s' /\ call_over s').
  { intros s0 C0 R0. simpl. unfold caller. rewrite C0, R0. eexists. split; [reflexivity|]. eexists. split; [simpl; left; reflexivity|exact I]. }
  destruct (cons s) as [| |got|] eqn:C; [| |destruct (Gt got eq_refl)|exists [], s; splits; auto; try (apply (i_over _ _ _ s Iv); auto); simpl; auto with arith].
  - destruct (ready s) eqn:Rs.
    + destruct (Done1 s C Rs) as (s' & A & B). exists [Caller], s'. splits; auto. intros j [X|[]]. discriminate.
    + assert (P : prod s i = PSet). { specialize (W i). destruct (prod s i) eqn:P; auto; try discriminate; try congruence; (assert (X : false = true) by (apply Rd; eauto)); discriminate. }
      destruct (Done1 (mkSt (upd (prod s) i PNote) (cons s) true (arrived s) (log s)) C eq_refl) as (s' & A & B). exists [Go i; Caller], s'. splits; auto.
      * cbn [exec]. replace (step FirstSimple n ok s (Go i)) with (Some (mkSt (upd (prod s) i PNote) (cons s) true (arrived s) (log s))) by (unfold step; now rewrite P). exact A.
      * intros j [X|[X|[]]]; discriminate.
  - destruct (ready s) eqn:Rs.
    + destruct (Sl eq_refl eq_refl) as (j & P). destruct (Done1 (mkSt (upd (prod s) j PDone) CStart (ready s) (arrived s) (log s)) eq_refl Rs) as (s' & A & B). exists [Go j; Caller], s'. splits; auto.
      * cbn [exec]. replace (step FirstSimple n ok s (Go j)) with (Some (mkSt (upd (prod s) j PDone) CStart (ready s) (arrived s) (log s))) by (unfold step; now rewrite P, C). exact A.
      * intros m [X|[X|[]]]; discriminate.
    + assert (P : prod s i = PSet). { specialize (W i). destruct (prod s i) eqn:P; auto; try discriminate; try congruence; (assert (X : false = true) by (apply Rd; eauto)); discriminate. }
      set (s1 := mkSt (upd (prod s) i PNote) (cons s) true (arrived s) (log s)). set (s2 := mkSt (upd (prod s1) i PDone) CStart true (arrived s) (log s)).
      destruct (Done1 s2 eq_refl eq_refl) as (s' & A & B). exists [Go i; Go i; Caller], s'. splits; auto.
      * cbn [exec]. replace (step FirstSimple n ok s (Go i)) with (Some s1) by (unfold step; now rewrite P). replace (step FirstSimple n ok s1 (Go i)) with (Some s2) by (unfold step, s1, s2; cbn [prod cons ready arrived log]; now rewrite upd_same, C). exact A.
      * intros m [X|[X|[X|[]]]]; discriminate.
Qed.
Print Assumptions C114_prompt_partial.

(** C115: if wait_all_members() returns, all functions have ended with a value and the values are in the order of the arguments, in whatever order they have ended. *)
Theorem C115_values : forall n ok s, reachable (step Members n ok) (init_state Members) s -> forall is, In (EReturn is) (log s) -> is = seq 0 n /\ forall i, i < n -> has_ended s i /\ ok i = true.
Proof. intros n ok s R is X. exact (i_res _ _ _ s (inv_reach Members n ok s R) _ X). Qed.
Print Assumptions C115_values.

(** C115: if wait_all_members() throws, it is the exception of the leftmost function that throws, in whatever order the functions have ended; all functions to its left have ended. *)
Theorem C115_throws : forall n ok s, reachable (step Members n ok) (init_state Members) s -> forall i, In (EThrow i) (log s) -> i < n /\ leftmost ok i /\ forall j, j <= i -> has_ended s j.
Proof. intros n ok s R i X. destruct (i_res _ _ _ s (inv_reach Members n ok s R) _ X) as (_ & A). exact A. Qed.
Print Assumptions C115_throws.

(** C115: if all functions end, wait_all_members() returns or throws, after a bounded number of steps. *)
Theorem C115_ends : forall n ok tr s, exec (step Members n ok) (init_state Members) tr = Some s -> length tr <= 6 * n + 2 /\ (stuck Members n ok s -> call_over s).
Proof.
  intros n ok tr s E. split; [exact (steps_bound Members n ok tr s E)|]. intros St. assert (Iv : inv Members n ok s) by (apply inv_reach; exists tr; auto).
  apply (i_over _ _ _ s Iv). apply (stuck_over Members n ok s Iv St). discriminate.
Qed.
Print Assumptions C115_ends.

(** Three functions; function 2 ends first. *)
Example C114_case_first : exists s, reachable (step FirstSimple 3 (fun _ => true)) (init_state FirstSimple) s /\ log s = [EReturn []; EEnd 1; EEnd 2].
Proof. apply (reach_by (step FirstSimple 3 (fun _ => true)) (init_state FirstSimple) [Caller; End 2; Go 2; Go 2; End 1; Caller]). vm_compute. auto. Qed.
Example C114_case_all : exists s, reachable (step AllSimple 3 (fun _ => true)) (init_state AllSimple) s /\ log s = [EReturn []; EEnd 0; EEnd 1; EEnd 2].
Proof. apply (reach_by (step AllSimple 3 (fun _ => true)) (init_state AllSimple) [End 2; Caller; End 1; End 0]). vm_compute. auto. Qed.
Example C114_case_none : exists s, reachable (step AllSimple 0 (fun _ => true)) (init_state AllSimple) s /\ log s = [EReturn []].
Proof. apply (reach_by (step AllSimple 0 (fun _ => true)) (init_state AllSimple) [Caller]). vm_compute. auto. Qed.
Example C115_case_values : exists s, reachable (step Members 3 (fun _ => true)) (init_state Members) s /\ log s = [EReturn [0; 1; 2]; EEnd 1; EEnd 0; EEnd 2].
Proof. apply (reach_by (step Members 3 (fun _ => true)) (init_state Members) [End 2; End 0; Caller; End 1; Caller; Caller; Caller]). vm_compute. auto. Qed.
(** Functions 1 and 2 throw, function 2 first. *)
Example C115_case_throws : exists s, reachable (step Members 3 (fun i => i =? 0)) (init_state Members) s /\ log s = [EThrow 1; EEnd 1; EEnd 0; EEnd 2].
Proof. apply (reach_by (step Members 3 (fun i => i =? 0)) (init_state Members) [End 2; End 0; Caller; End 1; Caller]). vm_compute. auto. Qed.
