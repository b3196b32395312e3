(** C145: the work sharing example ends after all its fibers have completed. *)
From Coq Require Import List Arith Bool Lia.
From Verif Require Import Base WsProg WsProgSpec WsProgFacts.
Import ListNotations.

(** Every execution is finite: there is a bound on the number of steps. *)
Theorem C145_finite : forall n m y, exists b, forall ls s,
  exec (step n) (init n m y) ls = Some s -> length ls <= b.
Proof.
  intros n m y. exists (measure n m (init n m y)). intros ls s H.
  assert (X : forall ls s0, inv n m s0 -> exec (step n) s0 ls = Some s -> length ls + measure n m s <= measure n m s0).
  { clear ls H. induction ls as [|l ls IH]; simpl; intros s0 I H; [inversion H; lia|].
    destruct (step n s0 l) as [s1|] eqn:E; [|discriminate]. pose proof (step_measure _ _ _ _ _ I E).
    apply IH in H; [lia|]. eapply inv_step; eauto. }
  apply X in H; [lia|apply inv_init].
Qed.

(** And it cannot stop anywhere but at the end of main(): no wake-up is lost, nothing deadlocks. *)
Theorem C145_ends : forall n m y s, reachable (step n) (init n m y) s -> stuck n s ->
  programs (log s) = 1 /\ (forall f, f < m -> ends (log s) f = 1) /\ (forall k, k <= n -> returns (log s) k = 1).
Proof.
  intros n m y s R H. apply inv_reach in R.
  assert (E : mains s 0 = MEnd).
  { destruct (mains s 0) eqn:E; auto; exfalso; destruct (progress n m s R) as (l & s' & X); try congruence; rewrite H in X; discriminate. }
  pose proof (v_prog _ _ _ R) as P. rewrite E in P.
  assert (X : forall h, all_good n m h -> 0 < programs h -> forall f, f < m -> 1 <= ends h f).
  { induction h as [|e h IH]; simpl; [lia|]. intros G Q f F. destruct e; simpl in *.
    - specialize (IH G Q f F). lia.
    - apply IH; tauto.
    - destruct G as (G & _). rewrite G; auto. }
  assert (Y : forall h, all_good n m h -> 0 < programs h -> forall k, k <= n -> 1 <= returns h k).
  { induction h as [|e h IH]; simpl; [lia|]. intros G Q f F. destruct e; simpl in *.
    - now apply IH.
    - assert (A : 1 <= returns h f) by (apply IH; tauto). lia.
    - destruct G as (_ & G & _). rewrite G; auto. }
  pose proof (v_good _ _ _ R) as G. splits; auto.
  - intros f F. specialize (X _ G ltac:(lia) f F). rewrite (v_ends _ _ _ R) in * by auto. destruct (fdone (fp s f)); lia.
  - intros k K. specialize (Y _ G ltac:(lia) k K). rewrite (v_rets _ _ _ R) in * by auto. destruct (mout (mains s k)); lia.
Qed.

(** main() returns only after every fiber function has ended and every thread has returned, once each. *)
Theorem C145_order : forall n m y s h1 h0, reachable (step n) (init n m y) s -> log s = h1 ++ EProgram :: h0 ->
  (forall f, f < m -> ends h0 f = 1) /\ (forall k, k <= n -> returns h0 k = 1).
Proof.
  intros n m y s h1 h0 R E. apply inv_reach in R. pose proof (v_good _ _ _ R) as G. rewrite E in G. clear E.
  induction h1 as [|e h1 IH]; simpl in G; [tauto|]. destruct e; try (apply IH; tauto).
Qed.

(** The assertions on fiber_count hold, and no fiber or thread is counted twice. *)
Theorem C145_assert : forall n m y s, reachable (step n) (init n m y) s ->
  (forall k c, In (EReturn k c) (log s) -> c = 0) /\
  (forall f, f < m -> ends (log s) f <= 1) /\ (forall k, k <= n -> returns (log s) k <= 1) /\ programs (log s) <= 1.
Proof.
  intros n m y s R. apply inv_reach in R. splits.
  - intros k c. pose proof (v_good _ _ _ R) as G. revert G. generalize (log s). induction l as [|e h IH]; simpl; [tauto|].
    intros G [->|A]; [tauto|]. apply IH; auto. destruct e; tauto.
  - intros f F. rewrite (v_ends _ _ _ R) by auto. destruct (fdone (fp s f)); lia.
  - intros k K. rewrite (v_rets _ _ _ R) by auto. destruct (mout (mains s k)); lia.
  - rewrite (v_prog _ _ _ R). destruct (mains s 0); lia.
Qed.

(** One additional thread, two fibers with one iteration each. Thread 1 waits and runs fiber 0, which migrates to thread 0;
    fiber 1 decrements last on thread 1 while the main fiber of thread 1 is in its wait queue. *)
Definition c145_run : list label :=
  [LMain 1; LMain 1; LMain 1; LMain 1; LMain 1; LPick 1 0; LFib 0;
   LMain 0; LMain 0; LMain 0; LMain 0; LMain 0; LPick 0 0; LPick 1 1; LFib 1; LFib 0; LFib 0; LFib 0; LFib 0;
   LPick 1 1; LFib 1; LFib 1; LFib 1; LFib 1; LFib 1;
   LResume 0; LMain 0; LMain 0; LMain 0; LResume 1; LMain 1; LMain 1; LMain 1; LMain 0].
Example C145_ex : exists s, reachable (step 1) (init 1 2 1) s /\
  log s = [EProgram; EReturn 1 0; EReturn 0 0; EEnd 1; EEnd 0].
Proof. apply (reach_by (step 1) (init 1 2 1) c145_run). vm_compute. reflexivity. Qed.
(** This final state is stuck, as the theorem requires. *)
Example C145_stuck_ex : exists s, reachable (step 1) (init 1 2 1) s /\ stuck 1 s /\ length (log s) = 5.
Proof.
  destruct (reach_by (step 1) (init 1 2 1) c145_run (fun s => mains s 0 = MEnd /\ mains s 1 = MExit /\ length (log s) = 5)) as (s & R & A & B & C).
  - vm_compute. auto.
  - exists s. splits; auto. pose proof (inv_reach _ _ _ _ R) as I.
    assert (O : forall k, k <= 1 -> mout (mains s k) = true) by (intros [|[|k]] K; [now rewrite A|now rewrite B|lia]).
    assert (D : forall f, fp s f = FDone).
    { intros f. destruct (Nat.lt_ge_cases f 2); [eapply all_done; eauto|now apply (v_outf _ _ _ I)]. }
    assert (M : forall k, mains s k = MEnd \/ (k <> 0 /\ mains s k = MExit)).
    { intros [|[|k]]; auto. right. split; auto. apply (v_outm _ _ _ I). lia. }
    intros [k|f|k f|k]; simpl; unfold main_step, fib_step; rewrite ?D; destruct (M k) as [E|[E1 E2]] || idtac; rewrite ?E, ?E2; auto;
      destruct (cur s k); auto. destruct k; auto; congruence.
Qed.

Definition all_c145 := (@C145_finite, @C145_ends, @C145_order, @C145_assert).
Print Assumptions all_c145.
