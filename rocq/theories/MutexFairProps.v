(** Property C91: does a fiber waiting in lock() get the mutex? *)
From Coq Require Import List Arith Bool Lia.
From Verif Require Import Base Lasso Kernel KernelFacts Mutex MutexSpec MutexProofs.
Import ListNotations.

(** Number of acquisitions of fiber [f] in the log. *)
Fixpoint acquisitions (h : list event) (f : fid) : nat :=
  match h with
  | [] => 0
  | ERet g o r _ :: h' => (if Nat.eqb g f && acquired o r then 1 else 0) + acquisitions h' f
  | ECall _ _ :: h' => acquisitions h' f
  end.

(** The fiber an event belongs to. *)
Definition caller (e : event) : fid := match e with ECall f _ => f | ERet f _ _ _ => f end.

(** Fibers 1 and 2 on thread 1, round robin. Fiber 1 repeats { lock(); yield(); unlock(); }. *)
Definition barge_pre : list label :=
  [LK (Pick 1 1); LCall 1 Lock; LRun 1; LYield 1;
   LK (Pick 2 1); LCall 2 Lock; LRun 2;
   LK (Pick 1 1)].
Definition barge_cycle : list label :=
  [LCall 1 Unlock; LRun 1; LCall 1 Lock; LRun 1; LYield 1;
   LK (Pick 2 1); LRun 2; LRun 2;
   LK (Pick 1 1)].

(** The situation at the beginning of each round. *)
Record round (mk : mkind) (n : nat) (s : state) : Prop := {
  r_pc1 : pcs s 1 = Idle;
  r_run1 : running (fib (kn s) 1) = true;
  r_q1 : queued (fib (kn s) 1) = false;
  r_home1 : home (fib (kn s) 1) = 1;
  r_thr : thr (kn s) 1 = Some 1;
  r_own : owner (mx s) = Some 1;
  r_cnt : recursive mk = true -> count (mx s) = 1;
  r_wait : waiters (mx s) = [(2, epoch (fib (kn s) 2))];
  r_pc2 : pcs s 2 = LockWait (epoch (fib (kn s) 2));
  r_run2 : running (fib (kn s) 2) = false;
  r_q2 : queued (fib (kn s) 2) = false;
  r_log : acquisitions (log s) 1 = S n;
  r_pend : In (ECall 2 Lock) (log s);
  r_only : forall e, In e (log s) -> caller e = 2 -> e = ECall 2 Lock
}.


Lemma exec_cons {S L} (stp : S -> L -> option S) s l ls s1 r :
  stp s l = Some s1 -> exec stp s1 ls = r -> exec stp s (l :: ls) = r.
Proof. simpl. now intros ->. Qed.

Ltac go :=
  repeat (first [rewrite upd_same | rewrite upd_other by discriminate | rewrite Nat.eqb_refl
    | match goal with H : ?x = _ |- context [?x] => lazymatch x with
        | pcs _ _ => fail | _ _ => rewrite H | _ _ _ => rewrite H | _ => fail end end]; simpl).
Ltac one := eapply exec_cons; [unfold step, kstep, run_step; simpl; go;
  unfold unlock_step, lock_step, release, is_owner, is_free; simpl; go;
  cbv beta iota zeta delta [set_kn set_mx ret goto yield suspend suspend_and_wait suspend_and_wait_end create_waker
    set_fib kassert take wake kn mx pcs log fib thr now err owner count waiters]; simpl; go; reflexivity|].

Ltac quiet He A := repeat (destruct He as [<-|He]; [discriminate|]); now apply A.

Lemma round_next mk n s : round mk n s ->
  exists s', exec (step mk) s barge_cycle = Some s' /\ round mk (S n) s'.
Proof.
  destruct s as [[fb th nw er] [ow ct wt] pc lg]. intros [A1 A2 A3 A4 A5 A6 A7 A8 A9 A10 A11 A12 A13 A14].
  simpl in A1, A2, A3, A4, A5, A6, A7, A8, A9, A10, A11, A12, A13, A14. subst. unfold barge_cycle.
  destruct (recursive mk) eqn:Er.
  - rewrite (A7 eq_refl). clear A7.
    eexists. split.
    + one. one. one. one. one. one. one. one. one. reflexivity.
    + constructor; simpl; go; auto. intros e He. quiet He A14.
  - clear A7.
    eexists. split.
    + one. one. one. one. one. one. one. one. one. reflexivity.
    + constructor; simpl; go; auto; [congruence|]. intros e He. quiet He A14.
Qed.

Lemma log_grows mk s l s' : step mk s l = Some s' -> exists h, log s' = h ++ log s.
Proof.
  intros Hs.
  assert (N : exists h : list event, log s = h ++ log s) by now exists [].
  assert (C : forall e, exists h, e :: log s = h ++ log s) by (intros e; now exists [e]).
  destruct l as [kl|f o|f|f|f]; simpl in Hs.
  - destruct (kstep (kn s) kl); inversion Hs; subst; auto.
  - destruct (pcs s f); try discriminate.
    destruct (running (fib (kn s) f) && permitted mk o); inversion Hs; subst; simpl; auto.
  - destruct (running (fib (kn s) f)); [|discriminate]. unfold run_step in Hs.
    destruct (pcs s f) as [| |e| | | | |tp|tp|tp e|tp e]; try discriminate; try (inversion Hs; subst; simpl; now auto).
    + inversion Hs; subst. unfold lock_step.
      destruct (is_owner (mx s) f); [destruct (recursive mk)|destruct (is_free (mx s))]; simpl; auto.
    + inversion Hs; subst. unfold try_step.
      destruct (recursive mk), (is_owner (mx s) f), (is_free (mx s)); simpl; auto.
    + inversion Hs; subst. unfold unlock_step, release. destruct (notify_one (kn s) (waiters (mx s))).
      destruct (is_owner (mx s) f), (recursive mk), (Nat.eqb (pred (count (mx s))) 0); simpl; auto.
    + destruct (Nat.ltb tp (now (kn s))); inversion Hs; subst; simpl; auto.
    + inversion Hs; subst. unfold until_step.
      destruct (recursive mk && is_owner (mx s) f); [|destruct (is_free (mx s))]; simpl; auto.
    + destruct (wait_until_result (kn s) tp); inversion Hs; subst; simpl; auto.
  - destruct (pcs s f); try discriminate. destruct (running (fib (kn s) f)); inversion Hs; subst; auto.
  - destruct (pcs s f); try discriminate. destruct (running (fib (kn s) f)); inversion Hs; subst; auto.
Qed.

Lemma log_grows_inf mk sch st : infinite (step mk) init sch st ->
  forall i j, i <= j -> exists h, log (st j) = h ++ log (st i).
Proof.
  intros [_ H] i j Hij. induction Hij as [|j Hij [h IH]]; [now exists []|].
  destruct (log_grows _ _ _ _ (H j)) as [h' E]. exists (h' ++ h). now rewrite E, IH, app_assoc.
Qed.

Lemma pending_only h f o : In (ECall f o) h ->
  (forall e, In e h -> caller e = f -> e = ECall f o) -> pending h f = Some o.
Proof.
  induction h as [|e h IH]; simpl; [tauto|]. intros Hi Ho.
  assert (T : forall e', In e' h -> caller e' = f -> e' = ECall f o) by eauto.
  destruct e as [g o'|g o' r a]; simpl.
  - destruct (Nat.eqb_spec g f) as [->|Hn].
    + specialize (Ho _ (or_introl eq_refl) eq_refl). congruence.
    + apply IH; auto. destruct Hi as [Hi|Hi]; [congruence|auto].
  - destruct (Nat.eqb_spec g f) as [->|Hn].
    + specialize (Ho _ (or_introl eq_refl) eq_refl). discriminate.
    + apply IH; auto. destruct Hi as [Hi|Hi]; [discriminate|auto].
Qed.

Lemma given_up mk n s s1 s2 g : round mk n s -> step mk s (LCall 1 Unlock) = Some s1 ->
  step mk s1 (LRun 1) = Some s2 -> is_owner (mx s2) g = false.
Proof.
  intros [A1 A2 A3 A4 A5 A6 A7 A8 A9 A10 A11 A12 A13 A14] S1 S2.
  simpl in S1. rewrite A1, A2 in S1. simpl in S1. inversion S1; subst s1. simpl in S2. rewrite A2 in S2.
  unfold run_step in S2. cbn [pcs start_pc] in S2. rewrite upd_same in S2. inversion S2; subst s2.
  unfold unlock_step, release. simpl. unfold is_owner. rewrite A6. simpl.
  destruct (notify_one (kn s) (waiters (mx s))) as [k q].
  destruct (recursive mk) eqn:Er; [rewrite A7 by auto|]; reflexivity.
Qed.

Lemma first_round mk : exists s1, exec (step mk) init barge_pre = Some s1 /\ round mk 0 s1.
Proof.
  destruct mk; (eexists; split; [unfold barge_pre; one; one; one; one; one; one; one; one; reflexivity|]);
    constructor; simpl; go; auto; try discriminate;
    intros e He; repeat (destruct He as [<-|He]; [try discriminate; auto|]); destruct He.
Qed.

(** ** C91: false. Both fibers are run again and again, the mutex is given up again and again, fiber 2 is
    woken and run each time, and yet its call of lock() never returns: unlock() does not hand the mutex over, the
    woken fiber has to compete again. *)
Theorem C91_refuted : forall mk, exists sch st,
  infinite (step mk) init sch st /\
  always_again (fun i => sch i = LRun 1) /\ always_again (fun i => sch i = LRun 2) /\
  always_again (fun i => forall g, owned (log (st i)) g = 0) /\
  (forall n, exists i, acquisitions (log (st i)) 1 >= n) /\
  (forall i, 8 <= i -> pending (log (st i)) 2 = Some Lock).
Proof.
  intros mk. set (d := LYield 1).
  destruct (first_round mk) as (s1 & E1 & R1).
  assert (Hne : barge_cycle <> []) by discriminate.
  destruct (lasso_ex (step mk) barge_pre barge_cycle d init s1 (round mk) Hne E1 R1 (round_next mk))
    as (sch & st & I & J & _ & Hc).
  exists sch, st. change (length barge_cycle) with 9 in Hc. pose proof (J 0) as J0.
  splits; auto.
  - apply (lasso_again barge_pre barge_cycle _ 1); auto. intros n. rewrite Hc by lia. reflexivity.
  - apply (lasso_again barge_pre barge_cycle _ 6); auto. intros n. rewrite Hc by lia. reflexivity.
  - apply (lasso_again barge_pre barge_cycle _ 2); auto. intros n g.
    set (i := at_cycle barge_pre barge_cycle n).
    pose proof (infinite_reachable _ _ _ _ I (i + 2)) as R. apply minv_reachable in R.
    pose proof (m_ow _ _ R g) as A. unfold adj_ow, held in A.
    assert (Hf : is_owner (mx (st (i + 2))) g = false).
    { destruct I as [_ I]. apply (given_up mk n (st i) (st (i + 1)) (st (i + 2)) g); [apply J| |].
      - pose proof (Hc n 0 ltac:(lia)) as L0. fold i in L0. rewrite Nat.add_0_r in L0.
        replace (i + 1) with (S i) by lia. pose proof (I i) as S1. rewrite L0 in S1. exact S1.
      - pose proof (Hc n 1 ltac:(lia)) as L1. fold i in L1. pose proof (I (i + 1)) as S1. rewrite L1 in S1.
        now replace (i + 2) with (S (i + 1)) by lia. }
    rewrite Hf in A. destruct (pcs (st (i + 2)) g); lia.
  - intros n. exists (at_cycle barge_pre barge_cycle n). rewrite (r_log _ _ _ (J n)). lia.
  - intros i Hi. apply pending_only.
    + destruct (log_grows_inf _ _ _ I 8 i Hi) as [h ->]. apply in_or_app. right. exact (r_pend _ _ _ J0).
    + intros e He. destruct (log_grows_inf _ _ _ I i (at_cycle barge_pre barge_cycle i)) as [h E].
      { unfold at_cycle. simpl length. lia. }
      apply (r_only _ _ _ (J i)). rewrite E. apply in_or_app. now right.
Qed.

(** What does hold: a waiting fiber that is given the processor while the mutex is free gets it, in at most two steps.
    (Missing from the full C91: that the mutex is still free when the woken fiber is resumed.) *)
Theorem C91_partial : forall mk s f,
  reachable (step mk) init s -> running (fib (kn s) f) = true -> pending (log s) f = Some Lock ->
  (forall g, owned (log s) g = 0) -> (forall g, pending (log s) g <> Some TryLock) ->
  exists n s' a, n <= 2 /\ exec (step mk) s (repeat (LRun f) n) = Some s' /\ log s' = ERet f Lock ROk a :: log s.
Proof.
  intros mk s f R Hr Hp Ho Ht. apply minv_reachable in R.
  pose proof (owner_owned _ _ R Ho Ht) as Hown.
  assert (Hf : is_free (mx s) = true) by (apply is_free_spec; auto).
  assert (Hno : is_owner (mx s) f = false) by (apply is_owner_false; congruence).
  rewrite (m_pend _ _ R) in Hp. destruct (pcs s f) as [| |e| | | | |tp|tp|tp e|tp e] eqn:Hpc; try discriminate.
  - exists 1. simpl. rewrite Hr. unfold run_step. rewrite Hpc. unfold lock_step. rewrite Hf, Hno.
    eexists _, _. splits; [lia|reflexivity|reflexivity].
  - exists 2. simpl. rewrite Hr. unfold run_step at 1. rewrite Hpc. simpl. rewrite Hr. unfold run_step. simpl. updt.
    unfold lock_step. simpl. rewrite Hf, Hno. eexists _, _. splits; [lia|reflexivity|reflexivity].
Qed.

Example C91_ex : exists s, reachable (step KTimed) init s /\
  (running (fib (kn s) 2) = true /\ pending (log s) 2 = Some Lock /\ owned (log s) 1 = 0 /\ owned (log s) 2 = 0 /\
   pending (log s) 1 = None /\ exists e, pcs s 2 = LockWait e).
Proof.
  apply (reach_by _ _ (barge_pre ++ [LCall 1 Unlock; LRun 1; LYield 1; LK (Pick 2 1)])). vm_compute. eauto 10.
Qed.

Definition all_mutex_fair := (@C91_refuted, @C91_partial).
Print Assumptions all_mutex_fair.
