(** C146: a wake-up from another thread does not use the scheduler of the woken fiber after its destruction. *)
From Coq Require Import List Arith Bool Lia.
From Verif Require Import Base SchedLife SchedLifeSpec.
Import ListNotations.

Fixpoint all_good (h : list event) : Prop :=
  match h with
  | [] => True
  | EPush i f :: h' => ~ In EDestroyed h' /\ all_good h'
  | ENotify i :: h' => pushing h' i = true /\ all_good h'
  | EDestroyed :: h' => ~ In EDestroyed h' /\ all_good h'
  end.

Record inv (n : nat) (s : st) : Prop := {
  v_out : forall f, n < f -> fs s f = FEnd;
  v_gone : dsp s = DGone -> forall f, fs s f = FEnd;
  v_des : In EDestroyed (log s) <-> dsp s = DGone;
  v_push : forall i f, ws s i = WPush f -> fs s f = FClaimed;
  v_uniq : forall i j f, ws s i = WPush f -> ws s j = WPush f -> i = j;
  v_not : forall i, pushing (log s) i = true <-> ws s i = WNotify;
  v_flag : forall f, fs s f = FRemote -> dsp s = DPick \/ dsp s = DSleep -> flag s = true \/ exists i, ws s i = WNotify;
  v_good : all_good (log s)
}.

Lemma inv_init n : inv n (init n).
Proof.
  constructor; simpl; auto; try discriminate; try tauto.
  - intros [|f] H; [lia|]. simpl. destruct n; [reflexivity|]. rewrite (proj2 (Nat.leb_gt _ _)) by lia. reflexivity.
  - split; [tauto|discriminate].
  - split; discriminate.
  - intros f _ [|]; discriminate.
Qed.

Ltac cu := unfold upd; repeat match goal with
  | |- context [Nat.eqb ?a ?b] => destruct (Nat.eqb_spec a b); [subst|]
  end.
Ltac cuh H := unfold upd in H; repeat match type of H with
  | context [Nat.eqb ?a ?b] => destruct (Nat.eqb_spec a b); [subst|]
  end.

Lemma inv_step n s l s' : inv n s -> step n s l = Some s' -> inv n s'.
Proof.
  intros I H.
  assert (Lt : forall f, fs s f <> FEnd -> f <= n).
  { intros f F. destruct (Nat.le_gt_cases f n); auto. exfalso. apply F. now apply (v_out _ _ I). }
  assert (Ne : forall f x, fs s f = x -> x <> FEnd -> dsp s <> DGone).
  { intros f x E N G. rewrite (v_gone _ _ I G f) in E. congruence. }
  destruct l as [f|f|f|f| |f| | | | |i f|i]; simpl in H.
  - destruct (dsp s) eqn:D; try discriminate. destruct (fs s f) eqn:F; inversion H; subst; clear H. destruct I.
    assert (f <= n) by (apply Lt; congruence).
    constructor; cbn [fs dsp flag ws log]; auto; try discriminate.
    + intros g G. cu; auto. lia.
    + rewrite v_des0, D. split; discriminate.
    + intros i g G. apply v_push0 in G. cu; auto. congruence.
    + intros g G [|]; discriminate.
  - destruct (dsp s) eqn:D; try discriminate. destruct (fs s f) eqn:F; inversion H; subst; clear H. destruct I.
    assert (f <= n) by (apply Lt; congruence).
    constructor; cbn [fs dsp flag ws log]; auto; try discriminate.
    + intros g G. cu; auto. lia.
    + rewrite v_des0, D. split; discriminate.
    + intros i g G. apply v_push0 in G. cu; auto. congruence.
    + intros g G [|]; discriminate.
  - destruct (dsp s) eqn:D; try discriminate. destruct (fs s f) eqn:F; inversion H; subst; clear H. destruct I.
    constructor; cbn [fs dsp flag ws log]; auto; try discriminate.
    + intros g G. cu; auto.
    + rewrite v_des0, D. split; discriminate.
    + intros i g G. apply v_push0 in G. cu; auto. congruence.
    + intros g G [|]; discriminate.
  - destruct (fs s f) eqn:F; try (destruct (dsp s); discriminate).
    assert (f <= n) by (apply Lt; congruence).
    assert (D : dsp s = DFiber \/ dsp s = DFetch) by (destruct (dsp s); auto; discriminate).
    assert (E : s' = mkSt (upd (fs s) f FReady) (dsp s) (flag s) (ws s) (log s)) by (destruct D as [D|D]; rewrite D in *; congruence).
    subst; clear H. destruct I.
    constructor; cbn [fs dsp flag ws log]; auto.
    + intros g G. cu; auto. lia.
    + intros G. destruct D; congruence.
    + intros i g G. apply v_push0 in G. cu; auto. congruence.
    + intros g G [A|A]; destruct D; congruence.
  - destruct (dsp s) eqn:D; inversion H; subst; clear H. destruct I.
    constructor; cbn [fs dsp flag ws log]; auto; try discriminate.
    + intros g G. now rewrite v_out0.
    + rewrite v_des0, D. split; discriminate.
    + intros i g G. apply v_push0 in G. now rewrite G.
    + intros g G. destruct (fs s g); discriminate.
  - destruct (dsp s) eqn:D; try discriminate. destruct (fs s f) eqn:F; inversion H; subst; clear H. destruct I.
    assert (f <= n) by (apply Lt; congruence).
    constructor; cbn [fs dsp flag ws log]; auto; try discriminate.
    + intros g G. cu; auto. lia.
    + rewrite v_des0, D. split; discriminate.
    + intros i g G. apply v_push0 in G. cu; auto. congruence.
    + intros g G [|]; discriminate.
  - destruct (dsp s) eqn:D; try discriminate. match type of H with (if ?b then _ else _) = _ => destruct b end; inversion H; subst; clear H. destruct I.
    constructor; cbn [fs dsp flag ws log]; auto; try discriminate.
    + rewrite v_des0, D. split; discriminate.
    + intros g G _. eauto.
  - destruct (dsp s) eqn:D; try discriminate. destruct (flag s); inversion H; subst; clear H. destruct I.
    constructor; cbn [fs dsp flag ws log]; auto; try discriminate.
    + rewrite v_des0, D. split; discriminate.
    + intros g G [|]; discriminate.
  - destruct (dsp s) eqn:D; inversion H; subst; clear H. destruct I.
    constructor; cbn [fs dsp flag ws log]; auto; try discriminate.
    + rewrite v_des0, D. split; discriminate.
    + intros g G [|]; discriminate.
  - destruct (dsp s) eqn:D; try discriminate. match type of H with (if ?b then _ else _) = _ => destruct b eqn:E end; inversion H; subst; clear H.
    change (forallb (fun f => is_end (fs s f)) (seq 0 (S n)) = true) in E.
    assert (A : forall f, fs s f = FEnd).
    { intros f. destruct (Nat.le_gt_cases f n) as [L|L]; [|now apply (v_out _ _ I)].
      rewrite forallb_forall in E. specialize (E f). rewrite in_seq in E. specialize (E ltac:(lia)). cbv beta in E. destruct (fs s f); (reflexivity || discriminate). }
    destruct I. constructor; cbn [fs dsp flag ws log]; auto; try discriminate.
    + simpl. tauto.
    + intros g G [|]; discriminate.
    + simpl. split; auto. rewrite v_des0, D. discriminate.
  - destruct (ws s i) eqn:W; try discriminate. destruct (fs s f) eqn:F; inversion H; subst; clear H.
    assert (f <= n) by (apply Lt; congruence). assert (G : dsp s <> DGone) by (apply (Ne f FBlocked); congruence).
    destruct I. constructor; cbn [fs dsp flag ws log]; auto.
    + intros g G'. cu; auto. lia.
    + intros A. contradiction.
    + intros j g A. cuh A.
      * inversion A; subst. now rewrite upd_same.
      * apply v_push0 in A. cu; auto. 
    + intros j k g A B. cuh A; cuh B; auto.
      * inversion A; subst. apply v_push0 in B. congruence.
      * inversion B; subst. apply v_push0 in A. congruence.
      * eauto.
    + intros j. rewrite v_not0. cu; [|tauto]. rewrite W. split; discriminate.
    + intros g A B. cuh A; [discriminate|]. destruct (v_flag0 _ A B) as [C|[j C]]; auto. right. exists j. cu; auto. congruence.
  - destruct (ws s i) as [|f|] eqn:W; inversion H; subst; clear H.
    + assert (F := v_push _ _ I _ _ W). assert (G : dsp s <> DGone) by (apply (Ne f FClaimed); congruence).
      assert (f <= n) by (apply Lt; congruence).
      destruct I. constructor; cbn [fs dsp flag ws log]; auto.
      * intros g G'. cu; auto. lia.
      * intros A. contradiction.
      * simpl. rewrite <- v_des0. split; [intros [A|A]; [discriminate|auto]|auto].
      * intros j g A. cuh A; [discriminate|]. assert (g <> f) by (intros ->; apply n0; eauto). apply v_push0 in A. now rewrite upd_other.
      * intros j k g A B. cuh A; [discriminate|]. cuh B; [discriminate|]. eauto.
      * intros j. simpl. cu; [tauto|apply v_not0].
      * intros g A B. right. exists i. apply upd_same.
      * simpl. rewrite v_des0. auto.
    + destruct I. constructor; cbn [fs dsp flag ws log]; auto.
      * simpl. rewrite <- v_des0. split; [intros [A|A]; [discriminate|auto]|auto].
      * intros j g A. cuh A; [discriminate|]. eauto.
      * intros j k g A B. cuh A; [discriminate|]. cuh B; [discriminate|]. eauto.
      * intros j. simpl. cu; [split; discriminate|apply v_not0].
      * simpl. split; auto. now apply v_not0.
Qed.

Lemma inv_reach n s : reachable (step n) (init n) s -> inv n s.
Proof. apply (reachable_inv (step n) (inv n) (init n) (inv_init n) (inv_step n)). Qed.

Lemma good_tail h1 h0 : all_good (h1 ++ h0) -> all_good h0.
Proof. induction h1 as [|e h1 IH]; simpl; auto. destruct e; intros; apply IH; tauto. Qed.

(** False: between line 211 and line 213 of scheduler.cpp the woken fiber can run to its end, here the main fiber of a
    thread without other fibers; the thread ends, and the waking thread calls notify() of an algorithm that has been destroyed. *)
Definition c146_run : list label :=
  [LBlock 0; LClaim 1 0; LRun 1; LFetch; LPick 0; LEnd 0; LDestroy; LRun 1].
Theorem C146_refuted : exists s, reachable (step 0) (init 0) s /\ dangling (log s) /\
  log s = [ENotify 1; EDestroyed; EPush 1 0].
Proof.
  destruct (reach_by (step 0) (init 0) c146_run (fun s => log s = [ENotify 1; EDestroyed; EPush 1 0])) as (s & R & A).
  - vm_compute. reflexivity.
  - exists s. splits; auto. rewrite A. exists [], (ENotify 1), [EDestroyed; EPush 1 0]. splits; simpl; auto. discriminate.
Qed.

(** What holds: the fiber is enqueued before the scheduler is destroyed.
    (Missing from the full C146: the call of notify() that follows.) *)
Theorem C146_push_partial : forall n s h1 i f h0, reachable (step n) (init n) s -> log s = h1 ++ EPush i f :: h0 ->
  ~ In EDestroyed h0.
Proof.
  intros n s h1 i f h0 R E. apply inv_reach in R. pose proof (v_good _ _ R) as G. rewrite E in G. apply good_tail in G.
  simpl in G. tauto.
Qed.

(** Only wake-ups that had enqueued their fiber when the scheduler was destroyed access it afterwards, each once. *)
Theorem C146_notify_partial : forall n s h1 i h2 h3, reachable (step n) (init n) s ->
  log s = h1 ++ ENotify i :: h2 ++ EDestroyed :: h3 -> pushing h3 i = true /\ ~ In (ENotify i) h2.
Proof.
  intros n s h1 i h2 h3 R E. apply inv_reach in R. pose proof (v_good _ _ R) as G. rewrite E in G. apply good_tail in G.
  simpl in G. destruct G as (P & G). clear E R.
  induction h2 as [|e h2 IH]; simpl in *; [tauto|].
  destruct e as [j f|j|]; simpl in *.
  - exfalso. apply (proj1 G). apply in_or_app. right. now left.
  - destruct (Nat.eqb_spec i j) as [->|N]; [discriminate|]. destruct IH as (A & B); try tauto.
    split; auto. intros [C|C]; [congruence|tauto].
  - exfalso. apply (proj1 G). apply in_or_app. right. now left.
Qed.

(** No wake-up is lost: if a fiber is in the remote queue while the thread sleeps, the thread is released at the latest
    when the wake-ups under way have returned. *)
Theorem C146_wake_partial : forall n s f, reachable (step n) (init n) s -> fs s f = FRemote -> dsp s = DSleep ->
  (forall i, pushing (log s) i = false) -> exists s', exec (step n) s [LAwake; LFetch; LPick f] = Some s' /\ fs s' f = FRun.
Proof.
  intros n s f R F D W. apply inv_reach in R.
  destruct (v_flag _ _ R f F (or_intror D)) as [A|[i A]].
  - simpl. rewrite D, A. simpl. rewrite F. eexists. split; [reflexivity|]. simpl. apply upd_same.
  - apply (v_not _ _ R) in A. rewrite W in A. discriminate.
Qed.

Example C146_partial_ex : exists s, reachable (step 1) (init 1) s /\
  (fs s 1 = FRemote /\ dsp s = DSleep /\ log s = [ENotify 3; EPush 3 1]).
Proof.
  apply (reach_by (step 1) (init 1) [LBlock 0; LFetch; LPick 1; LBlock 1; LFetch; LSleep; LClaim 3 1; LRun 3; LRun 3]).
  vm_compute. auto.
Qed.
(** Two wake-ups are under way when the scheduler is destroyed. *)
Example C146_notify_ex : exists s, reachable (step 1) (init 1) s /\
  log s = [ENotify 3; ENotify 2; EDestroyed; EPush 3 0; EPush 2 1].
Proof.
  apply (reach_by (step 1) (init 1) [LBlock 0; LFetch; LPick 1; LBlock 1; LClaim 2 1; LClaim 3 0; LRun 2; LRun 3; LFetch;
    LPick 0; LEnd 0; LFetch; LPick 1; LEnd 1; LDestroy; LRun 2; LRun 3]).
  vm_compute. auto.
Qed.

Definition all_c146 := (@C146_refuted, @C146_push_partial, @C146_notify_partial, @C146_wake_partial).
Print Assumptions all_c146.
