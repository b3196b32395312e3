(** Invariants for join() and the cleanup functions of fiber-local storage. *)
From Coq Require Import List Arith Bool Lia.
From Verif Require Import Base JoinFss JoinFssSpec.
Import ListNotations.

Section F.
Context (thr n : nat -> nat).

(** What is known of the end of c. *)
Definition stage (s : st) (c : nat) : Prop :=
  match fib s c with
  | Cleaning k => ended s c = true /\ cleaned (log s) c + k = n c
  | Gone => ended s c = true /\ cleaned (log s) c = n c
  | _ => ended s c = false /\ cleaned (log s) c = 0
  end.
Record inv (s : st) : Prop := {
  i_stage : forall c, stage s c;
  i_wait : forall g c, fib s g = Waiting c -> ended s c = false;
  i_woken : forall g c, fib s g = Woken c -> ended s c = true;
  i_exit : forall c, ended s c = true -> In (EExit c) (log s);
  i_joined : forall g c, In (EJoined g c) (log s) -> ended s c = true;
  i_now : complete_now n (log s)
}.

Lemma now_cons : forall e l, complete_now n l -> (forall g c, e = ENow g c -> cleaned l c = n c) -> complete_now n (e :: l).
Proof.
  intros e l H E a b g c X. destruct a as [|x a]; simpl in X; inversion X; subst.
  - eapply E; eauto.
  - eapply H; eauto.
Qed.
Lemma runs_at : forall s f, runs thr s f = true -> run s (thr f) = Some f.
Proof. unfold runs. intros s f H. destruct (run s (thr f)); [|discriminate]. apply Nat.eqb_eq in H. congruence. Qed.

Lemma inv_init : inv init_state.
Proof. split; unfold stage; simpl; try discriminate; try tauto; auto. intros a b g c X. destruct a; discriminate. Qed.

Ltac at_ f := intros c; destruct (Nat.eq_dec c f) as [->|N]; [rewrite ?upd_same | rewrite ?upd_other by auto].

Lemma inv_step : forall s l s', inv s -> step thr n s l = Some s' -> inv s'.
Proof.
  intros s l s' I E. destruct I as [St Wt Wk Ex Jd Nw]. unfold step in E. destruct l as [f|f|f|f|f|f|f|g c|g].
  - destruct (run s (thr f)); [discriminate|]. destruct (fib s f); try discriminate; destruct (sleep s f); inversion E; subst; split; auto.
  - destruct (runs thr s f); [|discriminate]. destruct (fib s f); inversion E; subst; split; auto.
  - destruct (runs thr s f); [|discriminate]. destruct (fib s f); inversion E; subst; split; auto.
  - destruct (sleep s f); inversion E; subst; split; auto.
  - destruct (runs thr s f); [|discriminate]. destruct (fib s f) eqn:F; inversion E; subst; clear E.
    assert (SF := St f). unfold stage in SF. rewrite F in SF. destruct SF as (SE & SC).
    split; unfold stage, wake_all; cbn [fib run sleep ended log cleaned].
    + at_ f; [split; [auto|lia]|]. specialize (St c). unfold stage in St. destruct (fib s c) as [| | |d|d|] eqn:Fc; auto. destruct (Nat.eqb d f) eqn:D; auto.
    + intros g c. destruct (Nat.eq_dec g f) as [->|N]; [rewrite upd_same; discriminate|rewrite upd_other by auto].
      destruct (fib s g) as [| | |d|d|] eqn:Fg; try discriminate. destruct (Nat.eqb_spec d f); [discriminate|]. intros X. inversion X; subst. rewrite upd_other by auto. eauto.
    + intros g c. destruct (Nat.eq_dec g f) as [->|N]; [rewrite upd_same; discriminate|rewrite upd_other by auto].
      destruct (fib s g) as [| | |d|d|] eqn:Fg; try discriminate.
      * destruct (Nat.eqb_spec d f); [|discriminate]. intros X. inversion X; subst. now rewrite upd_same.
      * intros X. inversion X; subst. destruct (Nat.eq_dec c f) as [->|N']; [now rewrite upd_same|rewrite upd_other by auto; eauto].
    + at_ f; simpl; auto.
    + intros g c [X|X]; [discriminate|]. destruct (Nat.eq_dec c f) as [->|N]; [now rewrite upd_same|rewrite upd_other by auto; eauto].
    + apply now_cons; auto. discriminate.
  - destruct (runs thr s f); [|discriminate]. destruct (fib s f) as [|[|k]| | | |] eqn:F; inversion E; subst; clear E.
    assert (SF := St f). unfold stage in SF. rewrite F in SF. destruct SF as (SE & SC).
    split; unfold stage, put; cbn [fib run sleep ended log cleaned app].
    + at_ f; [rewrite Nat.eqb_refl; split; [auto|lia]|]. specialize (St c). unfold stage in St. destruct (Nat.eqb_spec f c); [congruence|]. exact St.
    + intros g c. destruct (Nat.eq_dec g f) as [->|N]; [rewrite upd_same; discriminate|rewrite upd_other by auto; eauto].
    + intros g c. destruct (Nat.eq_dec g f) as [->|N]; [rewrite upd_same; discriminate|rewrite upd_other by auto; eauto].
    + intros c X. right. auto.
    + intros g c [X|X]; [discriminate|eauto].
    + apply now_cons; auto. discriminate.
  - destruct (runs thr s f); [|discriminate]. destruct (fib s f) as [|[|k]| | | |] eqn:F; inversion E; subst; clear E.
    assert (SF := St f). unfold stage in SF. rewrite F in SF. destruct SF as (SE & SC).
    split; unfold stage, off, put; cbn [fib run sleep ended log cleaned app].
    + at_ f; [split; [auto|lia]|]. exact (St c).
    + intros g c. destruct (Nat.eq_dec g f) as [->|N]; [rewrite upd_same; discriminate|rewrite upd_other by auto; eauto].
    + intros g c. destruct (Nat.eq_dec g f) as [->|N]; [rewrite upd_same; discriminate|rewrite upd_other by auto; eauto].
    + intros c X. right. auto.
    + intros g c [X|X]; [discriminate|eauto].
    + apply now_cons; auto. discriminate.
  - destruct (runs thr s g && negb (Nat.eqb g c)); [|discriminate]. destruct (fib s g) eqn:F; inversion E; subst; clear E.
    assert (SF := St g). unfold stage in SF. rewrite F in SF.
    split; unfold stage, put; cbn [fib run sleep ended log cleaned app].
    + intros c0; destruct (Nat.eq_dec c0 g) as [->|N]; [rewrite upd_same; auto | rewrite upd_other by auto; exact (St c0)].
    + intros h d. destruct (Nat.eq_dec h g) as [->|N]; [rewrite upd_same; discriminate|rewrite upd_other by auto; eauto].
    + intros h d. destruct (Nat.eq_dec h g) as [->|N]; [rewrite upd_same; discriminate|rewrite upd_other by auto; eauto].
    + intros d X. right. auto.
    + intros h d [X|X]; [discriminate|eauto].
    + apply now_cons; auto. discriminate.
  - destruct (runs thr s g); [|discriminate]. destruct (fib s g) as [| |c|c|c|] eqn:F; try discriminate.
    + unfold locked in E. destruct (match fib s c with Cleaning _ => true | _ => false end) eqn:L; inversion E; subst; clear E.
      assert (SF := St g). unfold stage in SF. rewrite F in SF.
      unfold enter. destruct (ended s c) eqn:Ec.
      * assert (SC := St c). unfold stage in SC. assert (CC : cleaned (log s) c = n c) by (destruct (fib s c); try discriminate; destruct SC; congruence).
        split; unfold stage, put; cbn [fib run sleep ended log cleaned app].
        -- intros d; destruct (Nat.eq_dec d g) as [->|N]; [rewrite upd_same; auto | rewrite upd_other by auto; exact (St d)].
        -- intros h d. destruct (Nat.eq_dec h g) as [->|N]; [rewrite upd_same; discriminate|rewrite upd_other by auto; eauto].
        -- intros h d. destruct (Nat.eq_dec h g) as [->|N]; [rewrite upd_same; discriminate|rewrite upd_other by auto; eauto].
        -- intros d X. right. right. auto.
        -- intros h d [X|[X|X]]; [inversion X; subst; auto|discriminate|eauto].
        -- apply now_cons; [apply now_cons; auto|discriminate]. intros h d X. inversion X; subst. auto.
      * split; unfold stage, off, put; cbn [fib run sleep ended log cleaned app]; auto.
        -- intros d; destruct (Nat.eq_dec d g) as [->|N]; [rewrite upd_same; auto | rewrite upd_other by auto; exact (St d)].
        -- intros h d. destruct (Nat.eq_dec h g) as [->|N]; [rewrite upd_same; intros X; inversion X; subst; auto|rewrite upd_other by auto; eauto].
        -- intros h d. destruct (Nat.eq_dec h g) as [->|N]; [rewrite upd_same; discriminate|rewrite upd_other by auto; eauto].
    + inversion E; subst; clear E. assert (SF := St g). unfold stage in SF. rewrite F in SF.
      split; unfold stage, put; cbn [fib run sleep ended log cleaned app].
      * intros d; destruct (Nat.eq_dec d g) as [->|N]; [rewrite upd_same; auto | rewrite upd_other by auto; exact (St d)].
      * intros h d. destruct (Nat.eq_dec h g) as [->|N]; [rewrite upd_same; discriminate|rewrite upd_other by auto; eauto].
      * intros h d. destruct (Nat.eq_dec h g) as [->|N]; [rewrite upd_same; discriminate|rewrite upd_other by auto; eauto].
      * intros d X. right. auto.
      * intros h d [X|X]; [inversion X; subst; eauto|eauto].
      * apply now_cons; auto. discriminate.
Qed.

Lemma inv_reach : forall s, reachable (step thr n) init_state s -> inv s.
Proof. apply (reachable_inv (step thr n) inv init_state inv_init). intros; eapply inv_step; eauto. Qed.

Lemma plain_inv : forall s, plain thr n s -> inv s.
Proof. induction 1; [apply inv_init|eapply inv_step; eauto]. Qed.

(** Without suspension a fiber keeps the processor while it runs its cleanup functions. *)
Lemma plain_runs : forall s, plain thr n s -> forall f k, fib s f = Cleaning k -> runs thr s f = true.
Proof.
  induction 1 as [|s l s' P IH E Nx]; [discriminate|]. intros x k0.
  assert (K : forall f, runs thr s f = true -> x <> f -> (exists k, fib s x = Cleaning k) -> thr x <> thr f).
  { intros f Rf N (k & C) T. pose proof (runs_at _ _ Rf). pose proof (runs_at _ _ (IH _ _ C)). congruence. }
  assert (O : forall f, runs thr s f = true -> x <> f -> (exists k, fib s x = Cleaning k) ->
     match upd (run s) (thr f) None (thr x) with Some g => Nat.eqb g x | None => false end = true).
  { intros f Rf N C. rewrite upd_other by (apply K; auto). destruct C as (k & C). exact (IH _ _ C). }
  unfold step in E. destruct l as [f|f|f|f|f|f|f|g c|g].
  - destruct (run s (thr f)) eqn:Rf; [discriminate|]. intros X.
    assert (X' : fib s x = Cleaning k0) by (destruct (fib s f); try discriminate; destruct (sleep s f); inversion E; subst; exact X).
    pose proof (runs_at _ _ (IH _ _ X')) as Rx. assert (Tx : thr x <> thr f) by congruence.
    destruct (fib s f); try discriminate; destruct (sleep s f); inversion E; subst; unfold runs; cbn [run]; rewrite upd_other by auto; exact (IH _ _ X').
  - destruct (runs thr s f) eqn:Rf; [|discriminate]. destruct (fib s f) eqn:F; inversion E; subst; intros X; [|exfalso; eapply Nx; eauto].
    unfold runs; cbn [run off fib] in *. apply O; eauto. congruence.
  - destruct (runs thr s f) eqn:Rf; [|discriminate]. destruct (fib s f) eqn:F; inversion E; subst; intros X; [|exfalso; eapply Nx; eauto].
    unfold runs; cbn [run off fib] in *. apply O; eauto. congruence.
  - destruct (sleep s f); inversion E; subst. apply IH.
  - destruct (runs thr s f) eqn:Rf; [|discriminate]. destruct (fib s f) eqn:F; inversion E; subst; clear E. unfold wake_all; cbn [fib].
    destruct (Nat.eq_dec x f) as [->|N]; [intros _; exact Rf|rewrite upd_other by auto]. unfold runs; cbn [run].
    destruct (fib s x) eqn:Fx; try discriminate; [intros _; exact (IH _ _ Fx)|]. destruct (Nat.eqb c f); discriminate.
  - destruct (runs thr s f) eqn:Rf; [|discriminate]. destruct (fib s f) as [|[|k]| | | |] eqn:F; inversion E; subst; clear E. unfold put; cbn [fib].
    destruct (Nat.eq_dec x f) as [->|N]; [intros _; exact Rf|rewrite upd_other by auto]. intros X. exact (IH _ _ X).
  - destruct (runs thr s f) eqn:Rf; [|discriminate]. destruct (fib s f) as [|[|k]| | | |] eqn:F; inversion E; subst; clear E. unfold put, off; cbn [fib].
    destruct (Nat.eq_dec x f) as [->|N]; [rewrite upd_same; discriminate|rewrite upd_other by auto]. intros X. unfold runs; cbn [run]. eauto.
  - destruct (runs thr s g && negb (Nat.eqb g c)); [|discriminate]. destruct (fib s g) eqn:F; inversion E; subst; clear E. unfold put; cbn [fib].
    destruct (Nat.eq_dec x g) as [->|N]; [rewrite upd_same; discriminate|rewrite upd_other by auto]. intros X. exact (IH _ _ X).
  - destruct (runs thr s g) eqn:Rg; [|discriminate]. destruct (fib s g) as [| |c|c|c|] eqn:F; try discriminate.
    + destruct (locked s c); [discriminate|]. inversion E; subst; clear E. unfold enter. destruct (ended s c); unfold put, off; cbn [fib].
      * destruct (Nat.eq_dec x g) as [->|N]; [rewrite upd_same; discriminate|rewrite upd_other by auto]. intros X. exact (IH _ _ X).
      * destruct (Nat.eq_dec x g) as [->|N]; [rewrite upd_same; discriminate|rewrite upd_other by auto]. intros X. unfold runs; cbn [run]. eauto.
    + inversion E; subst; clear E. unfold put; cbn [fib].
      destruct (Nat.eq_dec x g) as [->|N]; [rewrite upd_same; discriminate|rewrite upd_other by auto]. intros X. exact (IH _ _ X).
Qed.

(** What a step can add to the log. *)
Lemma joined_step : forall s l s', step thr n s l = Some s' -> 
  exists es, log s' = es ++ log s /\
  (forall g c, In (EJoined g c) es -> l = Go g /\ runs thr s g = true /\ 
     ((fib s g = Woken c /\ es = [EJoined g c]) \/ (fib s g = Spin c /\ locked s c = false /\ ended s c = true /\ es = [EJoined g c; ENow g c]))).
Proof.
  intros s l s' E. unfold step in E. destruct l as [f|f|f|f|f|f|f|g c|g].
  - destruct (run s (thr f)); [discriminate|]. exists []. destruct (fib s f); try discriminate; destruct (sleep s f); inversion E; subst; split; auto; simpl; tauto.
  - destruct (runs thr s f); [|discriminate]. exists []. destruct (fib s f); inversion E; subst; split; auto; simpl; tauto.
  - destruct (runs thr s f); [|discriminate]. exists []. destruct (fib s f); inversion E; subst; split; auto; simpl; tauto.
  - exists []. destruct (sleep s f); inversion E; subst; split; auto; simpl; tauto.
  - destruct (runs thr s f); [|discriminate]. exists [EExit f]. destruct (fib s f); inversion E; subst; split; auto; simpl; intuition discriminate.
  - destruct (runs thr s f); [|discriminate]. exists [EClean f]. destruct (fib s f) as [|[|k]| | | |]; inversion E; subst; split; auto; simpl; intuition discriminate.
  - destruct (runs thr s f); [|discriminate]. exists [EEnded f]. destruct (fib s f) as [|[|k]| | | |]; inversion E; subst; split; auto; simpl; intuition discriminate.
  - destruct (runs thr s g && negb (Nat.eqb g c)); [|discriminate]. exists [EJoin g c]. destruct (fib s g); inversion E; subst; split; auto; simpl; intuition discriminate.
  - destruct (runs thr s g) eqn:Rg; [|discriminate]. destruct (fib s g) as [| |c|c|c|] eqn:F; try discriminate.
    + destruct (locked s c) eqn:L; [discriminate|]. inversion E; subst; clear E. unfold enter. destruct (ended s c) eqn:Ec.
      * exists [EJoined g c; ENow g c]. split; auto. intros h d [X|[X|[]]]; inversion X; subst. auto 10.
      * exists []. split; auto. simpl; tauto.
    + inversion E; subst. exists [EJoined g c]. split; auto. intros h d [X|[]]; inversion X; subst. auto 10.
Qed.

(** On the thread of the fiber that ends, nobody returns from join() too early. *)
Definition same (l : list event) : Prop := forall a b g c, l = a ++ EJoined g c :: b -> thr g = thr c -> cleaned b c = n c.
Lemma same_cons : forall e l, same l -> (forall g c, e = EJoined g c -> thr g = thr c -> cleaned l c = n c) -> same (e :: l).
Proof.
  intros e l H E a b g c X T. destruct a as [|x a]; simpl in X; inversion X; subst.
  - eapply E; eauto.
  - eapply H; eauto.
Qed.
Lemma same_app : forall es l, same l -> (forall g c, ~ In (EJoined g c) es) -> same (es ++ l).
Proof.
  induction es as [|e es IH]; simpl; intros l H N; auto. apply same_cons.
  - apply IH; auto. intros g c X. exact (N g c (or_intror X)).
  - intros g c -> _. destruct (N g c). auto.
Qed.
Lemma plain_same : forall s, plain thr n s -> same (log s).
Proof.
  induction 1 as [|s l s' P IH E Nx]; [intros [|? ?]; discriminate|].
  destruct (joined_step _ _ _ E) as (es & L & J). rewrite L. pose proof (plain_inv _ P) as I.
  destruct (existsb (fun e => match e with EJoined _ _ => true | _ => false end) es) eqn:X.
  - apply existsb_exists in X. destruct X as ([| | | | |g c] & Y & Z); try discriminate. destruct (J _ _ Y) as (-> & Rg & D).
    assert (Ec : ended s c = true) by (destruct D as [(W & _)|(_ & _ & Ec & _)]; auto; eapply i_woken; eauto).
    assert (CC : thr g = thr c -> cleaned (log s) c = n c).
    { intros T. pose proof (i_stage s I c) as SC. unfold stage in SC. destruct (fib s c) eqn:Fc; try (destruct SC; congruence).
      exfalso. pose proof (runs_at _ _ (plain_runs _ P _ _ Fc)). pose proof (runs_at _ _ Rg). assert (g = c) by congruence. subst. destruct D as [(W & _)|(W & _)]; congruence. }
    destruct D as [(_ & ->)|(_ & _ & _ & ->)]; simpl.
    + apply same_cons; auto. intros h d Q. inversion Q; subst. auto.
    + apply same_cons; [apply same_cons; auto; discriminate|]. intros h d Q. inversion Q; subst. auto.
  - apply same_app; auto. intros g c Y. rewrite <- not_true_iff_false in X. apply X. apply existsb_exists. eauto.
Qed.

(** A fiber that spins for the lock of a fiber of its own thread never gets any further. *)
Definition hung (s : st) (g c : nat) : Prop := thr g = thr c /\ runs thr s g = true /\ fib s g = Spin c /\ exists k, fib s c = Cleaning k.
Lemma hung_step : forall s l s' g c, hung s g c -> step thr n s l = Some s' -> hung s' g c.
Proof.
  intros s l s' g c (T & R & G & k & C) E. pose proof (runs_at _ _ R) as Rg.
  assert (GC : g <> c) by congruence.
  assert (Rx : forall f, runs thr s f = true -> f <> g -> thr f <> thr g) by (intros f Rf N Q; pose proof (runs_at _ _ Rf); congruence).
  assert (Nc : runs thr s c = false) by (destruct (runs thr s c) eqn:X; auto; pose proof (runs_at _ _ X); congruence).
  unfold step in E. destruct l as [f|f|f|f|f|f|f|h d|h].
  - destruct (run s (thr f)) eqn:Rf; [discriminate|]. assert (Tf : thr g <> thr f) by congruence.
    destruct (fib s f); try discriminate; destruct (sleep s f); inversion E; subst; unfold hung, runs; cbn [run fib]; rewrite upd_other by auto; splits; eauto.
  - destruct (runs thr s f) eqn:Rf; [|discriminate]. destruct (Nat.eq_dec f g) as [->|N]; [rewrite G in E; discriminate|].
    pose proof (Rx f Rf N). destruct (fib s f); inversion E; subst; unfold hung, runs; cbn [run fib off]; rewrite upd_other by auto; splits; eauto.
  - destruct (runs thr s f) eqn:Rf; [|discriminate]. destruct (Nat.eq_dec f g) as [->|N]; [rewrite G in E; discriminate|].
    pose proof (Rx f Rf N). destruct (fib s f); inversion E; subst; unfold hung, runs; cbn [run fib off]; rewrite upd_other by auto; splits; eauto.
  - destruct (sleep s f); inversion E; subst. unfold hung. splits; eauto.
  - destruct (runs thr s f) eqn:Rf; [|discriminate]. assert (f <> g) by (intros ->; rewrite G in E; discriminate). assert (f <> c) by congruence.
    destruct (fib s f) eqn:F; inversion E; subst; clear E. unfold hung, wake_all; cbn [fib]. rewrite !upd_other by auto. rewrite G, C. splits; eauto.
  - destruct (runs thr s f) eqn:Rf; [|discriminate]. assert (f <> g) by (intros ->; rewrite G in E; discriminate). assert (f <> c) by congruence.
    destruct (fib s f) as [|[|j]| | | |]; inversion E; subst; clear E. unfold hung, put; cbn [fib]. rewrite !upd_other by auto. splits; eauto.
  - destruct (runs thr s f) eqn:Rf; [|discriminate]. assert (N : f <> g) by (intros ->; rewrite G in E; discriminate). assert (f <> c) by congruence. pose proof (Rx f Rf N).
    destruct (fib s f) as [|[|j]| | | |]; inversion E; subst; clear E. unfold hung, off, put, runs; cbn [fib run]. rewrite !upd_other by auto. splits; eauto.
  - destruct (runs thr s h) eqn:Rf; [|discriminate]. assert (h <> g) by (intros ->; rewrite G in E; destruct (negb (Nat.eqb g d)); discriminate). assert (h <> c) by congruence.
    destruct (negb (Nat.eqb h d)); [|discriminate]. destruct (fib s h); inversion E; subst; clear E. unfold hung, put; cbn [fib]. rewrite !upd_other by auto. splits; eauto.
  - destruct (runs thr s h) eqn:Rf; [|discriminate]. assert (N : h <> g) by (intros ->; unfold locked in E; rewrite G, C in E; discriminate). assert (h <> c) by congruence. pose proof (Rx h Rf N).
    destruct (fib s h) as [| |d|d|d|]; try discriminate.
    + destruct (locked s d); [discriminate|]. inversion E; subst; clear E. unfold enter. destruct (ended s d); unfold hung, off, put, runs; cbn [fib run]; rewrite !upd_other by auto; splits; eauto.
    + inversion E; subst; clear E. unfold hung, put; cbn [fib]. rewrite !upd_other by auto. splits; eauto.
Qed.

Lemma hung_clean : forall s l s' g c k, hung s g c -> fib s c = Cleaning k -> step thr n s l = Some s' -> fib s' c = Cleaning k.
Proof.
  intros s l s' g c k H C E. pose proof (hung_step _ _ _ _ _ H E) as H'. destruct H as (T & R & G & _). destruct H' as (_ & _ & _ & k' & C').
  assert (Nc : runs thr s c = false) by (destruct (runs thr s c) eqn:X; auto; pose proof (runs_at _ _ X); pose proof (runs_at _ _ R); congruence).
  rewrite C'. f_equal. unfold step in E. destruct l as [f|f|f|f|f|f|f|h d|h].
  - destruct (run s (thr f)); [discriminate|]. destruct (fib s f); try discriminate; destruct (sleep s f); inversion E; subst; simpl in C'; congruence.
  - destruct (runs thr s f); [|discriminate]. destruct (fib s f); inversion E; subst; simpl in C'; congruence.
  - destruct (runs thr s f); [|discriminate]. destruct (fib s f); inversion E; subst; simpl in C'; congruence.
  - destruct (sleep s f); inversion E; subst; simpl in C'; congruence.
  - destruct (runs thr s f) eqn:Rf; [|discriminate]. assert (c <> f) by congruence. destruct (fib s f); inversion E; subst. cbn [fib] in C'. rewrite upd_other in C' by auto. unfold wake_all in C'. rewrite C in C'. congruence.
  - destruct (runs thr s f) eqn:Rf; [|discriminate]. assert (c <> f) by congruence. destruct (fib s f) as [|[|j]| | | |]; inversion E; subst. unfold put in C'. cbn [fib] in C'. rewrite upd_other in C' by auto. congruence.
  - destruct (runs thr s f) eqn:Rf; [|discriminate]. assert (c <> f) by congruence. destruct (fib s f) as [|[|j]| | | |]; inversion E; subst. unfold put, off in C'. cbn [fib] in C'. rewrite upd_other in C' by auto. congruence.
  - destruct (runs thr s h) eqn:Rf; [|discriminate]. assert (c <> h) by congruence. destruct (negb (Nat.eqb h d)); [|discriminate]. destruct (fib s h); inversion E; subst. unfold put in C'. cbn [fib] in C'. rewrite upd_other in C' by auto. congruence.
  - destruct (runs thr s h) eqn:Rf; [|discriminate]. assert (c <> h) by congruence. destruct (fib s h) as [| |d|d|d|]; try discriminate.
    + destruct (locked s d); [discriminate|]. inversion E; subst. unfold enter, put, off in C'. destruct (ended s d); cbn [fib] in C'; rewrite upd_other in C' by auto; congruence.
    + inversion E; subst. unfold put in C'. cbn [fib] in C'. rewrite upd_other in C' by auto. congruence.
Qed.

Lemma exit_ended : forall s, reachable (step thr n) init_state s -> forall c, In (EExit c) (log s) -> ended s c = true.
Proof.
  apply (reachable_inv (step thr n) (fun s => forall c, In (EExit c) (log s) -> ended s c = true) init_state); [simpl; tauto|].
  intros s l s' IH E c. unfold step in E. destruct l as [f|f|f|f|f|f|f|h d|h].
  - destruct (run s (thr f)); [discriminate|]. destruct (fib s f); try discriminate; destruct (sleep s f); inversion E; subst; exact (IH c).
  - destruct (runs thr s f); [|discriminate]. destruct (fib s f); inversion E; subst; exact (IH c).
  - destruct (runs thr s f); [|discriminate]. destruct (fib s f); inversion E; subst; exact (IH c).
  - destruct (sleep s f); inversion E; subst; exact (IH c).
  - destruct (runs thr s f); [|discriminate]. destruct (fib s f); inversion E; subst. cbn [log ended]. destruct (Nat.eq_dec c f) as [->|N]; [now rewrite upd_same|rewrite upd_other by auto].
    intros [X|X]; [congruence|auto].
  - destruct (runs thr s f); [|discriminate]. destruct (fib s f) as [|[|j]| | | |]; inversion E; subst. simpl. intros [X|X]; [discriminate|auto].
  - destruct (runs thr s f); [|discriminate]. destruct (fib s f) as [|[|j]| | | |]; inversion E; subst. simpl. intros [X|X]; [discriminate|auto].
  - destruct (runs thr s h && negb (Nat.eqb h d)); [|discriminate]. destruct (fib s h); inversion E; subst. simpl. intros [X|X]; [discriminate|auto].
  - destruct (runs thr s h); [|discriminate]. destruct (fib s h) as [| |d|d|d|]; try discriminate.
    + destruct (locked s d); [discriminate|]. inversion E; subst. unfold enter. destruct (ended s d); simpl; auto. intros [X|[X|X]]; try discriminate; auto.
    + inversion E; subst. simpl. intros [X|X]; [discriminate|auto].
Qed.

Lemma finish : forall k s g c, thr c <> thr g -> fib s g = Spin c -> runs thr s g = true -> fib s c = Cleaning k -> runs thr s c = true -> ended s c = true ->
  exists s1, exec (step thr n) s (repeat (Clean c) k ++ [End c]) = Some s1 /\ fib s1 g = Spin c /\ runs thr s1 g = true /\ fib s1 c = Gone /\ ended s1 c = true.
Proof.
  induction k as [|k IH]; intros s g c T G Rg C Rc Ec; assert (N : g <> c) by congruence.
  - cbn [repeat app exec]. unfold step. rewrite Rc, C. eexists. split; [reflexivity|]. unfold off, put, runs; cbn [fib run ended]. rewrite upd_same, !upd_other by auto. splits; auto.
  - cbn [repeat app exec]. unfold step at 1. rewrite Rc, C. apply IH; unfold put; cbn [fib ended]; rewrite ?upd_same, ?upd_other by auto; auto.
Qed.

(** A fiber that has the processor is able to use it. *)
Definition able (p : pc) : bool := match p with Waiting _ | Gone => false | _ => true end.
Lemma run_able : forall s, reachable (step thr n) init_state s -> forall t f, run s t = Some f -> thr f = t /\ able (fib s f) = true.
Proof.
  apply (reachable_inv (step thr n) (fun s => forall t f, run s t = Some f -> thr f = t /\ able (fib s f) = true) init_state); [discriminate|].
  intros s l s' IH E t x.
  assert (O : forall f p, (able p = true \/ f <> x) -> run s t = Some x -> thr x = t /\ able (upd (fib s) f p x) = true).
  { intros f p H R. destruct (IH t x R) as (T & A). split; auto. destruct (Nat.eq_dec x f) as [->|N]; [rewrite upd_same; destruct H; congruence|now rewrite upd_other by auto]. }
  assert (F : forall f p, run s (thr f) = Some f -> upd (run s) (thr f) None t = Some x -> thr x = t /\ able (upd (fib s) f p x) = true).
  { intros f p Rf H. destruct (Nat.eq_dec t (thr f)) as [->|N]; [rewrite upd_same in H; discriminate|rewrite upd_other in H by auto]. apply O; auto. right. intros ->. destruct (IH t x H). congruence. }
  assert (G : forall f, run s (thr f) = Some f -> upd (run s) (thr f) None t = Some x -> thr x = t /\ able (fib s x) = true).
  { intros f Rf H. destruct (Nat.eq_dec t (thr f)) as [->|N]; [rewrite upd_same in H; discriminate|rewrite upd_other in H by auto]. auto. }
  unfold step in E. destruct l as [f|f|f|f|f|f|f|h d|h].
  - destruct (run s (thr f)) eqn:Rf; [discriminate|]. 
    assert (X : s' = mkSt (fib s) (upd (run s) (thr f) (Some f)) (sleep s) (ended s) (log s) /\ able (fib s f) = true) by (destruct (fib s f); try discriminate; destruct (sleep s f); inversion E; auto).
    destruct X as (-> & A). cbn [run fib]. destruct (Nat.eq_dec t (thr f)) as [->|N]; [rewrite upd_same; intros X; inversion X; subst; auto|rewrite upd_other by auto; auto].
  - destruct (runs thr s f) eqn:Rf; [|discriminate]. apply runs_at in Rf. destruct (fib s f); inversion E; subst; cbn [run fib off]; apply G; auto.
  - destruct (runs thr s f) eqn:Rf; [|discriminate]. apply runs_at in Rf. destruct (fib s f); inversion E; subst; cbn [run fib off]; apply G; auto.
  - destruct (sleep s f); inversion E; subst; cbn [run fib]; auto.
  - destruct (runs thr s f) eqn:Rf; [|discriminate]. apply runs_at in Rf. destruct (fib s f); inversion E; subst. cbn [run fib]. intros R. destruct (IH t x R) as (T & A). split; auto.
    destruct (Nat.eq_dec x f) as [->|N]; [now rewrite upd_same|rewrite upd_other by auto]. unfold wake_all. destruct (fib s x); auto; discriminate.
  - destruct (runs thr s f) eqn:Rf; [|discriminate]. destruct (fib s f) as [|[|j]| | | |]; inversion E; subst. cbn [run fib put]. apply O; auto.
  - destruct (runs thr s f) eqn:Rf; [|discriminate]. apply runs_at in Rf. destruct (fib s f) as [|[|j]| | | |]; inversion E; subst. cbn [run fib put off]. apply F; auto.
  - destruct (runs thr s h && negb (Nat.eqb h d)); [|discriminate]. destruct (fib s h); inversion E; subst. cbn [run fib put]. apply O; auto.
  - destruct (runs thr s h) eqn:Rf; [|discriminate]. apply runs_at in Rf. destruct (fib s h) as [| |d|d|d|]; try discriminate.
    + destruct (locked s d); [discriminate|]. inversion E; subst. unfold enter. destruct (ended s d); cbn [run fib put off]; [apply O; auto|apply F; auto].
    + inversion E; subst. cbn [run fib put]. apply O; auto.
Qed.
End F.
