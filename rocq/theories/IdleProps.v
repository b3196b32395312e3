(** C90: idle threads. *)
From Coq Require Import List Arith Bool Lia.
From Verif Require Import Base Algo AlgoSpec AlgoFacts Drive DriveSpec DriveAlgo DriveProofs DriveInv DriveProps Idle IdleSpec IdleProofs.
Import ListNotations.

Section Props.
Variable kind : nat -> akind.
Variable sched : nat -> nat -> option nat.
Variable susp : nat -> bool.
Variable cfg : well_configured kind sched.
Notation step := (istep kind sched susp).
Notation reach := (reachable step iinit).

(** ** C90. "A thread does not sleep in suspend_until() while there is a ready fiber that its pick_next() could return, unless it is about to be notified" is false (below). What holds: *)

(** No context, of whatever type, is in the ready queue of the sleeping thread itself. *)
Theorem C90_own_partial s : reach s -> forall t, asleep s t -> forall c, ~ In c (q (al (dr s)) t).
Proof. intros R t (dl & E) c. destruct (v_idle _ _ _ _ (iinv_reachable kind sched susp cfg s R) t) as (_ & ->); [congruence|auto]. Qed.
(** With round_robin that is all: the property holds. *)
Theorem C90_round_robin_partial s : reach s -> forall t, kind t = RoundRobin -> asleep s t -> forall k, ~ can_run kind sched s t k.
Proof. intros R t K A k C. unfold can_run in C. rewrite K in C. eapply C90_own_partial; eauto. Qed.
(** No wake-up from another thread is lost: if a context has been handed to a sleeping thread, flag_ is set or the waking thread is about to set it. *)
Theorem C90_remote_partial s : reach s -> forall t, asleep s t -> rem (dr s) t <> [] -> flag s t = true \/ exists u, note s u = Some t.
Proof.
  intros R t A N. assert (I := iinv_reachable kind sched susp cfg s R). destruct (v_remote _ _ _ _ I t (v_sleeps _ _ _ _ I t A) N) as [F|[F|(F & _)]]; auto.
  destruct A. congruence.
Qed.
(** ... and both lead to the end of the wait. *)
Theorem C90_notified s t : asleep s t -> flag s t = true -> exists s', step s (Rouse t) = Some s' /\ idle s' t = Busy.
Proof. intros (dl & A) F. simpl. rewrite A, F. eexists. split; [reflexivity|]. simpl. apply upd_same. Qed.
Theorem C90_notify s t u : reach s -> asleep s t -> note s u = Some t -> exists s', step s (Notify u) = Some s' /\ flag s' t = true /\ idle s' t = idle s t.
Proof.
  intros R A N. simpl. rewrite N. eexists. split; [reflexivity|]. simpl. unfold notify. rewrite (v_sleeps _ _ _ _ (iinv_reachable kind sched susp cfg s R) t A). rewrite upd_same. auto.
Qed.
(** Without [suspend] no thread ever sleeps. *)
Theorem C90_nosuspend_partial s : reach s -> forall t, kind t <> RoundRobin -> susp t = false -> ~ asleep s t.
Proof. intros R t K S A. pose proof (v_sleeps _ _ _ _ (iinv_reachable kind sched susp cfg s R) t A) as X. unfold sleeps in X. destruct (kind t); congruence. Qed.
(** shared_work: while a fiber is ready not all threads are idle, unless a thread with that algorithm has ended. *)
Theorem C90_shared_partial s : reach s -> forall t k, kind t = SharedWork -> asleep s t -> can_run kind sched s t k ->
  exists u, u <> t /\ kind u = SharedWork /\ (at_work s u \/ mode (dr s) u = Gone).
Proof.
  intros R t k K A C. assert (I := iinv_reachable kind sched susp cfg s R). unfold can_run in C. rewrite K in C. destruct C as [C|C]; [|exfalso; eapply C90_own_partial; eauto].
  destruct (v_shared _ _ _ _ I) as (u & U1 & U2 & U3); [intros E; rewrite E in C; easy|]. exists u. splits; auto.
  - intros ->. destruct A. congruence.
  - destruct (mode (dr s) u) eqn:M; [congruence|left; unfold at_work; rewrite M; splits; auto; discriminate..|auto].
Qed.
(** The same for work_stealing: the thread with the fiber in its queue is not idle. *)
Theorem C90_stealing_partial s : reach s -> forall a k, In (fiber k) (q (al (dr s)) a) -> at_work s a \/ mode (dr s) a = Gone.
Proof.
  intros R a k C. assert (I := iinv_reachable kind sched susp cfg s R).
  assert (B : idle s a = Busy). { destruct (idle s a) eqn:E; auto; destruct (v_idle _ _ _ _ I a) as (_ & Q); try congruence; rewrite Q in C; easy. }
  assert (M1 : mode (dr s) a <> Off). { intros M. rewrite (v_off _ _ _ _ I a M) in C. easy. }
  destruct (mode (dr s) a) eqn:M; [congruence|left; unfold at_work; rewrite M; splits; auto; discriminate..|auto].
Qed.
End Props.

(** ** Refutation *)
Definition all_shared (_ : nat) : akind := SharedWork.
Definition no_sched (_ _ : nat) : option nat := None.
Definition yes (_ : nat) : bool := true.
Lemma ran kind sched susp ls (P : ist -> Prop) : match exec (istep kind sched susp) iinit ls with Some s => P s | None => False end -> exists s, reachable (istep kind sched susp) iinit s /\ P s.
Proof. apply (reach_by (istep kind sched susp) iinit ls P). Qed.
(** Two threads; main of thread 1 blocks (it waits for something), thread 1 goes to sleep. *)
Definition nap : list ilabel := [D (Begin 0); D (Begin 1); D (Block 1); D (Loop 1); D (Next 1); Enter 1 false].
(** A thread that takes no part keeps its state. *)
Lemma untouched kind sched susp (cfg : well_configured kind sched) ls : forall s s' u, reachable (istep kind sched susp) iinit s -> exec (istep kind sched susp) s ls = Some s' -> forallb (fun l => negb (actor l =? u)) ls = true ->
  note s' u = note s u /\ idle s' u = idle s u /\ mode (dr s') u = mode (dr s) u.
Proof.
  induction ls as [|l ls IH]; cbn [exec forallb]; intros s s' u R E F; [injection E as <-; auto|].
  apply andb_prop in F. destruct F as (F & F'). apply negb_true_iff, Nat.eqb_neq in F.
  destruct (istep kind sched susp s l) as [s1|] eqn:E1; [|discriminate].
  destruct (IH s1 s' u (reachable_step _ _ _ _ _ R E1) E F') as (A & B & C). rewrite A, B, C. clear IH E A B C F'.
  destruct l as [l|t|t dl|t|t]; simpl in F, E1.
  - destruct (idle s (who l)); try discriminate. destruct (note s (who l)); [discriminate|]. destruct (dstep kind sched (dr s) l) as [d|] eqn:Ed; [|discriminate]. injection E1 as <-. simpl.
    assert (I := iinv_reachable kind sched susp cfg s R). assert (J := dinv_reachable kind sched cfg _ (v_dr _ _ _ _ I)).
    assert (Sr : forall t, mode (dr s) t = Picking KDisp -> nothing kind (al (dr s)) t).
    { intros t M. split; [now apply (v_search _ _ _ _ I)|]. intros K. exfalso. pose proof (d_pc _ _ _ J t) as P. rewrite M in P. destruct P as (_ & r & n & P).
      destruct (good_inv pinned home kind sched cfg _ (d_good _ _ _ J)) as (pl & A). destruct (AlgoFacts.i_steal _ _ _ _ _ _ A t r n None P) as (own & loc & remote & Kk & _).
      rewrite (g_cur _ _ _ _ _ (d_good _ _ _ J)) in Kk. congruence. }
    destruct (dstep_eff kind sched cfg _ _ _ J Sr Ed) as [X1 _ _ _ _ _ _ _].
    rewrite X1, upd_other by auto. splits; auto. destruct (null_picked _ _ _); auto. now rewrite upd_other by auto.
  - destruct (note s t); [|discriminate]. injection E1 as <-. simpl. now rewrite upd_other by auto.
  - destruct (idle s t); try discriminate. destruct (negb _); [|destruct (flag s t)]; injection E1 as <-; simpl; now rewrite upd_other by auto.
  - destruct (idle s t); try discriminate. destruct (flag s t); [|discriminate]; injection E1 as <-; simpl; now rewrite upd_other by auto.
  - destruct (idle s t) as [| |[|]]; try discriminate. injection E1 as <-; simpl; now rewrite upd_other by auto.
Qed.
(** A sleeping thread, one that has ended, and one that has not begun, do nothing. *)
Lemma sleeper_stuck kind sched susp s t : idle s t = Asleep false -> flag s t = false -> note s t = None -> forall l, actor l = t -> istep kind sched susp s l = None.
Proof. intros X Y N [l|u|u dl|u|u] A; simpl in A; simpl; subst; rewrite ?X, ?N; auto. now rewrite Y. Qed.
Lemma over_stuck kind sched susp s t : idle s t = Busy -> note s t = None -> mode (dr s) t = Gone \/ mode (dr s) t = Off -> forall l, actor l = t -> l <> D (Begin t) -> istep kind sched susp s l = None.
Proof.
  intros X N M [l|u|u dl|u|u] A Nb; simpl in A; cbn [istep]; subst; rewrite ?X, ?N; auto.
  assert (E : dstep kind sched (dr s) l = None); [|now rewrite E].
  destruct l; simpl in *; destruct M as [-> | ->]; auto. now destruct Nb.
Qed.
Lemma ran2 kind sched susp ls n (P : ist -> Prop) : well_configured kind sched -> forallb (fun l => actor l <? n) ls = true ->
  match exec (istep kind sched susp) iinit ls with Some s => P s | None => False end ->
  exists s, reachable (istep kind sched susp) iinit s /\ P s /\ forall u, n <= u -> note s u = None /\ idle s u = Busy /\ mode (dr s) u = Off.
Proof.
  intros cfg F H. destruct (exec _ _ ls) as [s|] eqn:E; [|easy]. exists s. splits; auto; [now exists ls|].
  intros u Hu. apply (untouched kind sched susp cfg ls iinit s u (reachable_refl _ _) E). apply forallb_forall. intros l L. rewrite forallb_forall in F. specialize (F l L). apply Nat.ltb_lt in F. apply negb_true_iff, Nat.eqb_neq. lia.
Qed.
Lemma shared_ok : well_configured all_shared no_sched. Proof. intros a own loc remote. discriminate. Qed.
(** shared_work( true): thread 0 then makes as many fibers ready as you like; thread 1 could run every one of them, and sleeps. *)
Record pile (n : nat) (s : ist) : Prop := {
  p_sleep : sound_asleep s 1;
  p_pile : forall k, k < n -> In (fiber k) (shq (al (dr s)));
  p_busy : idle s 0 = Busy; p_note : forall t, note s t = None; p_mode : mode (dr s) 0 = Run (mainc 0); p_mode1 : mode (dr s) 1 = Run (disp 1);
  p_pc : pc (al (dr s)) 0 = Idle; p_cur : cur (al (dr s)) 0 = 0;
  p_old : forall k, In k (started (dr s)) -> k < n
}.
Lemma pile_up n : exists s, reachable (istep all_shared no_sched yes) iinit s /\ pile n s.
Proof.
  induction n as [|n (s & R & [P1 P2 P3 P4 P5 P5' P6 P7 P9])].
  - destruct (ran2 all_shared no_sched yes nap 2 (fun s => (idle s 1 = Asleep false /\ flag s 1 = false /\ idle s 0 = Busy) /\ (note s 0 = None /\ note s 1 = None) /\ (mode (dr s) 0 = Run (mainc 0) /\ mode (dr s) 1 = Run (disp 1)) /\ pc (al (dr s)) 0 = Idle /\ cur (al (dr s)) 0 = 0 /\ started (dr s) = [])
      shared_ok eq_refl) as (s & R & ((A & B & C) & (N0 & N1) & (M0 & M1) & E & F & G) & O).
    { vm_compute. splits; auto. }
    assert (N : forall t, note s t = None). { intros [|[|u]]; auto. apply O. lia. }
    exists s. split; auto. constructor; auto; try lia.
    + split; [auto|]. split; [auto|]. intros u. rewrite N. discriminate.
    + intros k. now rewrite G.
  - assert (Nw : att (al (dr s)) (fiber n) = None /\ ready (al (dr s)) (fiber n) = false /\ linked (al (dr s)) (fiber n) = false).
    { assert (J := dinv_reachable all_shared no_sched shared_ok _ (v_dr _ _ _ _ (iinv_reachable all_shared no_sched yes shared_ok s R))).
      pose proof (k_fresh _ _ (d_core _ _ _ J) n) as K. simpl in K. assert (Ns : ~ In n (started (dr s))) by (intros F; specialize (P9 n F); lia).
      assert (Rn : ready (al (dr s)) (fiber n) = false) by (destruct (ready _ _); auto; destruct Ns; auto).
      splits; auto.
      - destruct (att _ _); auto. destruct Ns. apply K. left. discriminate.
      - destruct (good_inv pinned home _ _ shared_ok _ (d_good _ _ _ J)) as (pl & I). destruct (linked _ _) eqn:L; auto. apply (AlgoFacts.i_linked _ _ _ _ _ _ I) in L.
        assert (pl (fiber n) <> None) by (destruct L as (a & L & _); congruence). apply (AlgoFacts.i_ready _ _ _ _ _ _ I) in H. congruence. }
    destruct Nw as (A & B & L).
    assert (St : existsb (Nat.eqb n) (started (dr s)) = false).
    { destruct (existsb _ _) eqn:X; auto. apply existsb_exists in X. destruct X as (k & K & X). apply Nat.eqb_eq in X. subst k. specialize (P9 n K). lia. }
    assert (E : exists s', istep all_shared no_sched yes s (D (Spawn 0 n)) = Some s' /\ pile (S n) s'); [|destruct E as (s' & E & E'); exists s'; split; auto; eapply reachable_step; eauto].
    cbn [istep who]. rewrite P3, P4. cbn [dstep]. rewrite P5. change (mainc 0 =? disp 0) with false. cbn [orb]. rewrite St. cbn [Algo.step]. rewrite P6, A, pinned_fiber, B. cbn [orb].
    unfold call_awake. cbn [al Algo.step pc att]. rewrite P6, upd_same. cbn [Nat.eqb andb ready]. rewrite B. cbn [negb]. unfold awakened at 1. cbn [cur all_shared with_log with_ready]. rewrite pinned_fiber.
    unfold can_detach. cbn [att linked with_log with_ready]. rewrite upd_same, L, pinned_fiber. cbn [Nat.eqb negb andb with_al]. eexists. split; [reflexivity|].
    unfold null_picked. cbn [mode]. rewrite P5. constructor; simpl; auto.
    + destruct P1 as (X & Y & Z). split; auto. split; auto. intros u. simpl. upds; [discriminate|auto].
    + intros k K. apply in_or_app. destruct (Nat.eq_dec k n) as [->|N]; [right; now left|left; apply P2; lia].
    + intros t. upds; auto.
    + intros k [<-|K]; [lia|]. specialize (P9 k K). lia.
Qed.
Theorem C90_refuted_shared : forall n, exists s, reachable (istep all_shared no_sched yes) iinit s /\ sound_asleep s 1 /\
  (forall k, k < n -> can_run all_shared no_sched s 1 k) /\ forall l, actor l = 1 -> istep all_shared no_sched yes s l = None.
Proof.
  intros n. destruct (pile_up n) as (s & R & [P1 P2 P3 P4 P5 P5' P6 P7 P9]). exists s. splits; auto.
  - intros k K. left. now apply P2.
  - destruct P1 as (X & Y & Z). intros [l|t|t dl|t|t] A; simpl in A; simpl.
    + now rewrite A, X.
    + now rewrite P4.
    + now rewrite A, X.
    + now rewrite A, X, Y.
    + now rewrite A, X.
Qed.
(** work_stealing( 2, true): fiber 1 is the first in the queue of thread 0, where fiber 0 runs. *)
Theorem C90_refuted_stealing : exists s, reachable (istep two at2 yes) iinit s /\ sound_asleep s 1 /\ can_run two at2 s 1 1 /\ hd_error (q (al (dr s)) 0) = Some (fiber 1) /\ forall l, actor l = 1 -> istep two at2 yes s l = None.
Proof.
  destruct (ran2 two at2 yes [D (Begin 0); D (Begin 1); D (Block 1); D (Loop 1); D (Next 1); D (Choose 1 1); D (Choose 1 0); Enter 1 false; D (Spawn 0 0); D (Spawn 0 1); D (Yield 0); D (Next 0); D (Loop 0); D (Next 0); D (Next 0)] 2
    (fun s => (idle s 1 = Asleep false /\ flag s 1 = false) /\ (note s 0 = None /\ note s 1 = None) /\ (In (fiber 1) (q (al (dr s)) 0) /\ hd_error (q (al (dr s)) 0) = Some (fiber 1))) two_ok eq_refl) as (s & R & ((X & Y) & (N0 & N1) & Q & Q') & O).
  { vm_compute. tauto. }
  exists s. splits; auto.
  - split; [auto|]. split; [auto|]. intros [|[|u]]; try congruence. destruct (O (S (S u))) as (-> & _); [lia|discriminate].
  - right. exists 0, 0. splits; auto. simpl. auto.
  - now apply sleeper_stuck.
Qed.
(** A thread with shared_work( true) has ended, its fiber is ready: all other threads sleep for good. *)
Theorem C90_refuted_all : exists s, reachable (istep all_shared no_sched yes) iinit s /\ mode (dr s) 0 = Gone /\ sound_asleep s 1 /\ can_run all_shared no_sched s 1 0 /\
  forall l, (forall t, l <> D (Begin t)) -> istep all_shared no_sched yes s l = None.
Proof.
  destruct (ran2 all_shared no_sched yes (nap ++ [D (Spawn 0 0); D (Exit 0); D (Yield 0); D (Next 0); D (Break 0)]) 2
    (fun s => (idle s 1 = Asleep false /\ flag s 1 = false) /\ (note s 0 = None /\ note s 1 = None) /\ (idle s 0 = Busy /\ mode (dr s) 0 = Gone) /\ In (fiber 0) (shq (al (dr s)))) shared_ok eq_refl)
    as (s & R & ((X & Y) & (N0 & N1) & (B & M) & Q) & O).
  { vm_compute. tauto. }
  exists s. splits; auto.
  - split; [auto|]. split; [auto|]. intros [|[|u]]; try congruence. destruct (O (S (S u))) as (-> & _); [lia|discriminate].
  - now left.
  - intros l A. destruct (Nat.eq_dec (actor l) 0) as [E|E0]; [|destruct (Nat.eq_dec (actor l) 1) as [E|E1]].
    + apply (over_stuck _ _ _ s 0); auto.
    + apply (sleeper_stuck _ _ _ s 1); auto.
    + destruct (O (actor l)) as (O1 & O2 & O3); [lia|]. apply (over_stuck _ _ _ s (actor l)); auto.
Qed.

(** ** Cases *)
(** Thread 1 sleeps with round_robin, its main context has been woken by thread 0: before and after notify(). *)
Definition all_rr (_ : nat) : akind := RoundRobin.
Example C90_remote_case1 : exists s, reachable (istep all_rr no_sched yes) iinit s /\ asleep s 1 /\ rem (dr s) 1 <> [] /\ flag s 1 = false /\ note s 0 = Some 1.
Proof. apply ran with (ls := nap ++ [D (Wake 0 (mainc 1))]). vm_compute. splits; auto; [now exists false|discriminate]. Qed.
Example C90_remote_case2 : exists s, reachable (istep all_rr no_sched yes) iinit s /\ asleep s 1 /\ rem (dr s) 1 <> [] /\ flag s 1 = true.
Proof. apply ran with (ls := nap ++ [D (Wake 0 (mainc 1)); Notify 0]). vm_compute. splits; auto; [now exists false|discriminate]. Qed.
(** ... and then it runs again. *)
Example C90_notified_case : exists s, reachable (istep all_rr no_sched yes) iinit s /\ mode (dr s) 1 = Run (mainc 1) /\ flag s 1 = false.
Proof. apply ran with (ls := nap ++ [D (Wake 0 (mainc 1)); Notify 0; Rouse 1; D (Loop 1); D (Next 1); D (Next 1); D (Next 1)]). vm_compute. splits; auto. Qed.
(** The notification may come before the thread goes to sleep. *)
Example C90_early_case : exists s, reachable (istep all_rr no_sched yes) iinit s /\ idle s 1 = Busy /\ rem (dr s) 1 = [mainc 1].
Proof. apply ran with (ls := [D (Begin 0); D (Begin 1); D (Block 1); D (Loop 1); D (Next 1); D (Wake 0 (mainc 1)); Notify 0; Enter 1 false]). vm_compute. splits; auto. Qed.
(** C90_shared_partial and C90_stealing_partial apply to the states of the refutations; without [suspend] the idle thread goes on. *)
Example C90_nosuspend_case : exists s, reachable (istep all_shared no_sched (fun _ => false)) iinit s /\ mode (dr s) 1 = Run (fiber 0).
Proof. apply ran with (ls := nap ++ [D (Spawn 0 0); D (Loop 1); D (Next 1); D (Next 1)]). vm_compute. splits; auto. Qed.

Print Assumptions C90_own_partial.
Print Assumptions C90_round_robin_partial.
Print Assumptions C90_remote_partial.
Print Assumptions C90_notified.
Print Assumptions C90_notify.
Print Assumptions C90_nosuspend_partial.
Print Assumptions C90_shared_partial.
Print Assumptions C90_stealing_partial.
Print Assumptions C90_refuted_shared.
Print Assumptions C90_refuted_stealing.
Print Assumptions C90_refuted_all.
