(** C76, C77: the schedulers on top of the algorithms. *)
From Coq Require Import List Arith Bool Lia.
From Verif Require Import Base Algo AlgoSpec AlgoFacts Drive DriveSpec DriveAlgo DriveProofs DriveInv.
Import ListNotations.

Section Props.
Variable kind : nat -> akind.
Variable sched : nat -> nat -> option nat.
Variable cfg : well_configured kind sched.
Notation step := (dstep kind sched).
Notation reach := (reachable step dinit).

(** ** C76. Whatever the algorithms: a context that yields, blocks or terminates always finds another one to resume. *)
Theorem C76_never_null s : reach s -> forall t, mode s t <> Null.
Proof. intros R. apply (d_null _ _ _ (dinv_reachable kind sched cfg s R)). Qed.

Lemma hands_holds t m c : in_hands t m c -> In c (holds t m).
Proof. destruct m as [| | |[| |]| | |]; simpl; intuition. Qed.
Lemma holds_hands t m c : In c (holds t m) -> pinned c = false -> in_hands t m c.
Proof.
  assert (D : forall x, x = c -> pinned c = false -> (forall t, c <> mainc t) /\ (forall t, c <> disp t)). { intros x _ P. split; intros u ->; rewrite ?pinned_main, ?pinned_disp in P; discriminate. }
  destruct m as [| | |[| |]| | |]; simpl; intros H P; destruct (D c eq_refl P) as (D1 & D2); intuition congruence.
Qed.
Lemma ready_queue s c : DInv kind sched s -> ready (al s) c = true <-> (exists a, In c (q (al s) a)) \/ In c (shq (al s)).
Proof.
  intros I. destruct (good_inv pinned home kind sched cfg (al s) (d_good _ _ _ I)) as (pl & J). rewrite (AlgoFacts.i_ready _ _ _ _ _ _ J). split.
  - intros N. destruct (pl c) as [[a| |t]|] eqn:E; [left; exists a; now apply (AlgoFacts.i_q _ _ _ _ _ _ J)|right; now apply (AlgoFacts.i_sh _ _ _ _ _ _ J)| |congruence].
    exfalso. destruct (proj1 (AlgoFacts.i_hand _ _ _ _ _ _ J t c) E) as [(b & S)|S]; [|discriminate]. pose proof (d_pc _ _ _ I t) as P. rewrite S in P. destruct (mode s t); try discriminate. destruct P as (_ & r & n & P). discriminate.
  - intros [(a & Q)|Q] F; [apply (AlgoFacts.i_q _ _ _ _ _ _ J) in Q|apply (AlgoFacts.i_sh _ _ _ _ _ _ J) in Q]; congruence.
Qed.

(** Every worker context that has been created is in exactly one place: it is never lost, never in two queues, never in the hands of two threads, never made ready while it runs. *)
Theorem C76_one_place s : reach s -> forall k, In k (started s) -> exists p, is_at s (fiber k) p /\ forall p', is_at s (fiber k) p' -> p' = p.
Proof.
  intros R k K. assert (I := dinv_reachable kind sched cfg s R). assert (C := d_core _ _ _ I).
  destruct (good_inv pinned home kind sched cfg (al s) (d_good _ _ _ I)) as (pl & J).
  assert (Rq := ready_queue s (fiber k) I).
  assert (Hq : forall a, In (fiber k) (q (al s) a) -> ready (al s) (fiber k) = true) by (intros a X; apply Rq; eauto).
  assert (Hs : In (fiber k) (shq (al s)) -> ready (al s) (fiber k) = true) by (intros X; apply Rq; eauto).
  assert (Hh : forall t, in_hands t (mode s t) (fiber k) \/ In (fiber k) (rem s t) -> att (al s) (fiber k) = Some t /\ ready (al s) (fiber k) = false /\ bl s (fiber k) = false /\ dead s (fiber k) = false).
  { intros t X. apply (k_hold _ _ C t). destruct X as [X|X]; auto. left. now apply hands_holds. }
  assert (Both : forall t, in_hands t (mode s t) (fiber k) -> In (fiber k) (rem s t) -> False).
  { intros t X Y. apply hands_holds in X. pose proof (k_nd _ _ C t) as N. simpl in N. clear - N X Y. revert N X. generalize (holds t (mode s t)). induction l as [|z l IH]; simpl; [easy|]. intros N X. inversion N as [|? ? N1 N2]; subst. destruct X as [->|X]; auto. apply N1, in_or_app. auto. }
  assert (Uq : forall p p', is_at s (fiber k) p -> is_at s (fiber k) p' -> p' = p).
  { assert (Kb := k_bl _ _ C (fiber k)). assert (Kd := k_dead _ _ C (fiber k)). simpl in Kb, Kd.
    intros p p' A B. destruct p as [a| | |t|t|], p' as [a'| | |t'|t'|]; simpl in A, B; auto;
    try (specialize (Hq _ A)); try (specialize (Hq _ B)); try (specialize (Hs A)); try (specialize (Hs B));
    try (destruct (Kb A)); try (destruct (Kb B)); try (specialize (Kd A)); try (specialize (Kd B));
    try (destruct (Hh t (or_introl A)) as (?&?&?&?)); try (destruct (Hh t (or_intror A)) as (?&?&?&?)); try (destruct (Hh t' (or_introl B)) as (?&?&?&?)); try (destruct (Hh t' (or_intror B)) as (?&?&?&?));
    try (exfalso; intuition congruence); try congruence.
    - apply (AlgoFacts.i_q _ _ _ _ _ _ J) in A, B. congruence.
    - apply (AlgoFacts.i_q _ _ _ _ _ _ J) in A. apply (AlgoFacts.i_sh _ _ _ _ _ _ J) in B. congruence.
    - apply (AlgoFacts.i_q _ _ _ _ _ _ J) in B. apply (AlgoFacts.i_sh _ _ _ _ _ _ J) in A. congruence.
    - exfalso. assert (t' = t) by congruence. subst. eauto.
    - exfalso. assert (t' = t) by congruence. subst. eauto. }
  assert (Ex : exists p, is_at s (fiber k) p); [|destruct Ex as (p & P); eauto].
  destruct (k_live _ _ C k K) as [X|[X|[X|(t & [X|X])]]]; simpl in X.
  - now exists PDead.
  - apply Rq in X. destruct X as [(a & X)|X]; [now exists (PQueue a)|now exists PShared].
  - now exists PBlocked.
  - exists (PThread t). apply holds_hands; auto. apply pinned_fiber.
  - now exists (PRemote t).
Qed.
(** No context, of whatever type, runs on two threads. *)
Theorem C76_one_thread s : reach s -> forall c t u, in_hands t (mode s t) c -> in_hands u (mode s u) c -> t = u.
Proof.
  intros R c t u A B. assert (C := d_core _ _ _ (dinv_reachable kind sched cfg s R)). apply hands_holds in A, B.
  destruct (k_hold _ _ C t c (or_introl A)) as (X & _). destruct (k_hold _ _ C u c (or_introl B)) as (Y & _). congruence.
Qed.
(** Main and dispatcher contexts only ever run on their own thread. *)
Theorem C76_pinned s : reach s -> forall c t, in_hands t (mode s t) c -> pinned c = true -> home c = t.
Proof.
  intros R c t A P. assert (I := dinv_reachable kind sched cfg s R). apply hands_holds in A.
  destruct (k_hold _ _ (d_core _ _ _ I) t c (or_introl A)) as (X & _). simpl in X. pose proof (pinned_att _ _ _ _ cfg _ _ (d_good _ _ _ I) P). congruence.
Qed.
(** No thread gets stuck inside its scheduler: awakened() and pick_next() can be called whenever the code calls them, with contexts that are attached to the thread and not ready. *)
Theorem C76_not_stuck s : reach s -> forall t,
  match mode s t with
  | Off => step s (Begin t) <> None
  | Run c => if c =? disp t then step s (Break t) <> None \/ step s (Loop t) <> None else step s (Yield t) <> None /\ step s (Block t) <> None
  | Drain _ | Post _ _ => step s (Next t) <> None
  | Picking _ => exists d, step s (Choose t d) <> None
  | Null => False
  | Gone => True
  end.
Proof.
  intros R t. assert (I := dinv_reachable kind sched cfg s R). assert (C := d_core _ _ _ I). pose proof (d_pc _ _ _ I t) as P. pose proof (d_null _ _ _ I t) as N.
  pose proof (k_hold _ _ C t) as H. simpl in H.
  assert (Aw : forall s0 c, al s0 = al s -> pc (al s) t = Idle -> In c (holds t (mode s t)) -> call_awake kind sched s0 t c <> None).
  { intros s0 c E P0 Ic. destruct (H c (or_introl Ic)) as (A1 & A2 & _). unfold call_awake. rewrite E. destruct (awake_enabled pinned kind sched (al s) t c P0 A1 A2) as (a & ->). discriminate. }
  assert (Pk : forall s0 k, al s0 = al s -> pc (al s) t = Idle -> call_pick kind sched s0 t k <> None).
  { intros s0 k E P0. unfold call_pick. rewrite E. destruct (pick_enabled pinned kind sched (al s) t P0) as (a & ->). discriminate. }
  destruct (mode s t) as [|c|l|k|n p| |] eqn:M; auto.
  - simpl. rewrite M. apply Aw; auto. simpl. auto.
  - simpl. rewrite M. destruct (Nat.eqb_spec c (disp t)) as [->|Nc].
    + cbn [andb]. destruct (down s t && no_workers s t); [left|right]; discriminate.
    + split; apply Pk; auto.
  - simpl. rewrite M. destruct l as [|c l]; [apply Pk; auto|]. apply Aw; auto. simpl. auto.
  - destruct P as (-> & r & m & P). destruct (good_inv pinned home kind sched cfg (al s) (d_good _ _ _ I)) as (pl & J).
    destruct (AlgoFacts.i_steal _ _ _ _ _ _ J t r m None P) as (own & loc & remote & K & Hr).
    assert (Ne : (if r then remote else loc) <> []) by (destruct r; auto; apply (cfg _ _ _ _ K)).
    exists 0. cbn [dstep]. rewrite M. simpl. rewrite P. unfold draw. rewrite K. destruct (if r then remote else loc) as [|i l]; [congruence|]. simpl.
    destruct (i =? own); [destruct r; discriminate|]. destruct (sched (cur (al s) t) i) as [v|]; [|discriminate]. destruct (steal pinned (al s) v) as [s1 [x|]]; [discriminate|].
    destruct (S m <? _); [discriminate|]. destruct (negb r && _); discriminate.
  - simpl. rewrite M. apply Aw; auto. simpl. auto.
Qed.

(** ** C77. When the scheduler of a thread has been destroyed, every worker context still attached to it (it blocked there, or runs under round_robin) has terminated. *)
Theorem C77_attached_partial s : reach s -> forall t k, mode s t = Gone -> In k (started s) -> att (al s) (fiber k) = Some t -> dead s (fiber k) = true.
Proof. intros R t k M K A. apply (k_gone _ _ (d_core _ _ _ (dinv_reachable kind sched cfg s R)) t k); auto. simpl. now rewrite M. Qed.
(** With round_robin: every worker context created on the thread. *)
Theorem C77_round_robin_partial s : reach s -> forall k, In k (started s) -> kind (born s k) = RoundRobin -> mode s (born s k) = Gone -> dead s (fiber k) = true.
Proof.
  intros R k K Kr M. apply (C77_attached_partial s R (born s k) k M K). apply (k_rr _ _ (d_core _ _ _ (dinv_reachable kind sched cfg s R)) k K Kr).
Qed.
(** When all threads have ended nothing happens any more, unless a new thread begins. *)
Lemma over_stops s l : all_over s -> (forall t, l <> Begin t) -> step s l = None.
Proof.
  intros H N. destruct l as [t|t k|t k|t|t|t|t c|t|t|t|t|t d]; simpl; try (now destruct (N t)); destruct (H t) as [-> | ->]; auto.
Qed.
End Props.

Lemma ran kind sched ls (P : dst -> Prop) : match exec (dstep kind sched) dinit ls with Some s => P s | None => False end -> exists s, reachable (dstep kind sched) dinit s /\ P s.
Proof. apply (reach_by (dstep kind sched) dinit ls P). Qed.

(** With shared_work, one thread: main creates a fiber and ends; the fiber yields, which takes it off the worker queue before the dispatcher looks whether the worker queue is empty. *)
Definition lost_shared : list label := [Begin 0; Spawn 0 0; Exit 0; Yield 0; Next 0; Break 0].
Theorem C77_refuted_shared : exists s, reachable (dstep (fun _ => SharedWork) (fun _ _ => None)) dinit s /\
  all_over s /\ In 0 (started s) /\ is_at s (fiber 0) PShared /\ dead s (fiber 0) = false.
Proof.
  apply ran with (ls := lost_shared). vm_compute. splits; auto. intros [|t]; auto.
Qed.
(** With work_stealing, two threads: main of thread 0 creates a fiber and ends; the fiber has not run at all. *)
Definition lost_stealing : list label := [Begin 0; Begin 1; Spawn 0 0; Exit 0; Break 0; Exit 1; Break 1].
Definition two (a : nat) : akind := if a <? 2 then plain a 2 else RoundRobin.
Definition at2 (_ i : nat) : option nat := if i <? 2 then Some i else None.
Theorem C77_refuted_stealing : exists s, reachable (dstep two at2) dinit s /\
  all_over s /\ In 0 (started s) /\ is_at s (fiber 0) (PQueue 0) /\ dead s (fiber 0) = false.
Proof.
  apply ran with (ls := lost_stealing). vm_compute. splits; auto. intros [|[|t]]; auto.
Qed.
Lemma two_ok : well_configured two at2.
Proof.
  intros a own loc remote. unfold two, plain. destruct (Nat.ltb_spec a 2); [|discriminate]. intros E. injection E as <- <- <-. splits; [discriminate|easy|].
  intros i [<-|[<-|[]]]; eexists; split; reflexivity.
Qed.
(** Two threads with work_stealing: a fiber of thread 0 is stolen by thread 1, blocks there, is woken from thread 0 and terminates on thread 1; another one is launched at once. *)
Definition busy : list label :=
  [Begin 0; Begin 1; Spawn 0 0; Yield 0; Next 0; Block 1; Loop 1; Next 1; Choose 1 0; Next 1; Block 1; Loop 0; Next 0; Next 0; Launch 0 1; Next 0; Wake 0 (fiber 0); Loop 1; Next 1; Next 1; Next 1; Term 1; Term 0].
Example C76_nonvacuous : exists s, reachable (dstep two at2) dinit s /\ dead s (fiber 0) = true /\ dead s (fiber 1) = true /\ In 0 (started s) /\ att (al s) (fiber 0) = Some 1.
Proof. apply ran with (ls := busy). vm_compute. splits; auto. Qed.
(** A thread with round_robin that ends properly. *)
Example C77_nonvacuous : exists s, reachable (dstep (fun _ => RoundRobin) (fun _ _ => None)) dinit s /\ mode s 0 = Gone /\ In 0 (started s) /\ born s 0 = 0.
Proof. apply ran with (ls := [Begin 0; Spawn 0 0; Exit 0; Loop 0; Next 0; Next 0; Yield 0; Next 0; Loop 0; Next 0; Next 0; Term 0; Break 0]). vm_compute. splits; auto. Qed.

Print Assumptions C76_never_null.
Print Assumptions C76_one_place.
Print Assumptions C76_one_thread.
Print Assumptions C76_pinned.
Print Assumptions C76_not_stuck.
Print Assumptions C77_attached_partial.
Print Assumptions C77_round_robin_partial.
Print Assumptions C77_refuted_shared.
Print Assumptions C77_refuted_stealing.
