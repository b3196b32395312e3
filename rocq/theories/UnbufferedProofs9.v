From Coq Require Import List Arith Bool Lia.
From Verif Require Import Base Kernel KernelFacts WakeFacts SlotFacts Unbuffered UnbufferedSpec UnbufferedProofs UnbufferedProofs2 UnbufferedProofs3 UnbufferedProofs4 UnbufferedProofs5 UnbufferedProofs6 UnbufferedProofs7 UnbufferedProofs8.
Import ListNotations.

Section Proofs.
Context {V : Type}.
Notation state := (state V). Notation pc := (pc V). Notation op := (op V). Notation event := (event V).

Lemma runnable_step (s : state) l s' g : Inv s -> step s l = Some s' -> l <> LRun g ->
  xrunnable (fib (kn s) g) -> xrunnable (fib (kn s') g).
Proof.
  intros I Hs Hl Hr. pose proof (i_ki _ I) as K. unfold KI in K.
  assert (W : forall w, xrunnable (fib (fst (wake (kn s) w)) g)).
  { intros [f e]. unfold wake. destruct (Nat.eqb _ e); simpl; auto. unfold xrunnable in *. upds; simpl; auto. }
  assert (N1 : forall i k' q', notify_one (kn s) (queues s i) = (k', q') -> xrunnable (fib k' g)).
  { intros i k' q' E. destruct (snotify_one_inv i _ _ _ _ _ _ K eq_refl E) as (_ & _ & _ & _ & [(h & _ & B & C & D & _)|(-> & _)]); auto.
    destruct (Nat.eq_dec g h) as [->|N]; [rewrite C; now right|]. now rewrite D. }
  assert (NA : forall i k' q', notify_all (kn s) (queues s i) = (k', q') -> xrunnable (fib k' g)).
  { intros i k' q' E. destruct (snotify_all_inv i _ _ _ _ _ _ K eq_refl E) as (_ & _ & _ & _ & A & B).
    destruct (in_dec (fun a b : waker => ltac:(repeat decide equality)) (g, epoch (fib (kn s) g)) (queues s i)) as [X|X].
    - destruct (A _ X) as [_ ->]. now right.
    - now rewrite (B _ X). }
  assert (Y : forall f, xrunnable (fib (yield (kn s) f) g)).
  { intros f. unfold yield, xrunnable in *. simpl. upds; simpl; auto. }
  stepcases Hs; auto; try exact (skstep_runnable _ _ _ _ _ _ K Ek Hr).
  all: try (assert (Hne : g <> f) by congruence).
  all: try (rewrite (fib_create _ _ _ _ _ Ecw Hne); exact Hr).
  all: try exact (N1 _ _ _ Eno); try exact (NA _ _ _ Ena).
  all: try (rewrite (fib_saw _ _ _ _ _ _ _ Esw Hne); exact Hr); try (rewrite (fib_sawu _ _ _ _ _ _ _ _ Esw Hne); exact Hr).
  all: rewrite !(upd_other _ f _ g Hne); exact (N1 _ _ _ Eno).
Qed.

Lemma slot_step (s : state) l s' p0 : Inv s -> step s l = Some s' -> slot s' = Some p0 -> slot s = Some p0 \/
  (slot s = None /\ l = LRun (fst p0) /\ exists o e, pcs s' (fst p0) = PNotify o e).
Proof.
  intros I Hs. stepcases Hs; auto; intros E; try discriminate E; try (left; congruence).
  right. inversion E; subst. simpl. rewrite upd_same. splits; eauto.
Qed.

Lemma slot_cleared (s : state) l s' p0 : step s l = Some s' -> slot s = Some p0 -> slot s' = None ->
  exists c o, l = LRun c /\ (pcs s c = CTop o /\ pcs s' c = CNotify o p0 \/ pcs s c = PClear o).
Proof.
  intros Hs A B. stepcases Hs; try congruence.
  - exists f, o. auto.
  - exists f, o. split; auto. left. split; auto. rewrite upd_same. congruence.
Qed.
End Proofs.
