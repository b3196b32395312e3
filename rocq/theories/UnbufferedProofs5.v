From Coq Require Import List Arith Bool Lia.
From Verif Require Import Base Kernel KernelFacts WakeFacts SlotFacts Unbuffered UnbufferedSpec UnbufferedProofs UnbufferedProofs2 UnbufferedProofs3 UnbufferedProofs4.
Import ListNotations.

Section Proofs.
Context {V : Type}.
Notation state := (state V). Notation pc := (pc V). Notation op := (op V). Notation event := (event V).

(** How the epoch of a fiber with a published waker changes while it does not take a step itself. *)
Lemma pub_epoch (s : state) l s' g e : KI s -> FrI s -> OffI s -> step s l = Some s' ->
  epub (pcs s g) = Some e -> l <> LRun g ->
  pcs s' g = pcs s g /\ calls s' g = calls s g /\
  (fib (kn s') g = fib (kn s) g \/
   (exists kl, l = LK kl /\ kstep (kn s) kl = Some (kn s') /\ pcs s' = pcs s /\ log s' = log s /\ slot s' = slot s) \/
   (exists c o x r, l = LRun c /\ pcs s c = CWake o (g, calls s g) x /\ pcs s' = upd (pcs s) c Idle /\
      deref s (g, calls s g) = Some r /\ kn s' = fst (wake (kn s) (g, we r))) \/
   (exists c r, l = LRun c /\ pcs s c = X2 (g, calls s g) /\
      deref s (g, calls s g) = Some r /\ kn s' = fst (wake (kn s) (g, we r)))).
Proof.
  intros K F O Hs He Hl.
  assert (P := epub_publishes _ _ He). unfold KI in K.
  assert (N1 : forall i k' q', notify_one (kn s) (queues s i) = (k', q') -> fib k' g = fib (kn s) g)
    by (intros i k' q' E; exact (pub_notify_one _ _ (fun f => sst (pcs s f)) _ _ _ _ _ K P E)).
  assert (NA : forall i k' q', notify_all (kn s) (queues s i) = (k', q') -> fib k' g = fib (kn s) g)
    by (intros i k' q' E; exact (pub_notify_all _ _ (fun f => sst (pcs s f)) _ _ _ _ _ K P E)).
  clear K O.
  assert (W : forall p r, deref s p = Some r -> fst p <> g -> fib (fst (wake (kn s) (fst p, we r))) g = fib (kn s) g).
  { intros [f n] r D N. unfold wake. simpl in *. destruct (Nat.eqb (epoch (fib (kn s) f)) (we r)); simpl; auto. now updt. }
  stepcases Hs; try (assert (Hne : g <> f) by (intros ->; first [congruence | rewrite Ep in He; discriminate He]));
    try rewrite !(upd_other _ f _ g Hne); (split; [reflexivity|split; [reflexivity|]]); try (left; reflexivity).
  all: try match goal with
    | E : create_waker _ _ = _ |- _ => left; exact (fib_create _ _ _ _ _ E Hne)
    | E : suspend_and_wait _ _ _ = _ |- _ => left; exact (fib_saw _ _ _ _ _ _ _ E Hne)
    | E : suspend_and_wait_until _ _ _ _ = _ |- _ => left; exact (fib_sawu _ _ _ _ _ _ _ _ E Hne)
    | |- context [yield _ _] => left; exact (fib_yield _ _ _ Hne)
    end.
  all: try (left; exact (N1 _ _ _ Eno)); try (left; exact (NA _ _ _ Ena)).
  - right. left. exists kl. splits; auto.
  - destruct (Nat.eq_dec (fst p) g) as [E|E]; [|left; eauto]. destruct p as [g' m]. simpl in E. subst g'.
    destruct (deref_alive _ _ _ _ F Edr) as (_ & -> & _). right; right; left. exists f, o, x, s0. splits; auto.
  - destruct (Nat.eq_dec (fst p) g) as [E|E]; [|left; eauto]. destruct p as [g' m]. simpl in E. subst g'.
    destruct (deref_alive _ _ _ _ F Edr) as (_ & -> & _). right; right; right. exists f, s0. splits; auto.
Qed.
End Proofs.
