From Coq Require Import List Arith Bool Lia.
From Verif Require Import Base Kernel KernelFacts WakeFacts SlotFacts Unbuffered UnbufferedSpec UnbufferedProofs UnbufferedProofs2 UnbufferedProofs3.
Import ListNotations.

Section Proofs.
Context {V : Type}.
Notation state := (state V). Notation pc := (pc V). Notation op := (op V). Notation event := (event V).

Lemma pushed_cons (e : event) h f n v : pushed h f n v -> pushed (e :: h) f n v.
Proof. intros (h1 & h2 & o & -> & A & B). exists h1, (e :: h2), o. auto. Qed.
Local Hint Resolve pushed_cons : core.

Definition ValI (s : state) : Prop := forall f r, frames s f = Some r ->
  exists o v, op_of (pcs s f) = Some o /\ value_of o = Some v /\ pushed (log s) f (calls s f) v /\
    (~ In (f, calls s f) (consumed (log s)) -> sval r = Some v).

Lemma val_step (s : state) l s' : (forall f, calls s f = npush (log s) f) -> FrI s -> ValI s -> step s l = Some s' -> ValI s'.
Proof.
  intros C F H Hs g r. pose proof (H g) as Hg.
  stepcases Hs; auto; intros A; upds; simpl in *; try discriminate.
  all: try (destruct (Hg _ A) as (o1 & v1 & B1 & B2 & B3 & B4); try (rewrite Ep in B1; simpl in B1); exists o1, v1; splits; auto; fail).
  all: try (exfalso; specialize (F f); rewrite A, Ep in F; destruct F; discriminate).
  - inversion A; subst. exists (Push v), v. splits; auto. exists (log s), [], (Push v). rewrite <- C. auto.
  - inversion A; subst. exists (PushUntil v tp), v. splits; auto. exists (log s), [], (PushUntil v tp). rewrite <- C. eauto.
  - inversion A; subst. simpl. destruct (Hg _ Efr) as (o1 & v1 & B1 & B2 & B3 & B4); rewrite Ep in B1; simpl in B1; exists o1, v1; splits; auto.
  - inversion A; subst. simpl. destruct (Hg _ Efr) as (o1 & v1 & B1 & B2 & B3 & B4); rewrite Ep in B1; simpl in B1; exists o1, v1; splits; auto.
  - exfalso. specialize (F (fst p)). rewrite Ep in F. unfold deref in Edr. destruct (frames s (fst p)); [destruct F; discriminate|discriminate Edr].
  - inversion A; subst. destruct p as [g m]. simpl in *. destruct (deref_alive _ _ _ _ F Edr) as (D1 & -> & D2 & D3).
    destruct (Hg _ D1) as (o1 & v1 & B1 & B2 & B3 & B4). exists o1, v1. splits; auto. intros X. exfalso. apply X. now left.
Qed.

Definition XfI (s : state) : Prop := forall c p x, In (EXfer c p x) (log s) -> exists v, x = Some v /\ pushed (log s) (fst p) (snd p) v.

Lemma xf_step (s : state) l s' : FrI s -> TokI s -> ValI s -> XfI s -> step s l = Some s' -> XfI s'.
Proof.
  intros F T W H Hs c p0 x0.
  stepcases Hs; auto; intros A; try (destruct (H c p0 x0) as (v1 & B1 & B2); [intuition; discriminate|exists v1; auto]; fail).
  destruct A as [A|A]; [|destruct (H c p0 x0 A) as (v1 & B1 & B2); exists v1; auto].
  inversion A; subst. destruct p0 as [g m]. simpl in *. destruct (deref_alive _ _ _ _ F Edr) as (D1 & -> & D2 & D3).
  destruct (W _ _ D1) as (o1 & v1 & B1 & B2 & B3 & B4). exists v1. split; auto. apply B4. apply (t_unread _ T c). now rewrite Ep.
Qed.

Definition hand (p : pc) : list (option V) := match p with CWake _ _ x => [x] | _ => [] end.
Definition GotI (s : state) : Prop := forall c, taken (log s) c = hand (pcs s c) ++ got (log s) c.

Lemma got_step (s : state) l s' : GotI s -> step s l = Some s' -> GotI s'.
Proof.
  intros H Hs c. pose proof (H c) as Hc. clear H.
  stepcases Hs; try exact Hc; (destruct (Nat.eq_dec c f) as [->|Hne];
    [rewrite ?upd_same; rewrite Ep in Hc|rewrite ?(upd_other _ f _ c Hne), ?(proj2 (Nat.eqb_neq f c) (not_eq_sym Hne))]);
    simpl in *; rewrite ?Nat.eqb_refl; try exact Hc; try (destruct o; exact Hc; fail).
  all: simpl; congruence.
Qed.

Lemma pub_notify_one k qs ws i f e k' q' : SInv k qs ws -> publishes (ws f) e -> notify_one k (qs i) = (k', q') -> fib k' f = fib k f.
Proof.
  intros K P E. destruct (snotify_one_inv i _ _ _ _ _ _ K eq_refl E) as (_ & _ & _ & _ & [(g & G1 & _ & _ & G4 & _)|(-> & _)]); auto.
  apply G4. intros ->. eapply publishes_no_entry; eauto.
Qed.
Lemma pub_notify_all k qs ws i f e k' q' : SInv k qs ws -> publishes (ws f) e -> notify_all k (qs i) = (k', q') -> fib k' f = fib k f.
Proof.
  intros K P E. destruct (snotify_all_inv i _ _ _ _ _ _ K eq_refl E) as (_ & _ & _ & _ & _ & G).
  apply G. intros X. eapply publishes_no_entry; eauto.
Qed.
Lemma epub_publishes (p : pc) e : epub p = Some e -> publishes (sst p) e.
Proof. unfold publishes. destruct p; simpl; intros H; inversion H; subst; eauto. Qed.

Lemma fib_create k f k' e g : create_waker k f = (k', e) -> g <> f -> fib k' g = fib k g.
Proof. unfold create_waker, set_fib. intros H N. inversion H; subst. simpl. now updt. Qed.
Lemma fib_suspend k f g : g <> f -> fib (suspend k f) g = fib k g.
Proof. intros N. unfold suspend. simpl. now updt. Qed.
Lemma fib_wait k f tp e g : g <> f -> fib (wait_until_begin k f tp e) g = fib k g.
Proof. intros N. unfold wait_until_begin, suspend, set_fib. simpl. now updt. Qed.
Lemma fib_saw k f q k' q' e g : suspend_and_wait k f q = (k', q', e) -> g <> f -> fib k' g = fib k g.
Proof.
  unfold suspend_and_wait. destruct (create_waker k f) eqn:E. intros H N. inversion H; subst.
  rewrite fib_suspend by auto. eapply fib_create; eauto.
Qed.
Lemma fib_sawu k f q tp k' q' e g : suspend_and_wait_until k f q tp = (k', q', e) -> g <> f -> fib k' g = fib k g.
Proof.
  unfold suspend_and_wait_until. destruct (create_waker k f) eqn:E. intros H N. inversion H; subst.
  rewrite fib_wait by auto. eapply fib_create; eauto.
Qed.
Lemma fib_yield k f g : g <> f -> fib (yield k f) g = fib k g.
Proof. intros N. unfold yield. simpl. now updt. Qed.
Lemma epoch_suspend k f : epoch (fib (suspend k f) f) = epoch (fib k f).
Proof. unfold suspend. simpl. now updt. Qed.
Lemma epoch_wait k f tp e : epoch (fib (wait_until_begin k f tp e) f) = epoch (fib k f).
Proof. unfold wait_until_begin, suspend, set_fib. simpl. now updt. Qed.

End Proofs.
