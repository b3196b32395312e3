From Coq Require Import List Arith Bool Lia.
From Verif Require Import Base Kernel KernelFacts WakeFacts SlotFacts Unbuffered UnbufferedSpec UnbufferedProofs.
Import ListNotations.

Section Proofs.
Context {V : Type}.
Notation state := (state V). Notation pc := (pc V). Notation op := (op V). Notation event := (event V).

Lemma pend_step (s : state) l s' : (forall f, pending (log s) f = op_of (pcs s f)) -> step s l = Some s' ->
  forall f, pending (log s') f = op_of (pcs s' f).
Proof.
  intros H Hs g. pose proof (H g) as Hg.
  stepcases Hs; auto; upds; auto; try (rewrite Ep in Hg; simpl in Hg); auto;
    rewrite ?Nat.eqb_refl; auto.
  all: try (destruct (Nat.eqb_spec f g); [congruence|]; auto).
Qed.

Lemma lkP_step (s : state) l s' : (forall f, lkP s = Some f <-> hasP (pcs s f) = true) -> step s l = Some s' ->
  (forall f, lkP s' = Some f <-> hasP (pcs s' f) = true).
Proof.
  intros H Hs g. pose proof (H g) as Hg.
  stepcases Hs; auto; pose proof (H f) as Hf; rewrite Ep in Hf; simpl in Hf; upds; auto; simpl.
  all: try (split; intros X; congruence).
  all: try (split; intros X; [discriminate X|]); try (rewrite <- Hg in X); try (rewrite (proj2 Hf eq_refl) in X); try congruence.
  all: try (rewrite <- Hg; rewrite ?(proj2 Hf eq_refl); split; congruence).
Qed.

Lemma lkC_step (s : state) l s' : (forall f, lkC s = Some f <-> hasC (pcs s f) = true) -> step s l = Some s' ->
  (forall f, lkC s' = Some f <-> hasC (pcs s' f) = true).
Proof.
  intros H Hs g. pose proof (H g) as Hg.
  stepcases Hs; auto; pose proof (H f) as Hf; rewrite Ep in Hf; simpl in Hf; upds; auto; simpl.
  all: try (split; intros X; congruence).
  all: try (split; intros X; [discriminate X|]); try (rewrite <- Hg in X); try (rewrite (proj2 Hf eq_refl) in X); try congruence.
  all: try (rewrite <- Hg; rewrite ?(proj2 Hf eq_refl); split; congruence).
Qed.

Lemma calls_step (s : state) l s' : (forall f, calls s f = npush (log s) f) -> step s l = Some s' ->
  forall f, calls s' f = npush (log s') f.
Proof.
  intros H Hs g. pose proof (H g) as Hg.
  stepcases Hs; auto; upds; rewrite ?Nat.eqb_refl; auto.
  all: try (destruct (Nat.eqb_spec f g); [congruence|]; auto).
Qed.

Lemma fr_step (s : state) l s' : FrI s -> step s l = Some s' -> FrI s'.
Proof.
  intros H Hs g. pose proof (H g) as Hg.
  stepcases Hs; auto; pose proof (H f) as Hf; rewrite Ep in Hf; simpl in Hf; upds; auto; simpl.
  all: try (splits; auto; intros; discriminate).
  all: try (rewrite Ep in *; simpl in *; destruct (frames s f); [destruct Hf; discriminate|]; auto).
  - rewrite Efr in Hf. destruct Hf as (_ & B & _). splits; auto. intros; discriminate.
  - rewrite Efr in Hf. destruct Hf as (_ & B & _). splits; auto. congruence.
  - destruct (frames s f); [|discriminate Hf]. destruct Hf as (_ & B & _). splits; auto. intros; discriminate.
  - destruct (frames s f); [|discriminate Hf]. destruct Hf as (_ & B & _). splits; auto. intros; discriminate.
  - unfold deref in Edr. destruct (frames s (fst p)); [destruct Hf; discriminate|discriminate Edr].
  - unfold deref in Edr. destruct (frames s (fst p)) as [r|]; [|discriminate Edr].
    destruct (Nat.eqb (call r) (snd p)); [|discriminate Edr]. inversion Edr; subst. exact Hg.
Qed.

Lemma st_step (s : state) l s' : KI s -> FrI s -> StI s -> step s l = Some s' -> StI s'.
Proof.
  intros K F H Hs g r. pose proof (emono_step _ _ _ Hs g) as M. pose proof (H g) as Hg. pose proof (F g) as Fg.
  stepcases Hs; intros A B; upds; simpl in *; try discriminate; eauto using Nat.lt_le_trans.
  - rewrite A in Fg. destruct Fg as (_ & _ & Fg). rewrite Ep in Fg. specialize (Fg e eq_refl).
    destruct (sinv_slot_done _ _ _ f e K Er) as [E _]; [simpl; rewrite Ep; simpl; eauto|]. lia.
  - rewrite A in Fg. destruct Fg as (_ & _ & Fg). rewrite Ep in Fg. specialize (Fg e eq_refl).
    destruct (sinv_slot_done _ _ _ f e K Er) as [E _]; [simpl; rewrite Ep; simpl; eauto|]. lia.
  - inversion A; subst. simpl. apply Hg; auto. unfold deref in Edr. destruct (frames s (fst p)) as [r|]; [|discriminate Edr].
    destruct (Nat.eqb (call r) (snd p)); [|discriminate Edr]. congruence.
Qed.

End Proofs.
