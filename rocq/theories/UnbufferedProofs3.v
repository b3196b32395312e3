From Coq Require Import List Arith Bool Lia.
From Verif Require Import Base Kernel KernelFacts WakeFacts SlotFacts Unbuffered UnbufferedSpec UnbufferedProofs UnbufferedProofs2.
Import ListNotations.

Section Proofs.
Context {V : Type}.
Notation state := (state V). Notation pc := (pc V). Notation op := (op V). Notation event := (event V).

Definition named (s : state) (p : sptr) : Prop :=
  In p (consumed (log s)) \/ slot s = Some p \/ (exists c, holds (pcs s c) = Some p \/ pcs s c = X2 p).

(** Only try_push_ brings in a new slot. *)
Lemma named_step (s : state) l s' p : step s l = Some s' -> named s' p ->
  named s p \/ (exists f o r, pcs s f = PTry o /\ frames s f = Some r /\ p = (f, call r) /\ slot s = None /\ slot s' = Some p /\ exists e, pcs s' f = PNotify o e).
Proof.
  intros Hs P. unfold named in *.
  stepcases Hs; auto.
  all: destruct P as [P|[P|(c & P)]]; try (left; left; exact P); try (left; right; left; congruence); try discriminate P.
  all: try (destruct (Nat.eq_dec c f) as [->|Hc];
            [|rewrite (upd_other _ f _ c Hc) in P; left; right; right; exists c; exact P]).
  all: rewrite ?upd_same in P; simpl in P; try (destruct P as [P|P]; discriminate P); try (destruct P as [P|P]; discriminate P).
  all: try (destruct P as [P|P]; try discriminate P; left; right; left; congruence).
  all: try (destruct P as [P|P]; try discriminate P; left; right; right; exists f; rewrite Ep; left; simpl; congruence).
  - right. inversion P; subst. exists f, o, s0. rewrite upd_same. splits; eauto.
  - left. destruct P as [->|P]; [right; right; exists f; rewrite Ep|]; auto.
Qed.

Lemma pre_step (s : state) l s' g : step s l = Some s' ->
  (calls s' g = calls s g /\ (pre (pcs s' g) = true -> pre (pcs s g) = true)) \/ (calls s' g = S (calls s g)).
Proof.
  intros Hs. stepcases Hs; auto.
  all: upds; auto; left; split; auto; rewrite Ep; simpl; intros; try discriminate; auto.
Qed.

Lemma off_step (s : state) l s' : FrI s -> OffI s -> step s l = Some s' -> OffI s'.
Proof.
  intros F H Hs g n P. destruct (named_step _ _ _ (g, n) Hs P) as [Q|(f & o & r & A & B & C & D & _ & e & E)].
  - destruct (H g n Q) as [X Y]. destruct (pre_step _ _ _ g Hs) as [[E1 E2]|E].
    + rewrite E1. split; auto. intros Z. specialize (Y Z). destruct (pre (pcs s' g)); auto. rewrite E2 in Y; auto.
    + rewrite E. split; lia.
  - inversion C; subst g n. specialize (F f). rewrite B, A in F. destruct F as (_ & F & _).
    rewrite E. split; auto. destruct (pre_step _ _ _ f Hs) as [[E1 _]|E1]; lia.
Qed.

Record TokI (s : state) : Prop := {
  t_slot : forall p, slot s = Some p -> ~ In p (consumed (log s)) /\ forall c, holds (pcs s c) <> Some p;
  t_unread : forall c p, unread (pcs s c) = Some p -> ~ In p (consumed (log s));
  t_uniq : forall c d p, holds (pcs s c) = Some p -> holds (pcs s d) = Some p -> c = d;
  t_nd : NoDup (consumed (log s));
  t_wake : forall c o p x, pcs s c = CWake o p x -> In p (consumed (log s))
}.

Lemma tok_step (s : state) l s' : FrI s -> OffI s -> TokI s -> step s l = Some s' -> TokI s'.
Proof.
  intros F O [T1 T2 T3 T4 T5] Hs.
  assert (N : forall f o r, pcs s f = PTry o -> frames s f = Some r -> ~ named s (f, call r)).
  { intros f o r A B C. apply O in C. specialize (F f). rewrite B in F. destruct F as (_ & F & _).
    destruct C as [_ C]. rewrite A in C. simpl in C. discriminate (C F). }
  stepcases Hs; constructor; simpl; auto.
  all: try (intros p0 Hp; first [discriminate Hp | destruct (T1 p0) as [A1 A2]; [congruence|]]; split; auto; intros c; upds; simpl; auto; discriminate).
  all: try (intros c p0; upds; simpl; [discriminate|]; apply T2).
  all: try (intros c d p0; upds; simpl; try discriminate; auto; apply T3).
  all: try (intros c o0 p0 x0; upds; simpl; [discriminate|]; apply T5).
  - (* PTry *)
    intros p E. inversion E; subst p. specialize (N _ _ _ Ep Efr). unfold named in N. split; auto.
    intros c. upds; simpl; [discriminate|]. intros X. apply N. eauto.
  - (* CTop *)
    intros c p. upds; simpl; [intros E; inversion E; subst; now apply T1|apply T2].
  - intros c d p. destruct (T1 s0 eq_refl) as [_ A]. upds; simpl; auto; intros X Y.
    + inversion X; subst. now apply A in Y.
    + inversion Y; subst. now apply A in X.
    + now apply (T3 c d p).
  - (* CNotify *)
    intros p0 E. destruct (T1 _ E) as [A B]. split; auto. intros c. upds; simpl; auto. specialize (B f). now rewrite Ep in B.
  - intros c p0. upds; simpl; [|apply T2]. intros X. apply (T2 f). now rewrite Ep.
  - intros c d p0. upds; simpl; auto; intros X Y.
    + apply (T3 f d p0); auto. now rewrite Ep.
    + apply (T3 c f p0); auto. now rewrite Ep.
    + now apply (T3 c d p0).
  - (* CRead *)
    intros p0 E. destruct (T1 _ E) as [A B]. specialize (B f) as Bf. rewrite Ep in Bf. simpl in Bf. split.
    + intros [->|X]; auto.
    + intros c. upds; simpl; auto.
  - intros c p0. upds; simpl; [discriminate|]. intros X [->|Y]; [|now apply (T2 c p0)].
    apply n. apply (T3 c f p0); [|now rewrite Ep]. destruct (pcs s c); simpl in *; auto; discriminate.
  - intros c d p0. upds; simpl; auto; intros X Y.
    + apply (T3 f d p0); auto. now rewrite Ep.
    + apply (T3 c f p0); auto. now rewrite Ep.
    + now apply (T3 c d p0).
  - constructor; auto. apply (T2 f). now rewrite Ep.
  - intros c o0 p0 x. upds; simpl; [intros E; inversion E; subst; auto|]. intros X. right. eapply T5; eauto.
Qed.
End Proofs.
