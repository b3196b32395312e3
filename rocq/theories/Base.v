(** Common vocabulary of all models.  Nothing here describes /repo: finite
    update of total maps and executions of a labelled transition system. *)
From Coq Require Import List Arith Bool Lia.
Import ListNotations.

(** Update of a total map at one index. *)
Definition upd {A : Type} (m : nat -> A) (i : nat) (v : A) : nat -> A :=
  fun j => if Nat.eqb j i then v else m j.

(** One execution: run the labels from left to right; [None] as soon as one label is
    not enabled. *)
Fixpoint exec {S L : Type} (step : S -> L -> option S) (s : S) (ls : list L) : option S :=
  match ls with
  | [] => Some s
  | l :: ls' => match step s l with
                | Some s' => exec step s' ls'
                | None => None
                end
  end.

(** States that some execution reaches from [s0]. *)
Definition reachable {S L : Type} (step : S -> L -> option S) (s0 s : S) : Prop :=
  exists ls, exec step s0 ls = Some s.

Lemma upd_same {A} (m : nat -> A) i v : upd m i v i = v.
Proof. unfold upd. now rewrite Nat.eqb_refl. Qed.

Lemma upd_other {A} (m : nat -> A) i v j : j <> i -> upd m i v j = m j.
Proof. intros H. unfold upd. destruct (Nat.eqb_spec j i); congruence. Qed.

Lemma exec_app {S L} (step : S -> L -> option S) s l1 l2 s' :
  exec step s (l1 ++ l2) = Some s' <->
  exists s1, exec step s l1 = Some s1 /\ exec step s1 l2 = Some s'.
Proof.
  revert s; induction l1 as [|l l1 IH]; intros s; simpl.
  - split; [intros H; eauto | intros (s1 & H1 & H2); congruence].
  - destruct (step s l) as [s2|].
    + apply IH.
    + split; [discriminate | intros (s1 & H1 & _); discriminate].
Qed.

(** The induction principle used for every invariant. *)
Lemma exec_inv {S L} (step : S -> L -> option S) (I : S -> Prop) :
  (forall s l s', I s -> step s l = Some s' -> I s') ->
  forall ls s s', I s -> exec step s ls = Some s' -> I s'.
Proof.
  intros Hstep ls; induction ls as [|l ls IH]; simpl; intros s s' HI He.
  - congruence.
  - destruct (step s l) as [s2|] eqn:E; [|discriminate].
    eauto.
Qed.

Lemma reachable_inv {S L} (step : S -> L -> option S) (I : S -> Prop) s0 :
  I s0 ->
  (forall s l s', I s -> step s l = Some s' -> I s') ->
  forall s, reachable step s0 s -> I s.
Proof. intros H0 Hs s [ls He]. eapply exec_inv; eauto. Qed.

(** Invariant preservation that may use reachability of the source state. *)
Lemma reachable_inv2 {S L} (step : S -> L -> option S) (I : S -> Prop) s0 :
  I s0 ->
  (forall s l s', reachable step s0 s -> I s -> step s l = Some s' -> I s') ->
  forall s, reachable step s0 s -> I s.
Proof.
  intros H0 Hs s [ls He].
  assert (G : forall ls2 ls1 s1, exec step s0 ls1 = Some s1 -> I s1 ->
                exec step s1 ls2 = Some s -> I s).
  { induction ls2 as [|l ls2 IH]; simpl; intros ls1 s1 H1 HI H2; [congruence|].
    destruct (step s1 l) as [s2|] eqn:E; [|discriminate].
    apply (IH (ls1 ++ [l]) s2); auto.
    - apply exec_app. exists s1. split; auto. simpl. now rewrite E.
    - apply (Hs s1 l s2); auto. now exists ls1. }
  apply (G ls [] s0); simpl; auto.
Qed.

Lemma reachable_step {S L} (step : S -> L -> option S) s0 s l s' :
  reachable step s0 s -> step s l = Some s' -> reachable step s0 s'.
Proof.
  intros [ls He] Hs. exists (ls ++ [l]). apply exec_app. exists s. split; auto.
  simpl. now rewrite Hs.
Qed.

Lemma reachable_refl {S L} (step : S -> L -> option S) s0 : reachable step s0 s0.
Proof. now exists []. Qed.

Lemma reachable_exec {S L} (step : S -> L -> option S) s0 s ls s' :
  reachable step s0 s -> exec step s ls = Some s' -> reachable step s0 s'.
Proof.
  intros [l1 H1] H2. exists (l1 ++ ls). apply exec_app. eauto.
Qed.

Global Arguments upd : simpl never.

(** Resolve map look-ups in goal and hypotheses. *)
Ltac updt :=
  repeat match goal with
  | H : context [upd _ ?i _ ?i] |- _ => rewrite upd_same in H
  | |- context [upd _ ?i _ ?i] => rewrite upd_same
  | N : ?j <> ?i, H : context [upd _ ?i _ ?j] |- _ => rewrite (upd_other _ _ _ _ N) in H
  | N : ?j <> ?i |- context [upd _ ?i _ ?j] => rewrite (upd_other _ _ _ _ N)
  | N : ?i <> ?j, H : context [upd _ ?i _ ?j] |- _ =>
      rewrite (upd_other _ _ _ _ (not_eq_sym N)) in H
  | N : ?i <> ?j |- context [upd _ ?i _ ?j] => rewrite (upd_other _ _ _ _ (not_eq_sym N))
  end.
Ltac upds :=
  updt;
  repeat (match goal with
  | |- context [upd _ ?i _ ?j] => destruct (Nat.eq_dec j i); [subst|]
  | H : context [upd _ ?i _ ?j] |- _ => destruct (Nat.eq_dec j i); [subst|]
  end; updt).

(** Split conjunctions only (not records). *)
Ltac splits := repeat match goal with |- _ /\ _ => split end.

(** To exhibit a reachable state: give the labels and compute. *)
Definition after {S L} (step : S -> L -> option S) (s0 : S) (ls : list L) (P : S -> Prop) : Prop :=
  match exec step s0 ls with Some s => P s | None => False end.

Lemma reach_by {S L} (step : S -> L -> option S) (s0 : S) (ls : list L) (P : S -> Prop) :
  after step s0 ls P -> exists s, reachable step s0 s /\ P s.
Proof.
  unfold after. destruct (exec step s0 ls) as [s|] eqn:E; [|contradiction].
  intros H. exists s. split; auto. now exists ls.
Qed.
