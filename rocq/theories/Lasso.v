(** Infinite executions of a labelled transition system that repeat a finite block of labels.
    Nothing here describes /repo. *)
From Coq Require Import List Arith Bool Lia.
From Verif Require Import Base.
Import ListNotations.

(** An infinite execution: the i-th label leads from the i-th to the next state. *)
Definition infinite {S L : Type} (step : S -> L -> option S) (s0 : S)
    (sch : nat -> L) (st : nat -> S) : Prop :=
  st 0 = s0 /\ forall i, step (st i) (sch i) = Some (st (Datatypes.S i)).

(** Something happens again and again. *)
Definition always_again (P : nat -> Prop) : Prop := forall i, exists j, i <= j /\ P j.

Lemma infinite_reachable {S L} (step : S -> L -> option S) s0 sch st :
  infinite step s0 sch st -> forall i, reachable step s0 (st i).
Proof.
  intros [H0 Hs] i. induction i as [|i IH].
  - rewrite H0. apply reachable_refl.
  - eapply reachable_step; eauto.
Qed.

Section Lasso.
Context {S L : Type} (step : S -> L -> option S) (pre cyc : list L) (d : L).

Definition lsch (i : nat) : L :=
  if Nat.ltb i (length pre) then nth i pre d else nth ((i - length pre) mod length cyc) cyc d.

Fixpoint lst (s0 : S) (i : nat) : S :=
  match i with
  | 0 => s0
  | Datatypes.S i' => match step (lst s0 i') (lsch i') with Some s' => s' | None => s0 end
  end.

(** After the first block and [n] repetitions of the second. *)
Definition at_cycle (n : nat) : nat := length pre + n * length cyc.

Lemma lst_block s0 n l i s' :
  (forall j, j < length l -> lsch (i + j) = nth j l d) ->
  n = length l ->
  exec step (lst s0 i) l = Some s' ->
  lst s0 (i + n) = s' /\
  forall j, j < n -> step (lst s0 (i + j)) (lsch (i + j)) = Some (lst s0 (i + Datatypes.S j)).
Proof.
  intros Hl -> . revert i Hl. induction l as [|x l IH]; simpl; intros i Hl He.
  - rewrite Nat.add_0_r. split; [congruence|]. intros; lia.
  - destruct (step (lst s0 i) x) as [s1|] eqn:E; [|discriminate].
    assert (Hx : lsch i = x) by (specialize (Hl 0 ltac:(lia)); now rewrite Nat.add_0_r in Hl).
    assert (H1 : lst s0 (Datatypes.S i) = s1) by (simpl; now rewrite Hx, E).
    rewrite <- H1 in He. destruct (IH (Datatypes.S i)) as [A B]; auto.
    { intros j Hj. specialize (Hl (Datatypes.S j) ltac:(lia)). simpl in Hl.
      now replace (Datatypes.S i + j) with (i + Datatypes.S j) by lia. }
    split; [now replace (i + Datatypes.S (length l)) with (Datatypes.S i + length l) by lia|].
    intros [|j] Hj.
    + rewrite Nat.add_0_r, Hx, E, <- H1. do 2 f_equal. lia.
    + replace (i + Datatypes.S j) with (Datatypes.S i + j) by lia.
      replace (i + Datatypes.S (Datatypes.S j)) with (Datatypes.S i + Datatypes.S j) by lia.
      apply B. lia.
Qed.

Lemma lsch_pre j : j < length pre -> lsch j = nth j pre d.
Proof. intros H. unfold lsch. now rewrite (proj2 (Nat.ltb_lt _ _) H). Qed.

Lemma lsch_cyc n j : j < length cyc -> lsch (at_cycle n + j) = nth j cyc d.
Proof.
  intros H. unfold lsch, at_cycle.
  destruct (Nat.ltb_spec (length pre + n * length cyc + j) (length pre)); [lia|].
  replace (length pre + n * length cyc + j - length pre) with (j + n * length cyc) by lia.
  rewrite Nat.mod_add by lia. now rewrite Nat.mod_small.
Qed.

Lemma at_cycle_S n : at_cycle (Datatypes.S n) = at_cycle n + length cyc.
Proof. unfold at_cycle. simpl. lia. Qed.

(** The block [cyc] can be repeated for ever if it preserves [J n], the condition for repetition number [n]. *)
Lemma lasso s0 s1 (J : nat -> S -> Prop) :
  cyc <> [] ->
  exec step s0 pre = Some s1 -> J 0 s1 ->
  (forall n s, J n s -> exists s', exec step s cyc = Some s' /\ J (Datatypes.S n) s') ->
  infinite step s0 lsch (lst s0) /\ (forall n, J n (lst s0 (at_cycle n))).
Proof.
  intros Hne Hp H1 Hc.
  assert (Hlen : 0 < length cyc) by (destruct cyc; [congruence|simpl; lia]).
  destruct (lst_block s0 (length pre) pre 0 s1) as [A B]; auto.
  { intros j Hj. simpl. now apply lsch_pre. }
  simpl in A, B.
  assert (HJ : forall n, J n (lst s0 (at_cycle n)) /\ forall j, j < at_cycle n ->
    step (lst s0 j) (lsch j) = Some (lst s0 (Datatypes.S j))).
  { induction n as [|n [IH1 IH2]].
    - unfold at_cycle. simpl. rewrite Nat.add_0_r. split; [now rewrite A|exact B].
    - destruct (Hc _ _ IH1) as (s' & He & HJ').
      destruct (lst_block s0 (length cyc) cyc (at_cycle n) s') as [C D]; auto.
      { intros j Hj. now apply lsch_cyc. }
      rewrite at_cycle_S. split; [now rewrite C|].
      intros j Hj. destruct (Nat.lt_ge_cases j (at_cycle n)) as [Hlt|Hge]; auto.
      specialize (D (j - at_cycle n) ltac:(lia)).
      now replace (at_cycle n + (j - at_cycle n)) with j in D by lia;
          replace (at_cycle n + Datatypes.S (j - at_cycle n)) with (Datatypes.S j) in D by lia. }
  split; [split; [reflexivity|]|].
  - intros i. apply (HJ (Datatypes.S i)). unfold at_cycle. nia.
  - intros n. apply HJ.
Qed.

(** The same without the functions used in the construction. *)
Lemma lasso_ex s0 s1 (J : nat -> S -> Prop) :
  cyc <> [] ->
  exec step s0 pre = Some s1 -> J 0 s1 ->
  (forall n s, J n s -> exists s', exec step s cyc = Some s' /\ J (Datatypes.S n) s') ->
  exists sch st, infinite step s0 sch st /\ (forall n, J n (st (at_cycle n))) /\
    (forall j, j < length pre -> sch j = nth j pre d) /\
    (forall n j, j < length cyc -> sch (at_cycle n + j) = nth j cyc d).
Proof.
  intros A B C D. exists lsch, (lst s0). destruct (lasso s0 s1 J A B C D) as [E F].
  split; [exact E|]. split; [exact F|]. split; [apply lsch_pre|apply lsch_cyc].
Qed.

(** Every position after the first block lies in some repetition. *)
Lemma in_cycle i : cyc <> [] -> length pre <= i ->
  exists n j, j < length cyc /\ i = at_cycle n + j.
Proof.
  intros Hne Hi. assert (Hlen : 0 < length cyc) by (destruct cyc; [congruence|simpl; lia]).
  exists ((i - length pre) / length cyc), ((i - length pre) mod length cyc).
  split; [apply Nat.mod_upper_bound; lia|]. unfold at_cycle.
  pose proof (Nat.div_mod (i - length pre) (length cyc) ltac:(lia)) as H. lia.
Qed.

Lemma lasso_again (P : nat -> Prop) k : cyc <> [] ->
  (forall n, P (at_cycle n + k)) -> always_again P.
Proof.
  intros Hne H i. assert (Hlen : 0 < length cyc) by (destruct cyc; [congruence|simpl; lia]).
  exists (at_cycle i + k). split; auto. unfold at_cycle. nia.
Qed.
End Lasso.
