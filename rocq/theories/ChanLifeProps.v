(** C128: a channel whose values have all been received can be destroyed. *)
From Coq Require Import List Arith Bool Lia.
From Verif Require Import Base ChanLife.
Import ListNotations.

(** C128 is false of the channel for threads: it is destroyed while push() is about to lock its mutex. *)
Theorem C128_refuted : exists s, reachable (step Thr 1) init_state s /\ ub s = true.
Proof. apply (reach_by (step Thr 1) init_state [LProd 0; LCons; LCons; LProd 0]). vm_compute. auto. Qed.
Print Assumptions C128_refuted.
(** For every number of producers. *)
Theorem C128_refuted_all : forall n, 0 < n -> exists s, reachable (step Thr n) init_state s /\ ub s = true.
Proof.
  intros n N.
  assert (A : forall m, m <= n -> exists s, reachable (step Thr n) init_state s /\ lock s = None /\ full s = 0 /\ got s = m /\ cons s = C0 /\ ub s = false /\ (forall t, m <= t -> prod s t = P0) /\ (0 < m -> prod s 0 = P1)).
  { induction m as [|m IH]; intros M; [exists init_state; splits; auto; [apply reachable_refl|lia]|]. destruct IH as (s & R & L & F & G & C & U & P & Q); [lia|].
    set (s1 := mkSt (lock s) 1 m (upd (prod s) m P1) C0 false). set (s2 := mkSt (lock s) 0 (S m) (upd (prod s) m P1) C0 false). exists s2. splits; auto.
    - apply (reachable_step _ _ s1 LCons s2); [|unfold step, step_cons, s1; cbn [cons got full lock prod ub]; destruct (Nat.eqb_spec m n); [lia|]; reflexivity].
      apply (reachable_step _ _ s (LProd m) s1); auto. unfold step, step_prod. destruct (Nat.ltb_spec m n); [|lia]. rewrite (P m) by lia. unfold touch, gone. rewrite C, F, G, U. reflexivity.
    - intros t T. cbn. rewrite upd_other by lia. apply P. lia.
    - intros _. cbn. destruct (Nat.eq_dec m 0) as [->|Z]; [apply upd_same|]. rewrite upd_other by lia. apply Q. lia. }
  destruct (A n (le_n n)) as (s & R & L & F & G & C & U & P & Q).
  set (s1 := mkSt (lock s) (full s) (got s) (prod s) C3 (ub s)). set (s2 := mkSt (lock s1) (full s1) (got s1) (prod s1) (cons s1) true). exists s2. split; auto.
  apply (reachable_step _ _ s1 (LProd 0) s2).
  - apply (reachable_step _ _ s LCons s1); auto. unfold step, step_cons. rewrite C, G, Nat.eqb_refl. unfold s1. rewrite G. reflexivity.
  - unfold step, step_prod. destruct (Nat.ltb_spec 0 n); [|lia]. assert (Q1 : prod s1 0 = P1) by (apply Q; auto). assert (L1 : lock s1 = None) by exact L. rewrite Q1, L1. unfold touch. replace (gone s1) with true by reflexivity. reflexivity.
Qed.
Print Assumptions C128_refuted_all.

(** ** fibers::buffered_channel *)
Fixpoint count (f : nat -> bool) (n : nat) : nat := match n with 0 => 0 | S n => (if f n then 1 else 0) + count f n end.
Lemma count_ext : forall f g n, (forall t, t < n -> f t = g t) -> count f n = count g n.
Proof. induction n as [|n IH]; intros H; simpl; auto. rewrite IH, H; auto. Qed.
Lemma count_upd : forall n (p : nat -> ppc) (g : ppc -> bool) t v, t < n -> count (fun x => g (upd p t v x)) n + (if g (p t) then 1 else 0) = count (fun x => g (p x)) n + (if g v then 1 else 0).
Proof.
  induction n as [|n IH]; intros p g t v T; [lia|]. simpl. destruct (Nat.eq_dec t n) as [->|N].
  - rewrite upd_same. rewrite (count_ext (fun x => g (upd p n v x)) (fun x => g (p x))); [lia|]. intros x X. rewrite upd_other; auto; lia.
  - rewrite upd_other by auto. specialize (IH p g t v). lia.
Qed.
Lemma count_le : forall f n, count f n <= n.
Proof. induction n; simpl; [lia|]; destruct (f n); lia. Qed.
Lemma count_all : forall f n, count f n = n -> forall t, t < n -> f t = true.
Proof.
  assert (B : forall f n, count f n <= n) by (induction n; simpl; [lia|]; destruct (f n); lia).
  induction n as [|n IH]; intros H t T; [lia|]. simpl in H. assert (X := B f n). destruct (f n) eqn:E; [|lia]. destruct (Nat.eq_dec t n) as [->|N]; auto. apply IH; lia.
Qed.
(** Has stored its value. *)
Definition put (p : ppc) : bool := match p with P2 | P3 => true | _ => false end.
Record inv (n : nat) (s : st) : Prop := {
  i_count : got s + full s = count (fun t => put (prod s t)) n;
  i_p : forall t, t < n -> prod s t = P1 \/ prod s t = P2 -> lock s = Some (S t);
  i_c : cons s = C1 \/ cons s = C2 -> lock s = Some 0;
  i_last : got s = n -> forall t, t < n -> prod s t = P3;
  i_gone : cons s = C3 -> got s = n;
  i_ub : ub s = false
}.
Lemma inv_step : forall n s l s', inv n s -> step Fib n s l = Some s' -> inv n s'.
Proof.
  intros n s l s' [K P C L G U] H. destruct l as [t|]; unfold step, step_prod, step_cons in H.
  - destruct (Nat.ltb_spec t n) as [T|T]; [|discriminate].
    assert (NG : prod s t <> P3 -> gone s = false) by (intros X; unfold gone; destruct (cons s) eqn:E; auto; exfalso; apply X; apply L; auto).
    assert (GN : prod s t <> P3 -> got s <> n) by (intros X Y; apply X; auto).
    destruct (prod s t) eqn:E; try discriminate; unfold touch in H; rewrite NG in H by discriminate; assert (GN' := GN ltac:(discriminate)); assert (CU := fun v => count_upd n (prod s) put t v T).
    + destruct (lock s) eqn:Lk; [discriminate|]. injection H as <-. specialize (CU P1). rewrite E in CU. split; cbn [lock full got prod cons ub]; auto; try lia.
      * cbn [put] in CU. lia.
      * intros u Hu X. destruct (Nat.eq_dec u t) as [->|N]; auto. rewrite upd_other in X by auto. specialize (P u Hu X). congruence.
      * intros X. specialize (C X). discriminate.
    + injection H as <-. specialize (CU P2). rewrite E in CU. cbn [put] in CU. split; cbn [lock full got prod cons ub]; auto; try lia.
      intros u Hu X. destruct (Nat.eq_dec u t) as [->|N]; [apply P; auto|]. rewrite upd_other in X by auto. auto.
    + injection H as <-. specialize (CU P3). rewrite E in CU. cbn [put] in CU. assert (Lk : lock s = Some (S t)) by (apply P; auto). split; cbn [lock full got prod cons ub]; auto; try lia.
      * intros u Hu X. destruct (Nat.eq_dec u t) as [->|N]; [rewrite upd_same in X; destruct X; discriminate|]. rewrite upd_other in X by auto. specialize (P u Hu X). congruence.
      * intros X. specialize (C X). congruence.
  - destruct (cons s) eqn:E; try discriminate.
    + destruct (Nat.eqb_spec (got s) n) as [X|X]; [injection H as <-; split; cbn [lock full got prod cons ub]; auto; intros [Y|Y]; discriminate|].
      destruct (lock s) eqn:Lk; [discriminate|]. injection H as <-. split; cbn [lock full got prod cons ub]; auto; try discriminate. intros u Hu Y. specialize (P u Hu Y). discriminate.
    + assert (Lk : lock s = Some 0) by auto. destruct (full s) eqn:F; injection H as <-; split; cbn [lock full got prod cons ub]; auto; try discriminate; try lia.
      * intros u Hu Y. specialize (P u Hu Y). congruence.
      * intros [Y|Y]; discriminate.
      * intros X u Hu. assert (Y : put (prod s u) = true) by (apply (count_all (fun t => put (prod s t)) n); [assert (B := count_le (fun t => put (prod s t)) n); lia|auto]).
        destruct (prod s u) eqn:Z; try discriminate; auto. specialize (P u Hu (or_intror Z)). congruence.
    + assert (Lk : lock s = Some 0) by auto. injection H as <-. split; cbn [lock full got prod cons ub]; auto; try discriminate.
      * intros u Hu Y. specialize (P u Hu Y). congruence.
      * intros [Y|Y]; discriminate.
Qed.
(** What holds of C128: fibers::buffered_channel. *)
Theorem C128_partial : forall n s, reachable (step Fib n) init_state s -> ub s = false.
Proof.
  intros n s R. enough (inv n s) by (destruct H; auto). revert s R. apply (reachable_inv (step Fib n) (inv n) init_state).
  - split; cbn; auto; try discriminate.
    + induction n; simpl; auto.
    + intros t T [X|X]; discriminate.
    + intros [X|X]; discriminate.
    + intros <- t T. lia.
  - apply inv_step.
Qed.
Print Assumptions C128_partial.
Example C128_case : exists s, reachable (step Fib 2) init_state s /\ cons s = C3 /\ got s = 2 /\ prod s 0 = P3 /\ prod s 1 = P3.
Proof. apply (reach_by (step Fib 2) init_state [LProd 1; LProd 1; LProd 1; LCons; LCons; LCons; LProd 0; LProd 0; LProd 0; LCons; LCons; LCons; LCons]). vm_compute. splits; auto. Qed.
