(** C156: the recursive sum with futures. *)
From Coq Require Import List Arith NArith Bool Lia.
From Verif Require Import Base SkyAsync.
Import ListNotations.
Local Open Scope N_scope.

(** Specification: n + (n+1) + ... + (n+s-1). *)
Definition total (n s : N) : N := s * n + s * (s - 1) / 2.
Lemma total_0 : forall n, total n 0 = 0.
Proof. intros n. unfold total. rewrite !N.mul_0_l. reflexivity. Qed.
Lemma total_succ : forall n s, total n (N.succ s) = total n s + (n + s).
Proof.
  intros n s. unfold total. replace (N.succ s * (N.succ s - 1)) with (s * (s - 1) + s * 2).
  - rewrite N.div_add by lia. lia.
  - destruct (N.eq_dec s 0) as [->|Z]; [reflexivity|]. replace (N.succ s - 1) with s by lia. destruct (N.le_exists_sub 1 s ltac:(lia)) as (q & -> & _). replace (q + 1 - 1) with q by lia. lia.
Qed.
Lemma total_add : forall n a b, total n (a + b) = total n a + total (n + a) b.
Proof.
  intros n a b. induction b as [|b IH] using N.peano_ind; [rewrite total_0, !N.add_0_r; auto|]. rewrite N.add_succ_r, !total_succ, IH. lia.
Qed.
Lemma total_1 : forall n, total n 1 = n.
Proof. intros n. unfold total. replace (1 * (1 - 1) / 2) with 0 by reflexivity. lia. Qed.
Lemma M0 : 2 ^ 64 <> 0.
Proof. discriminate. Qed.
Lemma wrap_total : forall n s, wrap (total (wrap n) s) = wrap (total n s).
Proof.
  intros n s. unfold wrap, total. generalize (s * (s - 1) / 2). intros c. pose proof M0 as M. revert M. generalize (2 ^ 64). intros m M.
  rewrite (N.add_mod (s * (n mod m)) c m M), N.mul_mod_idemp_r, <- N.add_mod by auto. reflexivity.
Qed.
Lemma wrap_add_l : forall a b, wrap (wrap a + b) = wrap (a + b).
Proof. intros. unfold wrap. apply N.add_mod_idemp_l, M0. Qed.
Lemma wrap_add_r : forall a b, wrap (a + wrap b) = wrap (a + b).
Proof. intros. unfold wrap. apply N.add_mod_idemp_r, M0. Qed.

Fixpoint sumf (f : call -> nat) (l : list call) : nat := match l with [] => 0%nat | c :: r => (f c + sumf f r)%nat end.
Lemma sumf_app : forall f a b, sumf f (a ++ b) = (sumf f a + sumf f b)%nat.
Proof. intros f a b. induction a; simpl; auto. rewrite IHa. lia. Qed.
Lemma sumf_setn : forall f l i x y, nth_error l i = Some x -> (sumf f (setn l i y) + f x = sumf f l + f y)%nat.
Proof. intros f. induction l as [|a l IH]; intros [|i] x y H; simpl in *; try discriminate; [injection H as ->; lia|]. specialize (IH i x y H). lia. Qed.
Lemma setn_length : forall l i x, length (setn l i x) = length l.
Proof. induction l as [|a l IH]; intros [|i] x; simpl; auto. Qed.
Lemma setn_nth : forall l i x j, nth_error (setn l i x) j = if Nat.eqb i j then (match nth_error l j with Some _ => Some x | None => None end) else nth_error l j.
Proof. induction l as [|a l IH]; intros [|i] x [|j]; simpl; auto; destruct (Nat.eqb i j); auto. Qed.

Lemma own_new : forall d n sz, d <> O -> sz <> 1 -> own d (New n sz) = Some (Par n (sz / N.of_nat d) [] 0 0).
Proof. intros [|d] n sz H X; [congruence|]. unfold own. destruct (N.eqb_spec sz 1); [contradiction|reflexivity]. Qed.

(** What is true of a call for d^k numbers from n on. *)
Fixpoint ok (d k : nat) (n : N) (c : call) : Prop :=
  match c with
  | New m sz => m = wrap n /\ sz = N.of_nat d ^ N.of_nat k
  | Ret v => v = wrap (total n (N.of_nat d ^ N.of_nat k))
  | Crash => False
  | Par m sz cs j s => match k with O => False | S k' =>
      m = wrap n /\ sz = N.of_nat d ^ N.of_nat k' /\ (length cs <= d)%nat /\ (j <= d)%nat /\ (j = O \/ length cs = d) /\
      (forall i x, nth_error cs i = Some x -> ok d k' (n + N.of_nat i * sz) x) /\ s = wrap (total n (N.of_nat j * sz)) end
  end.
(** How many steps a call for d^k numbers takes at most. *)
Fixpoint bound (d k : nat) : nat := match k with O => 1%nat | S k' => (2 + d + d * (1 + bound d k'))%nat end.
Fixpoint left (d k : nat) (c : call) : nat :=
  match k, c with
  | _, New _ _ => bound d k
  | S k', Par _ _ cs j _ => ((d - length cs) * (1 + bound d k') + sumf (left d k') cs + (d - j) + 1)%nat
  | _, _ => O
  end.
Lemma ok_own : forall d k n c c', (2 <= d)%nat -> ok d k n c -> own d c = Some c' -> ok d k n c' /\ (left d k c' < left d k c)%nat.
Proof.
  intros d k n c c' d2 H St. destruct c as [m sz|m sz cs j s|v|]; try discriminate.
  - assert (H' : m = wrap n /\ sz = N.of_nat d ^ N.of_nat k) by (destruct k; exact H). destruct H' as [-> ->]. destruct k as [|k].
    + cbn in St. injection St as <-. cbn [ok left bound]. change (N.of_nat d ^ N.of_nat 0) with 1. rewrite total_1. split; [auto|lia].
    + assert (G : N.of_nat d ^ N.of_nat (S k) = N.of_nat d ^ N.of_nat k * N.of_nat d) by (rewrite Nat2N.inj_succ, N.pow_succ_r'; lia).
      assert (P : N.of_nat d ^ N.of_nat k <> 0) by (apply N.pow_nonzero; lia).
      rewrite own_new in St; [|lia|rewrite G; nia]. rewrite G, N.div_mul in St by lia. injection St as <-. cbn [ok left bound length sumf]. split; [|nia].
      split; [auto|]. split; [auto|]. split; [lia|]. split; [lia|]. split; [auto|]. split; [intros [|i] x E; discriminate|]. rewrite N.mul_0_l, total_0. reflexivity.
  - unfold own in St. destruct k as [|k]; [contradiction|]. destruct H as (Hm & Hz & Lc & Lj & Oj & Hc & Hs). destruct (Nat.ltb_spec (length cs) d) as [L|L].
    + injection St as <-. destruct Oj as [->|Oj]; [|lia]. split.
      * cbn [ok]. rewrite app_length. cbn [length]. split; [auto|]. split; [auto|]. split; [lia|]. split; [lia|]. split; [auto|]. split; [|auto].
        intros i x E. destruct (Nat.lt_ge_cases i (length cs)) as [Li|Li]; [rewrite nth_error_app1 in E by auto; auto|].
        rewrite nth_error_app2 in E by auto. destruct (i - length cs)%nat as [|q] eqn:Q; simpl in E; [|destruct q; discriminate]. injection E as <-. assert (i = length cs) as -> by lia.
        assert (W : wrap (m + wrap (N.of_nat (length cs) * sz)) = wrap (n + N.of_nat (length cs) * sz)) by (rewrite wrap_add_r, Hm, wrap_add_l; auto).
        destruct k; split; auto.
      * cbn [left]. rewrite app_length, sumf_app. cbn [length sumf]. replace (left d k (New _ sz)) with (bound d k) by (destruct k; reflexivity).
        replace (d - length cs)%nat with (S (d - (length cs + 1))) by lia. simpl. lia.
    + destruct (Nat.ltb_spec j d) as [Lt|Lt].
      * destruct (nth_error cs j) as [[| |v|]|] eqn:E; try discriminate. injection St as <-. specialize (Hc _ _ E) as Hv. split; [|cbn [left]; lia]. cbn [ok]. split; [auto|]. split; [auto|]. split; [lia|]. split; [lia|]. split; [lia|]. split; [auto|].
        assert (Hv' : v = wrap (total (n + N.of_nat j * sz) sz)) by (rewrite Hz at 2; destruct k; apply Hv).
        rewrite Hs, Hv', wrap_add_l, wrap_add_r, <- total_add. f_equal. f_equal. lia.
      * injection St as <-. assert (j = d) as -> by lia. split; [|cbn [left]; lia].
        cbn [ok]. replace (N.of_nat d ^ N.of_nat (S k)) with (N.of_nat d * sz) by (rewrite Nat2N.inj_succ, N.pow_succ_r', Hz; auto). auto.
Qed.
Lemma ok_step : forall d p k n c c', (2 <= d)%nat -> ok d k n c -> step d c p = Some c' -> ok d k n c' /\ (left d k c' < left d k c)%nat.
Proof.
  intros d. induction p as [|i p IH]; intros k n c c' d2 H St; [eapply ok_own; eauto|]. simpl in St. destruct c as [|m sz cs j s| |]; try discriminate.
  destruct (nth_error cs i) as [x|] eqn:E; [|discriminate]. destruct (step d x p) as [y|] eqn:Sx; [|discriminate]. injection St as <-.
  destruct k as [|k]; [contradiction|]. destruct H as (Hm & Hz & Lc & Lj & Oj & Hc & Hs). destruct (IH k _ x y d2 (Hc _ _ E) Sx) as [Hy Ly]. split.
  - cbn [ok]. rewrite setn_length. split; [auto|]. split; [auto|]. split; [auto|]. split; [auto|]. split; [auto|]. split; [|auto].
    intros i' z Z. rewrite setn_nth in Z. destruct (Nat.eqb_spec i i') as [<-|N]; [rewrite E in Z; injection Z as <-; auto|auto].
  - cbn [left]. rewrite setn_length. pose proof (sumf_setn (left d k) cs i x y E). lia.
Qed.
Lemma ok_exec : forall d ps k n c c', (2 <= d)%nat -> ok d k n c -> exec (step d) c ps = Some c' -> ok d k n c' /\ (left d k c' + length ps <= left d k c)%nat.
Proof.
  intros d. induction ps as [|p ps IH]; intros k n c c' d2 H E; simpl in E; [injection E as <-; simpl; split; [auto|lia]|].
  destruct (step d c p) as [c1|] eqn:St; [|discriminate]. destruct (ok_step _ _ _ _ _ _ d2 H St) as [H1 L1]. destruct (IH _ _ _ _ d2 H1 E) as [H2 L2]. simpl. split; [auto|lia].
Qed.
Lemma ok_enabled : forall d k n c, (2 <= d)%nat -> ok d k n c -> (exists v, c = Ret v) \/ exists p, step d c p <> None.
Proof.
  intros d. induction k as [|k IH]; intros n c d2 H.
  - destruct c as [m sz|m sz cs j s|v|]; try contradiction; [right|left; eauto]. exists []. destruct H as [_ ->]. discriminate.
  - destruct c as [m sz|m sz cs j s|v|]; [right| |left; eauto|contradiction].
    + exists []. simpl. destruct (sz =? 1); [discriminate|]. destruct d; discriminate.
    + right. destruct H as (Hm & Hz & Lc & Lj & Oj & Hc & Hs). destruct (Nat.ltb_spec (length cs) d) as [L|L]; [exists []; simpl; apply Nat.ltb_lt in L; rewrite L; discriminate|].
      destruct (Nat.ltb_spec j d) as [Lt|Lt]; [|exists []; simpl; apply Nat.ltb_ge in L, Lt; rewrite L, Lt; discriminate].
      destruct (nth_error cs j) as [x|] eqn:E; [|apply nth_error_None in E; lia]. destruct (IH _ x d2 (Hc _ _ E)) as [(v & ->)|(p & P)].
      * exists []. simpl. apply Nat.ltb_ge in L. apply Nat.ltb_lt in Lt. rewrite L, Lt, E. discriminate.
      * exists (j :: p). simpl. rewrite E. destruct (step d x p); [discriminate|congruence].
Qed.
Lemma ok_init : forall d k n, n < 2 ^ 64 -> ok d k n (New n (N.of_nat d ^ N.of_nat k)).
Proof. intros d k n L. assert (n = wrap n) by (symmetry; apply N.mod_small; auto). destruct k; split; auto. Qed.

(** C156: full statement: for every size and every div the call returns the sum of num, ..., num + size - 1. What holds: it is so if size is a power of div (div at least 2); in every interleaving, modulo 2^64. *)
Theorem C156_sum_partial : forall d k n ps v, (2 <= d)%nat -> n < 2 ^ 64 -> exec (step d) (New n (N.of_nat d ^ N.of_nat k)) ps = Some (Ret v) ->
  v = total n (N.of_nat d ^ N.of_nat k) mod 2 ^ 64.
Proof. intros d k n ps v d2 L E. destruct (ok_exec _ _ k n _ _ d2 (ok_init d k n L) E) as [H _]. destruct k; exact H. Qed.
Print Assumptions C156_sum_partial.
(** Nothing blocks for ever: as long as the first call has not returned a step is possible, and there are at most [bound d k] steps; no division by zero. *)
Theorem C156_ends_partial : forall d k n ps c, (2 <= d)%nat -> n < 2 ^ 64 -> exec (step d) (New n (N.of_nat d ^ N.of_nat k)) ps = Some c ->
  (length ps <= bound d k)%nat /\ c <> Crash /\ ((exists v, c = Ret v) \/ exists p, step d c p <> None).
Proof.
  intros d k n ps c d2 L E. destruct (ok_exec _ _ k n _ _ d2 (ok_init d k n L) E) as [H B]. split; [replace (bound d k) with (left d k (New n (N.of_nat d ^ N.of_nat k))) by (destruct k; reflexivity); lia|].
  split; [intros ->; destruct k; exact H|]. eapply ok_enabled; eauto.
Qed.
Print Assumptions C156_ends_partial.

(** Calls with size 0: none has returned. *)
Inductive hung : call -> Prop := h_new n : hung (New n 0) | h_par n cs : Forall hung cs -> hung (Par n 0 cs 0 0).
Lemma hung_step : forall d p c c', (1 <= d)%nat -> hung c -> step d c p = Some c' -> hung c'.
Proof.
  intros d. induction p as [|i p IH]; intros c c' d1 H St; simpl in St.
  - destruct H as [n|n cs F].
    + rewrite own_new in St by (lia || discriminate). injection St as <-. rewrite N.div_0_l by lia. constructor. constructor.
    + unfold own in St. destruct (Nat.ltb_spec (length cs) d); [injection St as <-; constructor; apply Forall_app; split; auto; repeat constructor|].
      destruct (Nat.ltb_spec 0 d); [|lia]. destruct (nth_error cs 0) as [[| |v|]|] eqn:E; try discriminate. apply nth_error_In in E. rewrite Forall_forall in F. specialize (F _ E). inversion F.
  - destruct H as [n|n cs F]; [discriminate|]. destruct (nth_error cs i) as [x|] eqn:E; [|discriminate]. destruct (step d x p) as [y|] eqn:Sx; [|discriminate]. injection St as <-. constructor.
    assert (Y : hung y) by (eapply IH; eauto; rewrite Forall_forall in F; apply F; eapply nth_error_In; eauto). clear - F Y. revert i. induction F; intros [|i]; simpl; constructor; auto.
Qed.
(** C156: with a size below div (size 0 after the division) the call never returns, whatever the schedule; it launches calls for ever. *)
Theorem C156_endless_refuted : forall d n size ps c, (2 <= d)%nat -> 1 < size < N.of_nat d -> exec (step d) (New n size) ps = Some c -> forall v, c <> Ret v.
Proof.
  intros d n size ps c d2 S E v ->. assert (G : forall ps c c', hung c -> exec (step d) c ps = Some c' -> hung c').
  { induction ps0 as [|p ps0 IH]; intros a b H X; simpl in X; [injection X as <-; auto|]. destruct (step d a p) as [a1|] eqn:St; [|discriminate]. apply (IH a1 b); [|auto]. apply (hung_step d p a a1); auto. lia. }
  destruct ps as [|p ps]; simpl in E; [discriminate|]. destruct p as [|i p]; [|discriminate]. cbn [step] in E. rewrite own_new, N.div_small in E by lia. apply G in E; [inversion E|]. constructor. constructor.
Qed.
Print Assumptions C156_endless_refuted.
(** The schedule that runs the calls one after the other: size 6, div 4. *)
Definition run64 : list (list nat) := [[]; []; []; []; []; [0%nat]; [1%nat]; [2%nat]; [3%nat]; []; []; []; []; []].
(** C156 is false also where the call returns: 6 numbers with div 4: the sum of 0, ..., 3 instead of 0, ..., 5. And div 0 divides by zero. *)
Theorem C156_refuted : exec (step 4) (New 0 6) run64 = Some (Ret 6) /\ total 0 6 = 15 /\ exec (step 0) (New 0 6) [[]] = Some Crash.
Proof. vm_compute. auto. Qed.
Print Assumptions C156_refuted.

(** The benchmark itself: 10^6 numbers, div 10: the number main() compares with (skynet_stealing_async.cpp:95). *)
Example C156_main : total 0 (N.of_nat 10 ^ N.of_nat 6) mod 2 ^ 64 = 499999500000.
Proof. vm_compute. reflexivity. Qed.
(** 4 numbers, div 2, from 2^64 - 2 on, the calls interleaved: the result wraps around. *)
Definition run22 : list (list nat) := [[]; []; []; [1%nat]; [0%nat]; [1%nat]; [0%nat]; [1%nat]; [0%nat]; [1; 1]%nat; [0; 0]%nat; [1; 0]%nat; [0; 1]%nat; [1%nat]; [1%nat]; [1%nat]; [0%nat]; [0%nat]; [0%nat]; []; []; []].
Example C156_case : (2 <= 2)%nat /\ 2 ^ 64 - 2 < 2 ^ 64 /\ exec (step 2) (New (2 ^ 64 - 2) (N.of_nat 2 ^ N.of_nat 2)) run22 = Some (Ret (2 ^ 64 - 2)) /\ total (2 ^ 64 - 2) 4 mod 2 ^ 64 = 2 ^ 64 - 2.
Proof. vm_compute. auto. Qed.
Example C156_case_endless : (2 <= 10)%nat /\ 1 < 3 < N.of_nat 10 /\ exec (step 10) (New 0 3) [[]; []; [0%nat]; [0%nat]; [0; 0]%nat] <> None.
Proof. split; [lia|]. split; [lia|]. vm_compute. discriminate. Qed.
