(** C127: the skynet benchmarks. *)
From Coq Require Import List Arith Bool Lia.
From Verif Require Import Base Skynet.
Import ListNotations.

(** The sum of n, n+1, ..., n+k-1. *)
Fixpoint tot (n k : nat) : nat := match k with 0 => 0 | S k => n + tot (S n) k end.
Lemma tot_add : forall a b n, tot n (a + b) = tot n a + tot (n + a) b.
Proof. induction a as [|a IH]; intros b n; simpl; [f_equal; lia|]. rewrite IH. replace (S n + a) with (n + S a) by lia. lia. Qed.
Lemma tot_gauss : forall k n, 2 * tot n k + k = k * (2 * n + k).
Proof. induction k as [|k IH]; intros n; simpl; [lia|]. specialize (IH (S n)). nia. Qed.

Definition gave (f : fib) : bool := match f with Done | Tail _ _ => true | _ => false end.
Fixpoint sum (l : list nat) : nat := match l with [] => 0 | x :: l => x + sum l end.
Lemma sum_app : forall a b, sum (a ++ b) = sum a + sum b.
Proof. induction a; intros; simpl; auto. rewrite IHa. lia. Qed.
(** Children that have not yet pushed their value. *)
Fixpoint pend (cs : list fib) : nat := match cs with [] => 0 | c :: cs => (if gave c then 0 else 1) + pend cs end.
(** What they will push: w is the size of a child, n the first number of the first child. *)
Fixpoint rest (w n : nat) (cs : list fib) : nat := match cs with [] => 0 | c :: cs => (if gave c then 0 else tot n w) + rest w (n + w) cs end.

Section Props.
Variables (m : mode) (d cap : nat).
Notation step := (step m d cap).
Notation own := (own m d).
Fixpoint good (h n : nat) (f : fib) : Prop :=
  match f with
  | New n' sz => n' = n /\ sz = d ^ h
  | Done => True
  | Par n' sz cs q k s =>
      match h with
      | 0 => False
      | S h => n' = n /\ sz = d ^ S h /\ length cs <= d /\ (forall i c, nth_error cs i = Some c -> good h (n + i * d ^ h) c) /\
               k + length q + pend cs + (d - length cs) = d /\
               s + sum q + rest (d ^ h) n cs + tot (n + length cs * d ^ h) ((d - length cs) * d ^ h) = tot n (d ^ S h)
      end
  | Tail cs q => match h with 0 => False | S h => (forall i c, nth_error cs i = Some c -> good h (n + i * d ^ h) c) /\ pend cs = 0 /\ q = [] end
  end.

Lemma setn_length : forall (A : Type) (l : list A) i x, length (setn l i x) = length l.
Proof. induction l as [|y l IH]; intros [|i] x; simpl; auto. Qed.
Lemma setn_nth : forall (A : Type) (l : list A) i x c, nth_error l i = Some c -> forall j, nth_error (setn l i x) j = if Nat.eqb j i then Some x else nth_error l j.
Proof. induction l as [|y l IH]; intros [|i] x c E [|j]; simpl in *; try discriminate; auto. rewrite (IH i x c E j). auto. Qed.
Lemma pend_setn : forall cs i c c', nth_error cs i = Some c -> pend (setn cs i c') + (if gave c then 0 else 1) = pend cs + (if gave c' then 0 else 1).
Proof. induction cs as [|y cs IH]; intros [|i] c c' E; simpl in *; try discriminate; [injection E as ->; lia|]. specialize (IH i c c' E). lia. Qed.
Lemma rest_setn : forall w cs n i c c', nth_error cs i = Some c -> rest w n (setn cs i c') + (if gave c then 0 else tot (n + i * w) w) = rest w n cs + (if gave c' then 0 else tot (n + i * w) w).
Proof.
  intros w. induction cs as [|y cs IH]; intros n [|i] c c' E; simpl in *; try discriminate.
  - injection E as ->. replace (n + 0) with n by lia. lia.
  - specialize (IH (n + w) i c c' E). replace (n + (w + i * w)) with (n + w + i * w) by lia. lia.
Qed.
Lemma pend_app : forall a b, pend (a ++ b) = pend a + pend b.
Proof. induction a; intros; simpl; auto. rewrite IHa. lia. Qed.
Lemma rest_app : forall w a b n, rest w n (a ++ b) = rest w n a + rest w (n + length a * w) b.
Proof. intros w. induction a as [|x a IH]; intros b n; simpl; [f_equal; lia|]. rewrite IH. replace (n + (w + length a * w)) with (n + w + length a * w) by lia. lia. Qed.
Lemma good_setn : forall h n cs i c c', (forall i c, nth_error cs i = Some c -> good h (n + i * d ^ h) c) -> nth_error cs i = Some c -> good h (n + i * d ^ h) c' ->
  forall j x, nth_error (setn cs i c') j = Some x -> good h (n + j * d ^ h) x.
Proof. intros h n cs i c c' G E G' j x X. rewrite (setn_nth _ cs i c' c E) in X. destruct (Nat.eqb_spec j i) as [->|N]; [injection X as <-; auto|auto]. Qed.

(** A step keeps the invariant; a fiber pushes the sum of its numbers, once. *)
Lemma good_step : d <> 0 -> forall p h n f f' o, good h n f -> step p f = Some (f', o) ->
  good h n f' /\ match o with Some v => v = tot n (d ^ h) /\ gave f = false /\ gave f' = true | None => gave f' = gave f end.
Proof.
  intros D. induction p as [|i p IH]; intros h n f f' o G H.
  - destruct f as [n' sz|n' sz cs q k s|cs q|]; cbn [Skynet.step Skynet.own] in H; try discriminate.
    + assert (G2 : n' = n /\ sz = d ^ h) by (destruct h; exact G). destruct G2 as [-> ->]. destruct (Nat.eqb_spec (d ^ h) 1) as [E|E]; injection H as <- <-.
      * split; [destruct h; exact Logic.I|]. rewrite E. simpl. splits; auto.
      * destruct h as [|h]; [simpl in E; lia|]. split; auto. cbn [good]. splits; auto; cbn [length pend sum rest]; try lia; [intros [|i] c X; discriminate|]. replace (n + 0 * d ^ h) with n by lia. rewrite Nat.sub_0_r. simpl. lia.
    + destruct h as [|h]; [destruct G|]. destruct G as (-> & -> & L & GC & K & SM).
      destruct (Nat.ltb_spec (length cs) d) as [Lt|Ge].
      * injection H as <- <-. split; auto. cbn [good].
        assert (E1 : length cs * d ^ S h / d = length cs * d ^ h) by (simpl; rewrite Nat.mul_assoc, (Nat.mul_comm (length cs) d), <- Nat.mul_assoc, Nat.mul_comm; apply Nat.div_mul; auto).
        assert (E2 : d ^ S h / d = d ^ h) by (simpl; rewrite Nat.mul_comm; apply Nat.div_mul; auto).
        change (d * d ^ h) with (d ^ S h). rewrite E1, E2, app_length, pend_app, rest_app. cbn [length pend rest gave]. splits; auto; try lia.
        -- intros i c X. destruct (Nat.lt_ge_cases i (length cs)) as [Y|Y]; [rewrite nth_error_app1 in X by auto; auto|]. rewrite nth_error_app2 in X by auto. destruct (i - length cs) as [|y] eqn:Z; [|destruct y; discriminate]. injection X as <-. destruct h; simpl; split; auto; f_equal; f_equal; lia.
        -- assert (T : tot (n + length cs * d ^ h) ((d - length cs) * d ^ h) = tot (n + length cs * d ^ h) (d ^ h) + tot (n + (length cs + 1) * d ^ h) ((d - (length cs + 1)) * d ^ h)).
           { replace ((d - length cs) * d ^ h) with (d ^ h + (d - (length cs + 1)) * d ^ h) by (replace (d - length cs) with (S (d - (length cs + 1))) by lia; simpl; lia). rewrite tot_add. f_equal. f_equal. lia. }
           lia.
      * assert (LE : length cs = d) by lia. destruct (Nat.ltb_spec k d) as [Kd|Kd].
        -- assert (X : exists v q', q = v :: q' /\ f' = Par n (d ^ S h) cs q' (1 + k) (s + v) /\ o = None) by (destruct m; [destruct (forallb is_done cs); [|discriminate]| |]; destruct q as [|v q']; try discriminate; injection H as <- <-; eauto).
           destruct X as (v & q' & -> & -> & ->). split; auto. cbn [good]. cbn [length sum] in *. splits; auto; lia.
        -- injection H as <- <-. assert (Z : pend cs = 0 /\ length q = 0) by lia. destruct Z as [Z1 Z2]. destruct q; [|discriminate].
           assert (R : rest (d ^ h) n cs = 0).
           { clear - Z1. revert n Z1. induction cs as [|c cs IH]; intros n Z; simpl in *; auto. destruct (gave c); [|lia]. rewrite IH; lia. }
           rewrite R, LE, Nat.sub_diag in SM. simpl in SM. split; [destruct m; cbn [good]; auto|]. split; [simpl; lia|]. split; auto. destruct m; auto.
    + destruct h as [|h]; [destruct G|]. destruct (forallb is_done cs); [|discriminate]. injection H as <- <-. split; cbn; auto.
  - destruct f as [n' sz|n' sz cs q k s|cs q|]; cbn [Skynet.step] in H; try discriminate.
    + destruct h as [|h]; [destruct G|]. destruct G as (-> & -> & L & GC & K & SM). destruct (nth_error cs i) as [c|] eqn:E; [|discriminate]. destruct (step p c) as [[c' o']|] eqn:E2; [|discriminate].
      destruct (IH h _ c c' o' (GC i c E) E2) as [G' O']. assert (P := pend_setn cs i c c' E). assert (R := rest_setn (d ^ h) cs n i c c' E). assert (GS := good_setn h n cs i c c' GC E G').
      destruct o' as [v|].
      * destruct O' as (-> & O1 & O2). destruct (length q <? cap); [|discriminate]. injection H as <- <-. split; auto. rewrite O1, O2 in *. cbn [good]. rewrite setn_length, app_length, sum_app. cbn [length sum]. splits; auto; lia.
      * injection H as <- <-. split; auto. rewrite O' in *. cbn [good]. rewrite setn_length. splits; auto; lia.
    + destruct h as [|h]; [destruct G|]. destruct G as (GC & P0 & ->). destruct (nth_error cs i) as [c|] eqn:E; [|discriminate]. destruct (step p c) as [[c' o']|] eqn:E2; [|discriminate].
      destruct (IH h _ c c' o' (GC i c E) E2) as [G' O']. assert (P := pend_setn cs i c c' E). assert (GS := good_setn h n cs i c c' GC E G').
      assert (GV : gave c = true). { clear - E P0. revert i E P0. induction cs as [|x cs IH]; intros [|i] E P; simpl in *; try discriminate; [injection E as ->; destruct (gave c); auto; lia|]. apply (IH i E). lia. }
      destruct o' as [v|]; [destruct O' as (_ & O1 & _); congruence|]. injection H as <- <-. split; auto. rewrite O', GV in *. cbn [good]. splits; auto. lia.
Qed.

(** Some fiber can go on. *)
Definition suits : Prop := match m with JoinPop => d <= cap | _ => 0 < cap end.
Lemma not_done : forall cs, forallb is_done cs = false -> exists i c, nth_error cs i = Some c /\ c <> Done.
Proof. induction cs as [|c cs IH]; simpl; [discriminate|]. intros H. destruct (is_done c) eqn:E; [destruct (IH H) as (i & x & X & Y); exists (S i), x; auto|]. exists 0, c. split; auto. intros ->. discriminate. Qed.
Lemma done_pend : forall cs, forallb is_done cs = true -> pend cs = 0.
Proof. induction cs as [|c cs IH]; simpl; auto. intros H. apply andb_prop in H. destruct H as [H1 H2]. destruct c; try discriminate. simpl. auto. Qed.
Lemma pend_ex : forall cs, pend cs <> 0 -> exists i c, nth_error cs i = Some c /\ gave c = false.
Proof. induction cs as [|c cs IH]; simpl; [lia|]. intros H. destruct (gave c) eqn:E; [destruct (IH H) as (i & x & X & Y); exists (S i), x; auto|]. exists 0, c. auto. Qed.
Lemma progress : d <> 0 -> suits -> forall h n f, good h n f -> f <> Done -> exists p, step p f <> None.
Proof.
  intros D SU. induction h as [|h IH]; intros n f G ND.
  - destruct f; try (destruct G; fail); try congruence. exists []. cbn [Skynet.step Skynet.own]. destruct (Nat.eqb sz 1); discriminate.
  - destruct f as [n' sz|n' sz cs q k s|cs q|]; try congruence.
    + exists []. cbn [Skynet.step Skynet.own]. destruct (Nat.eqb sz 1); discriminate.
    + destruct G as (-> & -> & L & GC & K & SM).
      destruct (Nat.ltb_spec (length cs) d) as [Lt|Ge]; [exists []; cbn [Skynet.step Skynet.own]; apply Nat.ltb_lt in Lt; rewrite Lt; discriminate|].
      destruct (Nat.ltb_spec k d) as [Kd|Kd]; [|exists []; cbn [Skynet.step Skynet.own]; apply Nat.ltb_ge in Ge, Kd; rewrite Ge, Kd; discriminate].
      assert (CH : forall i c, nth_error cs i = Some c -> c <> Done -> length q < cap \/ gave c = true -> exists p, step p (Par n (d ^ S h) cs q k s) <> None).
      { intros i c E N Lq. destruct (IH _ c (GC i c E) N) as [p P]. exists (i :: p). cbn [Skynet.step]. rewrite E. destruct (step p c) as [[c' [v|]]|] eqn:X; try congruence.
        destruct (good_step D p h _ c c' _ (GC i c E) X) as [_ (_ & Y & _)]. destruct Lq as [Lq|Lq]; [|congruence]. apply Nat.ltb_lt in Lq. rewrite Lq. discriminate. }
      assert (W1 := Ge). assert (W2 := Kd). apply Nat.ltb_ge in W1. apply Nat.ltb_lt in W2. unfold suits in SU.
      assert (POP : forall v q', q = v :: q' -> m <> JoinPop -> exists p, step p (Par n (d ^ S h) cs q k s) <> None).
      { intros v q' -> N. exists []. cbn [Skynet.step Skynet.own]. rewrite W1, W2. destruct m; congruence. }
      assert (EMP : q = [] -> 0 < cap -> exists p, step p (Par n (d ^ S h) cs q k s) <> None).
      { intros -> C. destruct (pend_ex cs) as (i & c & E & Y); [cbn [length] in K; lia|]. apply (CH i c E); [intros ->; discriminate|auto]. }
      assert (MJ : m = JoinPop \/ (m <> JoinPop /\ 0 < cap)) by (destruct m; auto; right; split; auto; discriminate).
      destruct MJ as [M|[M C]]; [|destruct q as [|v q'] eqn:Q; [apply EMP; auto|apply (POP v q'); auto]].
      rewrite M in SU. destruct (forallb is_done cs) eqn:FD.
      * exists []. cbn [Skynet.step Skynet.own]. rewrite W1, W2, FD, M. apply done_pend in FD. destruct q; [simpl in *; lia|discriminate].
      * destruct (not_done cs FD) as (i & c & E & N). apply (CH i c E N). destruct (gave c) eqn:Z; auto. left.
        assert (P : pend cs <> 0). { clear - E Z. revert i E. induction cs as [|x cs IH]; intros [|i] E; simpl in *; try discriminate; [injection E as ->; rewrite Z; lia|]. specialize (IH i E). lia. } lia.
    + destruct G as (GC & P0 & ->). destruct (forallb is_done cs) eqn:FD; [exists []; cbn [Skynet.step Skynet.own]; rewrite FD; discriminate|].
      destruct (not_done cs FD) as (i & c & E & N). destruct (IH _ c (GC i c E) N) as [p P]. exists (i :: p). cbn [Skynet.step]. rewrite E. destruct (step p c) as [[c' [v|]]|] eqn:X; try congruence.
      destruct (good_step D p h _ c c' _ (GC i c E) X) as [_ (_ & Y & _)]. exfalso. clear - E P0 Y. revert i E P0. induction cs as [|x cs IH]; intros [|i] E P; simpl in *; try discriminate; [injection E as ->; rewrite Y in P; lia|]. apply (IH i E). lia.
Qed.

(** Every step brings the end nearer. *)
Fixpoint bound (h : nat) : nat := match h with 0 => 1 | S h => 3 + d + d * (1 + bound h) end.
Fixpoint summap {A} (g : A -> nat) (l : list A) : nat := match l with [] => 0 | x :: l => g x + summap g l end.
Fixpoint left_ (h : nat) (f : fib) : nat :=
  match f with
  | New _ _ => bound h
  | Done => 0
  | Par _ _ cs _ k _ => match h with 0 => 0 | S h => 2 + (d - k) + summap (left_ h) cs + (d - length cs) * (1 + bound h) end
  | Tail cs _ => match h with 0 => 0 | S h => 1 + summap (left_ h) cs end
  end.
Lemma summap_setn : forall A (g : A -> nat) l i c c', nth_error l i = Some c -> summap g (setn l i c') + g c = summap g l + g c'.
Proof. intros A g. induction l as [|y l IH]; intros [|i] c c' E; simpl in *; try discriminate; [injection E as ->; lia|]. specialize (IH i c c' E). lia. Qed.
Lemma summap_app : forall A (g : A -> nat) a b, summap g (a ++ b) = summap g a + summap g b.
Proof. intros A g. induction a; intros; simpl; auto. rewrite IHa. lia. Qed.
Lemma bound_pos : forall h, 0 < bound h.
Proof. destruct h; simpl; lia. Qed.
Lemma left_step : d <> 0 -> forall p h n f f' o, good h n f -> step p f = Some (f', o) -> left_ h f' < left_ h f.
Proof.
  intros D. induction p as [|i p IH]; intros h n f f' o G H.
  - destruct f as [n' sz|n' sz cs q k s|cs q|]; cbn [Skynet.step Skynet.own] in H; try discriminate.
    + assert (G2 : n' = n /\ sz = d ^ h) by (destruct h; exact G). destruct G2 as [-> ->]. assert (B := bound_pos h). destruct (Nat.eqb_spec (d ^ h) 1) as [E|E]; injection H as <- <-; [destruct h; simpl in *; lia|].
      destruct h as [|h]; [simpl in E; lia|]. cbn [left_ bound summap length]. rewrite !Nat.sub_0_r. lia.
    + destruct h as [|h]; [destruct G|]. destruct G as (-> & -> & L & GC & K & SM).
      destruct (Nat.ltb_spec (length cs) d) as [Lt|Ge].
      * injection H as <- <-. cbn [left_]. rewrite summap_app, app_length. cbn [summap length]. assert (BN : forall a b, left_ h (New a b) = bound h) by (intros; destruct h; reflexivity). rewrite BN. replace (d - length cs) with (S (d - (length cs + 1))) by lia. cbn [Nat.mul]. lia.
      * destruct (Nat.ltb_spec k d) as [Kd|Kd].
        -- assert (X : exists v q', q = v :: q' /\ f' = Par n (d ^ S h) cs q' (1 + k) (s + v) /\ o = None) by (destruct m; [destruct (forallb is_done cs); [|discriminate]| |]; destruct q as [|v q']; try discriminate; injection H as <- <-; eauto).
           destruct X as (v & q' & -> & -> & ->). cbn [left_]. lia.
        -- injection H as <- <-. destruct m; cbn [left_]; lia.
    + destruct h as [|h]; [destruct G|]. destruct (forallb is_done cs); [|discriminate]. injection H as <- <-. cbn [left_]. lia.
  - destruct f as [n' sz|n' sz cs q k s|cs q|]; cbn [Skynet.step] in H; try discriminate.
    + destruct h as [|h]; [destruct G|]. destruct G as (-> & -> & L & GC & K & SM). destruct (nth_error cs i) as [c|] eqn:E; [|discriminate]. destruct (step p c) as [[c' o']|] eqn:E2; [|discriminate].
      assert (X := IH h _ c c' o' (GC i c E) E2). assert (Y := summap_setn _ (left_ h) cs i c c' E).
      assert (Z : exists q', f' = Par n (d ^ S h) (setn cs i c') q' k s) by (destruct o' as [v|]; [destruct (length q <? cap); [|discriminate]|]; injection H as <- <-; eauto). destruct Z as [q' ->]. cbn [left_]. rewrite setn_length. lia.
    + destruct h as [|h]; [destruct G|]. destruct G as (GC & P0 & ->). destruct (nth_error cs i) as [c|] eqn:E; [|discriminate]. destruct (step p c) as [[c' o']|] eqn:E2; [|discriminate].
      assert (X := IH h _ c c' o' (GC i c E) E2). assert (Y := summap_setn _ (left_ h) cs i c c' E).
      assert (Z : exists q', f' = Tail (setn cs i c') q') by (destruct o' as [v|]; [destruct (length (@nil nat) <? cap); [|discriminate]|]; injection H as <- <-; eauto). destruct Z as [q' ->]. cbn [left_]. lia.
Qed.

Notation mstep := (mstep m d cap).
Record inv (h : nat) (s : st) : Prop := { i_good : good h 0 (root s); i_out : out s = if gave (root s) then [tot 0 (d ^ h)] else [] }.
Lemma inv_step : d <> 0 -> forall h s p s', inv h s -> mstep s p = Some s' -> inv h s' /\ left_ h (root s') < left_ h (root s).
Proof.
  intros D h s p s' [G O] H. unfold Skynet.mstep in H. destruct (step p (root s)) as [[f o]|] eqn:E; [|discriminate]. destruct (good_step D p h 0 _ _ _ G E) as [G' R]. assert (L := left_step D p h 0 _ _ _ G E).
  destruct o as [v|].
  - destruct R as (-> & R1 & R2). rewrite R1 in O. rewrite O in H. cbn [length] in H. injection H as <-. split; auto. split; cbn [root out]; auto. rewrite R2. auto.
  - injection H as <-. split; auto. split; cbn [root out]; auto. rewrite R. auto.
Qed.
Lemma inv_reach : d <> 0 -> forall h s, reachable mstep (init_state (d ^ h)) s -> inv h s.
Proof.
  intros D h. apply (reachable_inv mstep (inv h) (init_state (d ^ h))).
  - split; cbn; auto. destruct h; simpl; auto.
  - intros s l s' I0 H. eapply inv_step; eauto.
Qed.
End Props.

(** What the main fiber gets is the sum of the numbers below size, in every variant, for every div and every capacity, under every scheduling. *)
Theorem C127_sum_partial : forall m d cap h s v, d <> 0 -> reachable (mstep m d cap) (init_state (d ^ h)) s -> In v (out s) -> 2 * v + d ^ h = d ^ h * d ^ h.
Proof.
  intros m d cap h s v D R H. destruct (inv_reach m d cap D h s R) as [G O]. rewrite O in H. destruct (gave (root s)); [|destruct H]. destruct H as [<-|[]]. rewrite tot_gauss. lia.
Qed.
Print Assumptions C127_sum_partial.
(** No execution goes on for ever. *)
Theorem C127_ends_partial : forall m d cap h ls s, d <> 0 -> exec (mstep m d cap) (init_state (d ^ h)) ls = Some s -> length ls <= bound d h.
Proof.
  intros m d cap h ls s D E.
  assert (X : forall ls s0 s1, inv d h s0 -> exec (mstep m d cap) s0 ls = Some s1 -> length ls + left_ d h (root s1) <= left_ d h (root s0)).
  { induction ls0 as [|l ls0 IH]; intros s0 s1 I0 H; simpl in H; [injection H as <-; simpl; lia|]. destruct (mstep m d cap s0 l) as [s2|] eqn:X; [|discriminate]. destruct (inv_step m d cap D h s0 l s2 I0 X) as [I2 L]. specialize (IH s2 s1 I2 H). simpl. lia. }
  assert (I0 : inv d h (init_state (d ^ h))) by (split; cbn; auto; destruct h; simpl; auto).
  specialize (X ls _ s I0 E). replace (left_ d h (root (init_state (d ^ h)))) with (bound d h) in X by (destruct h; reflexivity). lia.
Qed.
Print Assumptions C127_ends_partial.
(** Until main() has its value and all fibers have ended, some fiber can go on: if the values are taken before join(), or if they all fit into the channel. *)
Theorem C127_no_deadlock_partial : forall m d cap h s, d <> 0 -> match m with JoinPop => d <= cap | _ => 0 < cap end -> reachable (mstep m d cap) (init_state (d ^ h)) s ->
  (exists p s', mstep m d cap s p = Some s') \/ (root s = Done /\ exists v, out s = [v]).
Proof.
  intros m d cap h s D C R. destruct (inv_reach m d cap D h s R) as [G O]. assert (X : root s = Done \/ root s <> Done) by (destruct (root s); auto; right; discriminate). destruct X as [X|X].
  - right. split; auto. rewrite X in O. simpl in O. eauto.
  - left. destruct (progress m d cap D C h 0 (root s) G X) as [p P]. exists p. unfold mstep. destruct (step m d cap p (root s)) as [[f o]|] eqn:E; [|congruence]. destruct (good_step m d cap D p h 0 _ _ _ G E) as [_ Y].
    destruct o as [v|]; [|eauto]. destruct Y as (_ & Y & _). rewrite O, Y. cbn. eauto.
Qed.
Print Assumptions C127_no_deadlock_partial.
Example C127_case : exists s, reachable (mstep JoinPop 2 15) (init_state (2 ^ 2)) s /\ root s = Done /\ out s = [6].
Proof. apply (reach_by (mstep JoinPop 2 15) (init_state (2 ^ 2)) [[]; []; []; [1]; [0]; [0]; [0]; [0;1]; [0;0]; [0]; [0]; [0]; [1]; [1]; [1;0]; [1;1]; [1]; [1]; [1]; []; []; []]). vm_compute. auto. Qed.
Example C127_case_steal : exists s, reachable (mstep PopJoin 2 15) (init_state (2 ^ 1)) s /\ root s = Done /\ out s = [1].
Proof. apply (reach_by (mstep PopJoin 2 15) (init_state (2 ^ 1)) [[]; []; [0]; []; [1]; []; []; []; []]). vm_compute. auto. Qed.

(** The full property is false: with join() before value_pop() and more children than values fit into rc{ 16 }, i.e. div > 15, main() never gets a value, under no scheduling. *)
Theorem C127_refuted : forall d cap h s, cap < d -> 0 < h -> 1 < d -> reachable (mstep JoinPop d cap) (init_state (d ^ h)) s -> out s = [] /\ root s <> Done.
Proof.
  intros d cap h s C H D1 R. assert (D : d <> 0) by lia. destruct h as [|h]; [lia|].
  assert (J : (root s = New 0 (d ^ S h) \/ exists n sz cs q, root s = Par n sz cs q 0 0 /\ length q <= cap) /\ out s = []).
  { revert s R. apply (reachable_inv2 (mstep JoinPop d cap)); [cbn; auto|]. intros s l s' R [I0 O] E. assert (G := i_good _ _ _ (inv_reach JoinPop d cap D (S h) s R)). unfold mstep in E.
    destruct I0 as [I0|(n & sz & cs & q & I0 & Q)]; rewrite I0 in *.
    - destruct l as [|i l]; cbn [step] in E; [|discriminate]. cbn [own] in E. destruct (Nat.eqb_spec (d ^ S h) 1) as [X|X]; [assert (Y : d ^ S h >= d) by (simpl; assert (d ^ h <> 0) by (apply Nat.pow_nonzero; auto); nia); lia|].
      injection E as <-. cbn [root out]. split; auto. right. do 4 eexists. split; [reflexivity|]. simpl. lia.
    - destruct G as (-> & -> & L & GC & K & SM). destruct l as [|i l]; cbn [step] in E.
      + cbn [own] in E. destruct (Nat.ltb_spec (length cs) d) as [Lt|Ge].
        * injection E as <-. cbn [root out]. split; auto. right. do 4 eexists. split; [reflexivity|]. auto.
        * destruct (Nat.ltb_spec 0 d) as [X|X]; [|lia]. destruct (forallb is_done cs) eqn:FD; [|discriminate]. apply done_pend in FD. lia.
      + destruct (nth_error cs i) as [c|]; [|discriminate]. destruct (step JoinPop d cap l c) as [[c' [v|]]|]; [|injection E as <-; cbn [root out]; split; auto; right; do 4 eexists; split; [reflexivity|auto]|discriminate].
        destruct (Nat.ltb_spec (length q) cap) as [X|X]; [|discriminate]. injection E as <-. cbn [root out]. split; auto. right. do 4 eexists. split; [reflexivity|]. rewrite app_length. simpl. lia. }
  destruct J as [J O]. split; auto. destruct J as [J|(n & sz & cs & q & J & _)]; rewrite J; discriminate.
Qed.
Print Assumptions C127_refuted.
(** So every execution of the deadlocking program ends in a state in which no fiber can go on. *)
Example C127_refuted_case : 15 < 16 /\ 0 < 1 /\ 1 < 16 /\ exists s, reachable (mstep JoinPop 16 15) (init_state (16 ^ 1)) s /\ length (match root s with Par _ _ cs _ _ _ => cs | _ => [] end) = 16 /\ length (match root s with Par _ _ _ q _ _ => q | _ => [] end) = 15.
Proof.
  splits; try lia. apply (reach_by (mstep JoinPop 16 15) (init_state (16 ^ 1)) ([] :: repeat [] 16 ++ [[0]; [1]; [2]; [3]; [4]; [5]; [6]; [7]; [8]; [9]; [10]; [11]; [12]; [13]; [14]])). vm_compute. auto.
Qed.
