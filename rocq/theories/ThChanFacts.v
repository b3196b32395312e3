(** Facts about the channel for threads of the benchmarks (for C122 and C123). *)
From Coq Require Import List Arith Bool Lia.
From Verif Require Import Base ThChan ThChanSpec.
Import ListNotations.

(** ** Capacities *)
Lemma land_double : forall a b, Nat.land (2 * a) (2 * b) = 2 * Nat.land a b.
Proof.
  intros a b. apply Nat.bits_inj. intros n. rewrite Nat.land_spec. destruct n as [|n].
  - rewrite !Nat.testbit_even_0. reflexivity.
  - rewrite !Nat.testbit_even_succ by lia. now rewrite Nat.land_spec.
Qed.
Lemma land_double1 : forall a b, Nat.land (2 * a) (2 * b + 1) = 2 * Nat.land a b.
Proof.
  intros a b. apply Nat.bits_inj. intros n. rewrite Nat.land_spec. destruct n as [|n].
  - rewrite !Nat.testbit_even_0. reflexivity.
  - rewrite !Nat.testbit_even_succ, Nat.testbit_odd_succ by lia. now rewrite Nat.land_spec.
Qed.
Lemma land_odd : forall a, Nat.land (2 * a + 1) (2 * a) = 2 * a.
Proof. intros a. rewrite Nat.land_comm, land_double1, Nat.land_diag. reflexivity. Qed.
Lemma pow_of_land : forall n, 0 < n -> Nat.land n (n - 1) = 0 -> exists k, n = 2 ^ k.
Proof.
  intros n. induction n as [n IH] using lt_wf_ind. intros P L. destruct (Nat.Even_or_Odd n) as [(m & E)|(m & E)].
  - assert (X : n - 1 = 2 * (m - 1) + 1) by lia. rewrite X, E, land_double1 in L. destruct (IH m) as (k & K); [lia|lia|lia|]. exists (S k). rewrite Nat.pow_succ_r'. lia.
  - assert (X : n - 1 = 2 * m) by lia. rewrite X, E, land_odd in L. exists 0. simpl. lia.
Qed.
Lemma land_of_pow : forall k, Nat.land (2 ^ k) (2 ^ k - 1) = 0.
Proof. intros k. replace (2 ^ k - 1) with (Nat.ones k) by (rewrite Nat.ones_equiv; lia). rewrite Nat.land_ones. apply Nat.mod_same. apply Nat.pow_nonzero. lia. Qed.
Lemma accepted_pow : forall cap, accepted cap = true <-> exists k, cap = 2 ^ k.
Proof.
  intros cap. unfold accepted. rewrite negb_true_iff, orb_false_iff, negb_false_iff, Nat.eqb_neq, Nat.eqb_eq. split.
  - intros (A & B). apply pow_of_land; lia.
  - intros (k & ->). rewrite land_of_pow. split; auto. pose proof (Nat.pow_nonzero 2 k). lia.
Qed.

Section Cap.
Variable cap : nat.
Hypothesis acc : accepted cap = true.
Hypothesis cap2 : 2 <= cap.
Lemma slot_mod : forall i, slot cap i = i mod cap.
Proof. intros i. apply accepted_pow in acc. destruct acc as (k & ->). unfold slot. replace (2 ^ k - 1) with (Nat.ones k) by (rewrite Nat.ones_equiv; lia). apply Nat.land_ones. Qed.
Lemma slot_cap : forall i, slot cap (i + cap) = slot cap i.
Proof. intros i. rewrite !slot_mod. replace (i + cap) with (i + 1 * cap) by lia. apply Nat.mod_add. lia. Qed.
Lemma slot_inj : forall i j, slot cap i = slot cap j -> i < j + cap -> j < i + cap -> i = j.
Proof.
  intros i j. rewrite !slot_mod. intros E A B. pose proof (Nat.div_mod i cap). pose proof (Nat.div_mod j cap). rewrite E in *.
  assert (i / cap = j / cap \/ i / cap < j / cap \/ j / cap < i / cap) as [C|[C|C]] by lia; [rewrite C in *; lia| |]; exfalso; nia.
Qed.
Lemma slot_next : forall i, slot cap (S i) <> slot cap i.
Proof. intros i E. apply slot_inj in E; lia. Qed.

(** ** Invariant *)
Definition wr (p : pc_t) : option (nat * nat) := match p with PWrite v i => Some (v, i) | PPub v i => Some (v, i) | _ => None end.
Definition rd (p : pc_t) : option nat := match p with CRead i => Some i | CFree i _ => Some i | _ => None end.
Definition crit (p : pc_t) : bool := match p with PWrite _ _ | PPub _ _ | CRead _ | CFree _ _ => true | _ => false end.
Definition okph (cl : bool) (p : pc_t) (ph : phase) : Prop :=
  match p with
  | Idle => ph = SIdle
  | PIn v => exists late, ph = SPush v late /\ (late = true -> cl = true)
  | PLoad v | PCyc v _ | PCas v _ | PFull v | PChk v _ | PIdx v _ | PTst v _ _ | PGo v | PSleep v | PWake v => ph = SPush v false
  | PWrite v _ | PPub v _ | PNote v => ph = SPushed v
  | CRead _ => exists v, ph = SPopped v
  | CFree _ v | CNote v => ph = SPopped v
  | _ => ph = SPop
  end.
Definition local (s : st) (p : pc_t) : Prop :=
  match p with
  | PCyc v i => i <= pidx s
  | PCas v i => i <= pidx s /\ (pidx s = i -> cyc s (slot cap i) = i)
  | CCyc i => i <= cidx s
  | CCas i => i <= cidx s /\ (cidx s = i -> cyc s (slot cap i) = S i)
  | _ => True
  end.
Record inv (s : st) (a : aut) : Prop := {
  i_acc : accept cap (log s) = Some a;
  i_shut : shut a = closed s;
  i_len : length (queue a) = pidx s - cidx s;
  i_idx : cidx s <= pidx s <= cidx s + cap;
  i_ph : forall t, okph (closed s) (pc s t) (phs a t);
  i_loc : forall t, local s (pc s t);
  i_wr : forall t v i, wr (pc s t) = Some (v, i) -> cidx s <= i < pidx s /\ cyc s (slot cap i) = i /\ nth_error (queue a) (i - cidx s) = Some v /\ (pc s t = PPub v i -> stor s (slot cap i) = Some v);
  i_wru : forall t u v w i, wr (pc s t) = Some (v, i) -> wr (pc s u) = Some (w, i) -> t = u;
  i_rd : forall t i, rd (pc s t) = Some i -> i < cidx s /\ cidx s <= i + cap /\ pidx s <= i + cap /\ cyc s (slot cap i) = S i /\ (pc s t = CRead i -> exists v, stor s (slot cap i) = Some v /\ phs a t = SPopped v);
  i_rdu : forall t u i, rd (pc s t) = Some i -> rd (pc s u) = Some i -> t = u;
  i_q : forall i, cidx s <= i < pidx s -> (exists t v, wr (pc s t) = Some (v, i)) \/ cyc s (slot cap i) = S i /\ stor s (slot cap i) = nth_error (queue a) (i - cidx s);
  i_f : forall i, pidx s <= i < cidx s + cap -> cyc s (slot cap i) = i \/ exists t j, rd (pc s t) = Some j /\ i = j + cap
}.
Lemma inv_init : inv init_state aut0.
Proof.
  split; simpl; auto; try discriminate; try (intros; discriminate); try lia.
  intros i H. left. rewrite slot_mod. apply Nat.mod_small. lia.
Qed.
Lemma wr_crit : forall p x, wr p = Some x -> crit p = true.
Proof. destruct p; simpl; auto; discriminate. Qed.
Lemma rd_crit : forall p x, rd p = Some x -> crit p = true.
Proof. destruct p; simpl; auto; discriminate. Qed.
(** Steps that change neither slots nor indices. *)
Lemma soft : forall s a s' a', inv s a ->
  pidx s' = pidx s -> cidx s' = cidx s -> cyc s' = cyc s -> stor s' = stor s ->
  accept cap (log s') = Some a' -> shut a' = closed s' -> queue a' = queue a ->
  (forall u, crit (pc s u) = true \/ crit (pc s' u) = true -> pc s' u = pc s u /\ phs a' u = phs a u) ->
  (forall u, okph (closed s') (pc s' u) (phs a' u)) -> (forall u, local s' (pc s' u)) -> inv s' a'.
Proof.
  intros s a s' a' [A1 A2 A3 A4 A5 A6 A7 A8 A9 A10 A11 A12] E1 E2 E3 E4 E5 E6 E7 C O L.
  split; rewrite ?E1, ?E2, ?E3, ?E4, ?E7; auto.
  - intros t v i H. pose proof (proj1 (C t (or_intror (wr_crit _ _ H)))) as X. rewrite X in *. now apply A7.
  - intros t u v w i H H2. rewrite (proj1 (C t (or_intror (wr_crit _ _ H)))) in H. rewrite (proj1 (C u (or_intror (wr_crit _ _ H2)))) in H2. eapply A8; eauto.
  - intros t i H. destruct (C t (or_intror (rd_crit _ _ H))) as (X & Y). rewrite X, Y in *. now apply A9.
  - intros t u i H H2. rewrite (proj1 (C t (or_intror (rd_crit _ _ H)))) in H. rewrite (proj1 (C u (or_intror (rd_crit _ _ H2)))) in H2. eapply A10; eauto.
  - intros i H. destruct (A11 i H) as [(t & v & X)|X]; auto. left. exists t, v. rewrite (proj1 (C t (or_introl (wr_crit _ _ X)))). auto.
  - intros i H. destruct (A12 i H) as [X|(t & j & X & Y)]; auto. right. exists t, j. rewrite (proj1 (C t (or_introl (rd_crit _ _ X)))). auto.
Qed.
(** The same for one thread, without event. *)
Lemma soft_go : forall s a s' t p, inv s a ->
  pidx s' = pidx s -> cidx s' = cidx s -> cyc s' = cyc s -> stor s' = stor s -> closed s' = closed s -> log s' = log s -> pc s' = upd (pc s) t p ->
  crit (pc s t) = false -> crit p = false -> (forall ph, okph (closed s) (pc s t) ph -> okph (closed s) p ph) -> local s p -> inv s' a.
Proof.
  intros s a s' t p I E1 E2 E3 E4 E5 E6 E7 C1 C2 O L. apply (soft s a); auto; rewrite ?E6, ?E5; try apply I.
  - intros u H. rewrite E7 in *. destruct (Nat.eq_dec u t) as [->|N]; [rewrite upd_same in H; rewrite C1, C2 in H; destruct H; discriminate|]. now rewrite upd_other.
  - intros u. rewrite E7. destruct (Nat.eq_dec u t) as [->|N]; [rewrite upd_same; apply O; apply I|rewrite upd_other by auto; apply I].
  - intros u. rewrite E7. pose proof (i_loc s a I u) as Lu. destruct (Nat.eq_dec u t) as [->|N]; [rewrite upd_same|rewrite upd_other by auto]; unfold local in *; rewrite ?E1, ?E2, ?E3; auto.
Qed.
(** The same with an event. *)
Lemma soft_ev : forall s a s' t p e a' ph, inv s a ->
  pidx s' = pidx s -> cidx s' = cidx s -> cyc s' = cyc s -> stor s' = stor s -> closed s' = closed s -> log s' = e :: log s -> pc s' = upd (pc s) t p ->
  astep cap a e = Some a' -> queue a' = queue a -> shut a' = shut a -> phs a' = upd (phs a) t ph ->
  crit (pc s t) = false -> crit p = false -> okph (closed s) p ph -> local s p -> inv s' a'.
Proof.
  intros s a s' t p e a' ph I E1 E2 E3 E4 E5 E6 E7 A Q S P C1 C2 O L. apply (soft s a); auto.
  - rewrite E6. simpl. rewrite (i_acc s a I). exact A.
  - rewrite S, E5. apply I.
  - intros u H. rewrite E7 in *. rewrite P. destruct (Nat.eq_dec u t) as [->|N]; [rewrite upd_same in H; rewrite C1, C2 in H; destruct H; discriminate|]. now rewrite !upd_other.
  - intros u. rewrite E7, E5, P. destruct (Nat.eq_dec u t) as [->|N]; [rewrite !upd_same; auto|rewrite !upd_other by auto; apply I].
  - intros u. rewrite E7. pose proof (i_loc s a I u) as Lu. destruct (Nat.eq_dec u t) as [->|N]; [rewrite upd_same|rewrite upd_other by auto]; unfold local in *; rewrite ?E1, ?E2, ?E3; auto.
Qed.
(** Notified threads. *)
Lemma soft_wake : forall s a s', inv s a ->
  pidx s' = pidx s -> cidx s' = cidx s -> cyc s' = cyc s -> stor s' = stor s -> closed s' = closed s -> log s' = log s ->
  (forall u, pc s' u = pc s u \/ pc s' u = woken (pc s u)) -> inv s' a.
Proof.
  intros s a s' I E1 E2 E3 E4 E5 E6 W. apply (soft s a); auto; rewrite ?E6, ?E5; try apply I.
  - intros u H. split; auto. destruct (W u) as [->|X]; auto. rewrite X in *. destruct (pc s u); simpl in *; auto; destruct H; discriminate.
  - intros u. pose proof (i_ph s a I u) as O. destruct (W u) as [->| ->]; auto. destruct (pc s u); simpl in *; auto.
  - intros u. pose proof (i_loc s a I u) as L. unfold local in *. destruct (W u) as [->| ->]; [|destruct (pc s u); simpl; auto]; rewrite ?E1, ?E2, ?E3; auto.
Qed.
(** push() claims a slot. *)
Lemma inv_enq : forall s a t v, inv s a -> pc s t = PCas v (pidx s) ->
  inv (emit (go (set_idx s (S (pidx s)) (cidx s)) t (PWrite v (pidx s))) (EEnq t v)) (mkAut (queue a ++ [v]) (upd (phs a) t (SPushed v)) (shut a)).
Proof.
  intros s a t v I P. pose proof I as [A1 A2 A3 A4 A5 A6 A7 A8 A9 A10 A11 A12].
  pose proof (A6 t) as L. rewrite P in L. destruct L as (_ & L). specialize (L eq_refl).
  pose proof (A5 t) as O. rewrite P in O. simpl in O.
  assert (B : pidx s < cidx s + cap).
  { destruct (Nat.eq_dec (pidx s) (cidx s + cap)) as [E|E]; [|lia]. exfalso. rewrite E, slot_cap in L. destruct (A11 (cidx s)) as [(u & w & X)|(X & _)]; [lia| |lia]. destruct (A7 _ _ _ X) as (_ & Y & _). lia. }
  split; cbn [emit go set_idx pidx cidx cyc stor closed mtx waiting nfull nempty pc log queue phs shut].
  - simpl. rewrite A1. simpl. rewrite O. rewrite Nat.eqb_refl. simpl. destruct (Nat.ltb_spec (length (queue a)) cap) as [X|X]; auto. lia.
  - auto.
  - rewrite app_length. cbn [length]. lia.
  - lia.
  - intros u. destruct (Nat.eq_dec u t) as [->|N]; [rewrite !upd_same; simpl; auto|rewrite !upd_other by auto; auto].
  - intros u. destruct (Nat.eq_dec u t) as [->|N]; [rewrite !upd_same; simpl; auto|rewrite !upd_other by auto]. pose proof (A6 u) as X. unfold local in *. destruct (pc s u); cbn [emit go set_idx pidx cidx cyc] in *; auto; try lia. 
    
  - intros u w i. destruct (Nat.eq_dec u t) as [->|N]; [rewrite !upd_same|rewrite !upd_other by auto].
    + intros H. injection H as <- <-. assert (NE : nth_error (queue a ++ [v]) (pidx s - cidx s) = Some v) by (rewrite nth_error_app2 by lia; rewrite A3, Nat.sub_diag; auto). splits; auto; try lia; discriminate.
    + intros H. destruct (A7 u w i H) as (X1 & X2 & X3 & X4). splits; auto; try lia. rewrite nth_error_app1 by lia. auto.
  - intros u u' w w' i. destruct (Nat.eq_dec u t) as [->|N]; [rewrite !upd_same|rewrite (upd_other _ _ _ u) by auto]; (destruct (Nat.eq_dec u' t) as [->|N']; [rewrite !upd_same|rewrite !upd_other by auto]); auto.
    + intros H H'. injection H as <- <-. destruct (A7 _ _ _ H'). lia.
    + intros H H'. injection H' as <- <-. destruct (A7 _ _ _ H). lia.
    + apply A8.
  - intros u i. destruct (Nat.eq_dec u t) as [->|N]; [rewrite !upd_same; discriminate|rewrite !upd_other by auto]. intros H. destruct (A9 u i H) as (X1 & X2 & X3 & X4 & X5). splits; auto; try lia.
    destruct (Nat.eq_dec (pidx s) (i + cap)) as [E|E]; [|lia]. rewrite E, slot_cap in L. lia.
  - intros u u' i. destruct (Nat.eq_dec u t) as [->|N]; [rewrite !upd_same; discriminate|rewrite (upd_other _ _ _ u) by auto]. destruct (Nat.eq_dec u' t) as [->|N']; [rewrite !upd_same; discriminate|rewrite !upd_other by auto]. apply A10.
  - intros i H. destruct (Nat.eq_dec i (pidx s)) as [->|N]; [left; exists t, v; now rewrite upd_same|]. destruct (A11 i) as [(u & w & X)|(X & Y)]; [lia| |].
    + left. exists u, w. rewrite upd_other; auto. intros ->. rewrite P in X. discriminate.
    + right. split; auto. rewrite nth_error_app1 by lia. auto.
  - intros i H. destruct (A12 i) as [X|(u & j & X & Y)]; [lia|auto|]. right. exists u, j. rewrite upd_other; auto. intros ->. rewrite P in X. discriminate.
Qed.
(** push() stores the value. *)
Lemma inv_write : forall s a t v i, inv s a -> pc s t = PWrite v i -> inv (go (set_stor s (slot cap i) v) t (PPub v i)) a.
Proof.
  intros s a t v i I P. pose proof I as [A1 A2 A3 A4 A5 A6 A7 A8 A9 A10 A11 A12].
  destruct (A7 t v i) as (W1 & W2 & W3 & _); [now rewrite P|].
  assert (WR : forall u, wr (upd (pc s) t (PPub v i) u) = wr (pc s u)) by (intros u; destruct (Nat.eq_dec u t) as [->|N]; [rewrite upd_same, P; auto|now rewrite upd_other]).
  assert (RD : forall u, rd (upd (pc s) t (PPub v i) u) = rd (pc s u)) by (intros u; destruct (Nat.eq_dec u t) as [->|N]; [rewrite upd_same, P; auto|now rewrite upd_other]).
  split; cbn [emit go set_stor pidx cidx cyc stor closed mtx waiting nfull nempty pc log queue phs shut]; auto.
  - intros u. destruct (Nat.eq_dec u t) as [->|N]; [rewrite !upd_same; pose proof (A5 t) as O; rewrite P in O; auto|rewrite !upd_other by auto; auto].
  - intros u. destruct (Nat.eq_dec u t) as [->|N]; [rewrite !upd_same; simpl; auto|rewrite !upd_other by auto]. exact (A6 u).
  - intros u w j H. rewrite WR in H. destruct (A7 u w j H) as (X1 & X2 & X3 & X4). splits; auto; try lia. intros E. destruct (Nat.eq_dec u t) as [->|N].
    + rewrite upd_same in E. injection E as <- <-. now rewrite upd_same.
    + rewrite upd_other in E by auto. rewrite upd_other; auto. intros Sq. apply slot_inj in Sq; try lia. subst j. apply N. symmetry. eapply A8; eauto. now rewrite P.
  - intros u u' w w' j. rewrite !WR. apply A8.
  - intros u j H. rewrite RD in H. destruct (A9 u j H) as (X1 & X2 & X3 & X4 & X5). splits; auto. intros E. destruct (Nat.eq_dec u t) as [->|N]; [rewrite upd_same in E; discriminate|]. rewrite upd_other in E by auto.
    rewrite upd_other; auto. intros Sq. rewrite Sq in X4. rewrite W2 in X4. subst i. symmetry in Sq. exact (slot_next j Sq).
  - intros u u' j. rewrite !RD. apply A10.
  - intros j H. destruct (A11 j H) as [(u & w & X)|(X & Y)]; [left; exists u, w; now rewrite WR|]. right. split; auto. rewrite upd_other; auto. intros Sq. apply slot_inj in Sq; try lia. subst j. lia.
  - intros j H. destruct (A12 j H) as [X|(u & k & X & Y)]; auto. right. exists u, k. now rewrite RD.
Qed.
(** push() publishes the slot. *)
Lemma inv_pub : forall s a t v i, inv s a -> pc s t = PPub v i -> inv (go (set_cyc s (slot cap i) (S i)) t (PNote v)) a.
Proof.
  intros s a t v i I P. pose proof I as [A1 A2 A3 A4 A5 A6 A7 A8 A9 A10 A11 A12].
  destruct (A7 t v i) as (W1 & W2 & W3 & W4); [now rewrite P|]. specialize (W4 P).
  assert (RD : forall u, rd (upd (pc s) t (PNote v) u) = rd (pc s u)) by (intros u; destruct (Nat.eq_dec u t) as [->|N]; [rewrite upd_same, P; auto|now rewrite upd_other]).
  split; cbn [emit go set_cyc pidx cidx cyc stor closed mtx waiting nfull nempty pc log queue phs shut]; auto.
  - intros u. destruct (Nat.eq_dec u t) as [->|N]; [rewrite !upd_same; pose proof (A5 t) as O; rewrite P in O; auto|rewrite !upd_other by auto; auto].
  - intros u. destruct (Nat.eq_dec u t) as [->|N]; [rewrite !upd_same; simpl; auto|rewrite !upd_other by auto]. pose proof (A6 u) as X. unfold local in *. destruct (pc s u); cbn [go set_cyc pidx cidx cyc] in *; auto.
    + destruct X as (X & Y). split; auto. intros Z. specialize (Y Z). destruct (Nat.eq_dec (slot cap i0) (slot cap i)) as [Sq|Sq]; [|now rewrite upd_other]. rewrite Sq in Y. lia.
    + destruct X as (X & Y). split; auto. intros Z. specialize (Y Z). destruct (Nat.eq_dec (slot cap i0) (slot cap i)) as [Sq|Sq]; [|now rewrite upd_other]. rewrite Sq in Y. assert (Ei : i = S i0) by lia. rewrite Ei in Sq. symmetry in Sq. destruct (slot_next _ Sq).
  - intros u w j H. destruct (Nat.eq_dec u t) as [->|N]; [rewrite upd_same in H; discriminate|]. rewrite upd_other in * by auto. destruct (A7 u w j H) as (X1 & X2 & X3 & X4). splits; auto; try lia.
    + rewrite upd_other; auto. intros Sq. apply slot_inj in Sq; try lia. subst j. apply N. symmetry. eapply A8; eauto. now rewrite P.
    + rewrite upd_other by auto. auto.
  - intros u u' w w' j. destruct (Nat.eq_dec u t) as [->|N]; [rewrite !upd_same; discriminate|rewrite (upd_other _ _ _ u) by auto]. destruct (Nat.eq_dec u' t) as [->|N']; [rewrite !upd_same; discriminate|rewrite !upd_other by auto]. apply A8.
  - intros u j H. rewrite RD in H. destruct (A9 u j H) as (X1 & X2 & X3 & X4 & X5). splits; auto.
    + rewrite upd_other; auto. intros Sq. rewrite Sq in X4. rewrite W2 in X4. subst i. symmetry in Sq. exact (slot_next j Sq).
    + intros E. destruct (Nat.eq_dec u t) as [->|N]; [rewrite upd_same in E; discriminate|]. rewrite upd_other in E by auto. auto.
  - intros u u' j. rewrite !RD. apply A10.
  - intros j H. destruct (Nat.eq_dec j i) as [->|Nj]; [right; rewrite upd_same; split; auto; congruence|]. assert (NS : slot cap j <> slot cap i) by (intros Sq; apply slot_inj in Sq; lia). rewrite (upd_other _ _ _ (slot cap j)) by auto.
    destruct (A11 j H) as [(u & w & X)|(X & Y)]; auto. left. exists u, w. rewrite upd_other; auto. intros ->. rewrite P in X. injection X as <- <-. auto.
  - intros j H. assert (NS : slot cap j <> slot cap i) by (intros Sq; apply slot_inj in Sq; lia). rewrite upd_other by auto. destruct (A12 j H) as [X|(u & k & X & Y)]; auto. right. exists u, k. now rewrite RD.
Qed.
(** value_pop() claims a slot. *)
Lemma inv_deq : forall s a t, inv s a -> pc s t = CCas (cidx s) -> exists v r, queue a = v :: r /\ inv (emit (go (set_idx s (pidx s) (S (cidx s))) t (CRead (cidx s))) (EDeq t)) (mkAut r (upd (phs a) t (SPopped v)) (shut a)).
Proof.
  intros s a t I P. pose proof I as [A1 A2 A3 A4 A5 A6 A7 A8 A9 A10 A11 A12].
  pose proof (A6 t) as L. rewrite P in L. destruct L as (_ & L). specialize (L eq_refl).
  pose proof (A5 t) as O. rewrite P in O. simpl in O.
  assert (B : cidx s < pidx s).
  { destruct (Nat.eq_dec (pidx s) (cidx s)) as [E|E]; [|lia]. exfalso. destruct (A12 (cidx s)) as [X|(u & j & X & Y)]; [lia|lia|]. destruct (A9 _ _ X) as (Z1 & Z2 & Z3 & Z4 & _). rewrite Y, slot_cap in L. lia. }
  destruct (A11 (cidx s)) as [(u & w & X)|(_ & X)]; [lia|destruct (A7 _ _ _ X) as (_ & Y & _); lia|]. rewrite Nat.sub_diag in X.
  destruct (queue a) as [|v r] eqn:Q; [simpl in A3; lia|]. exists v, r. split; auto. simpl in X, A3.
  assert (WR : forall u, wr (upd (pc s) t (CRead (cidx s)) u) = wr (pc s u)) by (intros u; destruct (Nat.eq_dec u t) as [->|N]; [rewrite upd_same, P; auto|now rewrite upd_other]).
  assert (NW : forall u w, wr (pc s u) <> Some (w, cidx s)) by (intros u w Y; destruct (A7 _ _ _ Y) as (_ & Z & _); lia).
  assert (NT : forall i, cidx s < i -> nth_error r (i - S (cidx s)) = nth_error (v :: r) (i - cidx s)) by (intros i Hi; replace (i - cidx s) with (S (i - S (cidx s))) by lia; reflexivity).
  split; cbn [emit go set_idx pidx cidx cyc stor closed mtx waiting nfull nempty pc log queue phs shut]; auto.
  - simpl. rewrite A1. simpl. rewrite O, Q. auto.
  - lia.
  - lia.
  - intros u. destruct (Nat.eq_dec u t) as [->|N]; [rewrite !upd_same; simpl; eauto|rewrite !upd_other by auto; auto].
  - intros u. destruct (Nat.eq_dec u t) as [->|N]; [rewrite !upd_same; simpl; auto|rewrite !upd_other by auto]. pose proof (A6 u) as Y. unfold local in *. destruct (pc s u); cbn [emit go set_idx pidx cidx cyc] in *; auto; try lia.
  - intros u w i H. rewrite WR in H. destruct (A7 u w i H) as (X1 & X2 & X3 & X4). assert (i <> cidx s) by (intros ->; destruct (NW _ _ H)). splits; auto; try lia; [rewrite NT by lia; auto|]. intros E. destruct (Nat.eq_dec u t) as [->|N]; [rewrite upd_same in E; discriminate|]. rewrite upd_other in E by auto. auto.
  - intros u u' w w' j. rewrite !WR. apply A8.
  - intros u i. destruct (Nat.eq_dec u t) as [->|N]; [rewrite !upd_same|rewrite !upd_other by auto].
    + intros H. injection H as <-. splits; try lia. intros _. exists v. auto.
    + intros H. destruct (A9 u i H) as (X1 & X2 & X3 & X4 & X5). splits; auto; try lia.
  - intros u u' i. destruct (Nat.eq_dec u t) as [->|N]; [rewrite !upd_same|rewrite (upd_other _ _ _ u) by auto]; (destruct (Nat.eq_dec u' t) as [->|N']; [rewrite !upd_same|rewrite !upd_other by auto]); auto.
    + intros H H'. injection H as <-. destruct (A9 _ _ H'). lia.
    + intros H H'. injection H' as <-. destruct (A9 _ _ H). lia.
    + apply A10.
  - intros i H. destruct (A11 i) as [(u & w & Y)|(Y & Z)]; [lia|left; exists u, w; now rewrite WR|]. right. split; auto. rewrite NT by lia. auto.
  - intros i H. destruct (Nat.eq_dec i (cidx s + cap)) as [->|Ni].
    + right. exists t, (cidx s). rewrite upd_same. auto.
    + destruct (A12 i) as [Y|(u & j & Y & Z)]; [lia|auto|]. right. exists u, j. rewrite upd_other; auto. intros ->. rewrite P in Y. discriminate.
Qed.
(** value_pop() reads the value. *)
Lemma inv_read : forall s a t i v, inv s a -> pc s t = CRead i -> stor s (slot cap i) = Some v -> inv (go s t (CFree i v)) a.
Proof.
  intros s a t i v I P V. pose proof I as [A1 A2 A3 A4 A5 A6 A7 A8 A9 A10 A11 A12].
  destruct (A9 t i) as (_ & _ & _ & _ & W); [now rewrite P|]. destruct (W P) as (w & W1 & W2).
  assert (WR : forall u, wr (upd (pc s) t (CFree i v) u) = wr (pc s u)) by (intros u; destruct (Nat.eq_dec u t) as [->|N]; [rewrite upd_same, P; auto|now rewrite upd_other]).
  assert (RD : forall u, rd (upd (pc s) t (CFree i v) u) = rd (pc s u)) by (intros u; destruct (Nat.eq_dec u t) as [->|N]; [rewrite upd_same, P; auto|now rewrite upd_other]).
  split; cbn [emit go pidx cidx cyc stor closed mtx waiting nfull nempty pc log queue phs shut]; auto.
  - intros u. destruct (Nat.eq_dec u t) as [->|N]; [rewrite !upd_same; simpl; congruence|rewrite !upd_other by auto; auto].
  - intros u. destruct (Nat.eq_dec u t) as [->|N]; [rewrite !upd_same; simpl; auto|rewrite !upd_other by auto]. exact (A6 u).
  - intros u x j H. rewrite WR in H. destruct (A7 u x j H) as (X1 & X2 & X3 & X4). splits; auto; try lia. intros E. destruct (Nat.eq_dec u t) as [->|N]; [rewrite upd_same in E; discriminate|]. rewrite upd_other in E by auto. auto.
  - intros u u' x x' j. rewrite !WR. apply A8.
  - intros u j H. rewrite RD in H. destruct (A9 u j H) as (X1 & X2 & X3 & X4 & X5). splits; auto. intros E. destruct (Nat.eq_dec u t) as [->|N]; [rewrite upd_same in E; discriminate|]. rewrite upd_other in E by auto. auto.
  - intros u u' j. rewrite !RD. apply A10.
  - intros j H. destruct (A11 j H) as [(u & x & X)|X]; auto. left. exists u, x. now rewrite WR.
  - intros j H. destruct (A12 j H) as [X|(u & k & X & Y)]; auto. right. exists u, k. now rewrite RD.
Qed.
(** value_pop() frees the slot. *)
Lemma inv_free : forall s a t i v, inv s a -> pc s t = CFree i v -> inv (go (set_cyc s (slot cap i) (i + cap)) t (CNote v)) a.
Proof.
  intros s a t i v I P. pose proof I as [A1 A2 A3 A4 A5 A6 A7 A8 A9 A10 A11 A12].
  destruct (A9 t i) as (W1 & W2 & W3 & W4 & _); [now rewrite P|].
  assert (WR : forall u, wr (upd (pc s) t (CNote v) u) = wr (pc s u)) by (intros u; destruct (Nat.eq_dec u t) as [->|N]; [rewrite upd_same, P; auto|now rewrite upd_other]).
  split; cbn [emit go set_cyc pidx cidx cyc stor closed mtx waiting nfull nempty pc log queue phs shut]; auto.
  - intros u. destruct (Nat.eq_dec u t) as [->|N]; [rewrite !upd_same; pose proof (A5 t) as O; rewrite P in O; auto|rewrite !upd_other by auto; auto].
  - intros u. destruct (Nat.eq_dec u t) as [->|N]; [rewrite !upd_same; simpl; auto|rewrite !upd_other by auto]. pose proof (A6 u) as X. unfold local in *. destruct (pc s u); cbn [go set_cyc pidx cidx cyc] in *; auto.
    + destruct X as (X & Y). split; auto. intros Z. specialize (Y Z). destruct (Nat.eq_dec (slot cap i0) (slot cap i)) as [Sq|Sq]; [|now rewrite upd_other]. rewrite Sq in Y. assert (Ei : i0 = S i) by lia. rewrite Ei in Sq. destruct (slot_next _ Sq).
    + destruct X as (X & Y). split; auto. intros Z. specialize (Y Z). destruct (Nat.eq_dec (slot cap i0) (slot cap i)) as [Sq|Sq]; [|now rewrite upd_other]. rewrite Sq in Y. lia.
  - intros u w j H. rewrite WR in H. destruct (A7 u w j H) as (X1 & X2 & X3 & X4). splits; auto; try lia.
    + rewrite upd_other; auto. intros Sq. rewrite Sq in X2. assert (Ei : j = S i) by lia. rewrite Ei in Sq. destruct (slot_next _ Sq).
    + intros E. destruct (Nat.eq_dec u t) as [->|N]; [rewrite upd_same in E; discriminate|]. rewrite upd_other in E by auto. auto.
  - intros u u' w w' j. rewrite !WR. apply A8.
  - intros u j H. destruct (Nat.eq_dec u t) as [->|N]; [rewrite upd_same in H; discriminate|]. rewrite upd_other in * by auto. destruct (A9 u j H) as (X1 & X2 & X3 & X4 & X5). splits; auto.
    + rewrite upd_other; auto. intros Sq. rewrite Sq in X4. assert (i = j) by lia. subst j. apply N. symmetry. eapply A10; eauto. now rewrite P.
    + rewrite upd_other by auto. auto.
  - intros u u' j. destruct (Nat.eq_dec u t) as [->|N]; [rewrite !upd_same; discriminate|rewrite (upd_other _ _ _ u) by auto]. destruct (Nat.eq_dec u' t) as [->|N']; [rewrite !upd_same; discriminate|rewrite !upd_other by auto]. apply A10.
  - intros j H. destruct (A11 j H) as [(u & w & X)|(X & Y)]; [left; exists u, w; now rewrite WR|]. right. split; auto. rewrite upd_other; auto. intros Sq. rewrite Sq in X. lia.
  - intros j H. destruct (Nat.eq_dec j (i + cap)) as [->|Nj]; [left; rewrite slot_cap; now rewrite upd_same|]. destruct (A12 j H) as [X|(u & k & X & Y)].
    + left. rewrite upd_other; auto. intros Sq. rewrite <- (slot_cap i) in Sq. apply slot_inj in Sq; lia.
    + right. exists u, k. rewrite upd_other; auto. intros ->. rewrite P in X. simpl in X. injection X as <-. lia.
Qed.
Ltac sgo t p := match goal with I : inv ?s ?a, P : pc ?s t = _ |- _ => exists a; apply (soft_go s a _ t p I); auto; try rewrite P; simpl; auto end.
Lemma inv_run : forall s a t s', inv s a -> run cap s t = Some s' -> exists a', inv s' a'.
Proof.
  intros s a t s' I H. pose proof (i_ph s a I t) as O. unfold run in H. destruct (pc s t) eqn:P; try discriminate; simpl in O.
  - destruct O as (late & O & L). destruct (closed s) eqn:Cl; injection H as <-.
    + exists (mkAut (queue a) (upd (phs a) t SIdle) (shut a)). apply (soft_ev s a _ t Idle (ERefused t v) _ SIdle I); simpl; auto; try (rewrite P; auto; fail). rewrite O, Nat.eqb_refl, (i_shut s a I), Cl. simpl. reflexivity.
    + sgo t (PLoad v). intros ph (l & -> & Z). destruct l; auto. rewrite Cl in Z. discriminate (Z eq_refl).
  - injection H as <-. sgo t (PCyc v (pidx s)).
  - injection H as <-. pose proof (i_loc s a I t) as L. rewrite P in L. simpl in L. exists a. eapply (soft_go s a _ t _ I); try reflexivity; rewrite ?P; auto.
    + destruct (_ =? _); auto. destruct (_ <? _); auto.
    + intros ph. destruct (_ =? _); auto. destruct (_ <? _); auto.
    + destruct (Nat.eqb_spec (cyc s (slot cap i)) i); [simpl; auto|]. destruct (_ <? _); simpl; auto.
  - destruct (Nat.eqb_spec (pidx s) i) as [E|E]; injection H as <-.
    + subst i. eexists. apply (inv_enq s a); auto.
    + sgo t (PCyc v (pidx s)).
  - injection H as <-. exists a. now apply inv_write.
  - injection H as <-. exists a. now apply inv_pub.
  - destruct (mtx s); [discriminate|]. destruct (_ || _); [|discriminate]. injection H as <-.
    exists (mkAut (queue a) (upd (phs a) t SIdle) (shut a)). apply (soft_ev s a _ t Idle (EOk t v) _ SIdle I); simpl; auto; try (rewrite P; auto; fail). rewrite O, Nat.eqb_refl. reflexivity.
  - destruct (mtx s); [discriminate|]. injection H as <-. sgo t (PChk v false).
  - destruct (closed s) eqn:Cl.
    + destruct b; injection H as <-.
      * sgo t (PIn v). intros ph ->. exists false. split; auto; discriminate.
      * exists (mkAut (queue a) (upd (phs a) t SIdle) (shut a)). apply (soft_ev s a _ t Idle (ERefused t v) _ SIdle I); simpl; auto; try (rewrite P; auto; fail). rewrite O, Nat.eqb_refl, (i_shut s a I), Cl. simpl. reflexivity.
    + injection H as <-. sgo t (PIdx v b).
  - injection H as <-. sgo t (PTst v b (pidx s)).
  - destruct (_ <? _); [destruct b|]; injection H as <-.
    + sgo t (PGo v).
    + sgo t (PChk v true).
    + sgo t (PIn v). intros ph ->. exists false. split; auto; discriminate.
  - injection H as <-. sgo t (PSleep v).
  - destruct (mtx s); [discriminate|]. injection H as <-. sgo t (PChk v true).
  - injection H as <-. sgo t (CCyc (cidx s)).
  - injection H as <-. pose proof (i_loc s a I t) as L. rewrite P in L. simpl in L. exists a. eapply (soft_go s a _ t _ I); try reflexivity; rewrite ?P; auto.
    + destruct (_ =? _); auto. destruct (_ <? _); auto.
    + intros ph. destruct (_ =? _); auto. destruct (_ <? _); auto.
    + destruct (Nat.eqb_spec (cyc s (slot cap i)) (S i)); [simpl; auto|]. destruct (_ <? _); simpl; auto.
  - destruct (Nat.eqb_spec (cidx s) i) as [E|E]; injection H as <-.
    + subst i. destruct (inv_deq s a t I P) as (v & r & _ & X). eexists. exact X.
    + sgo t (CCyc (cidx s)).
  - destruct (i_rd s a I t i) as (_ & _ & _ & _ & R); [now rewrite P|]. destruct (R P) as (v & V & _). rewrite V in H. injection H as <-. exists a. now apply inv_read.
  - injection H as <-. exists a. now apply inv_free.
  - destruct (nfull s); [|discriminate]. injection H as <-.
    exists (mkAut (queue a) (upd (phs a) t SIdle) (shut a)). apply (soft_ev s a _ t Idle (ERet t v) _ SIdle I); simpl; auto; try (rewrite P; auto; fail). rewrite O, Nat.eqb_refl. reflexivity.
  - destruct (mtx s); [discriminate|]. injection H as <-. sgo t (CChk false).
  - destruct (closed s) eqn:Cl.
    + destruct b; injection H as <-.
      * sgo t CLoad.
      * exists (mkAut (queue a) (upd (phs a) t SIdle) (shut a)). apply (soft_ev s a _ t Idle (EThrow t) _ SIdle I); simpl; auto; try (rewrite P; auto; fail). rewrite O, (i_shut s a I), Cl. simpl. reflexivity.
    + injection H as <-. sgo t (CIdx b).
  - injection H as <-. sgo t (CTst b (cidx s)).
  - destruct (_ <? _); [destruct b|destruct b]; injection H as <-.
    + sgo t CGo.
    + sgo t (CChk true).
    + sgo t CLoad.
    + sgo t CLoad.
  - injection H as <-. sgo t CSleep.
  - destruct (mtx s); [discriminate|]. injection H as <-. sgo t (CChk true).
Qed.
Lemma inv_step : forall s a l s', inv s a -> step cap s l = Some s' -> exists a', inv s' a'.
Proof.
  intros s a l s' I H. destruct l as [t v|t|t|t|t|t u]; unfold step in H.
  - destruct (pc s t) eqn:P; try discriminate. injection H as <-. pose proof (i_ph s a I t) as O. rewrite P in O. simpl in O.
    exists (mkAut (queue a) (upd (phs a) t (SPush v (shut a))) (shut a)). apply (soft_ev s a _ t (PIn v) (ECallPush t v) _ (SPush v (shut a)) I); simpl; auto; try (rewrite P; auto; fail). rewrite O. reflexivity. exists (shut a). split; auto. intros <-. symmetry. apply I.
  - destruct (pc s t) eqn:P; try discriminate. injection H as <-. pose proof (i_ph s a I t) as O. rewrite P in O. simpl in O.
    exists (mkAut (queue a) (upd (phs a) t SPop) (shut a)). apply (soft_ev s a _ t CLoad (ECallPop t) _ SPop I); simpl; auto; try (rewrite P; auto; fail). rewrite O. reflexivity.
  - destruct (pc s t) eqn:P; try discriminate. destruct (mtx s); [discriminate|]. injection H as <-. exists (mkAut (queue a) (phs a) true). apply (soft s a); simpl; auto.
    + rewrite (i_acc s a I). reflexivity.
    + intros u X. split; auto. destruct (pc s u); simpl in *; auto; destruct X; discriminate.
    + intros u. pose proof (i_ph s a I u) as O. destruct (pc s u); simpl in *; auto. destruct O as (l & -> & Z). eauto.
    + intros u. pose proof (i_loc s a I u) as L. destruct (pc s u); simpl in *; auto.
  - eapply inv_run; eauto.
  - destruct (pc s t) eqn:P; try discriminate; injection H as <-.
    + sgo t (PCyc v (pidx s)).
    + sgo t (CCyc (cidx s)).
  - destruct (pc s t) eqn:P; try discriminate; pose proof (i_ph s a I t) as O; rewrite P in O; simpl in O.
    + destruct (mtx s) eqn:M; [discriminate|]. destruct (_ && _); [|discriminate]. injection H as <-.
      assert (I2 : inv (sleepers (go s u (woken (pc s u))) (nfull s) (without u (nempty s))) a) by (apply (soft_wake s a); auto; intros w; simpl; destruct (Nat.eq_dec w u) as [->|N]; [rewrite upd_same; auto|rewrite upd_other; auto]).
      assert (P2 : pc (sleepers (go s u (woken (pc s u))) (nfull s) (without u (nempty s))) t = PNote v) by (simpl; destruct (Nat.eq_dec t u) as [->|N]; [rewrite upd_same, P; auto|rewrite upd_other; auto]).
      exists (mkAut (queue a) (upd (phs a) t SIdle) (shut a)). apply (soft_ev _ a _ t Idle (EOk t v) _ SIdle I2); auto; try (rewrite P2; auto; fail); try (simpl; auto; fail). simpl. rewrite O, Nat.eqb_refl. reflexivity.
    + destruct (existsb _ _); [|discriminate]. injection H as <-.
      assert (I2 : inv (sleepers (go s u (woken (pc s u))) (without u (nfull s)) (nempty s)) a) by (apply (soft_wake s a); auto; intros w; simpl; destruct (Nat.eq_dec w u) as [->|N]; [rewrite upd_same; auto|rewrite upd_other; auto]).
      assert (P2 : pc (sleepers (go s u (woken (pc s u))) (without u (nfull s)) (nempty s)) t = CNote v) by (simpl; destruct (Nat.eq_dec t u) as [->|N]; [rewrite upd_same, P; auto|rewrite upd_other; auto]).
      exists (mkAut (queue a) (upd (phs a) t SIdle) (shut a)). apply (soft_ev _ a _ t Idle (ERet t v) _ SIdle I2); auto; try (rewrite P2; auto; fail); try (simpl; auto; fail). simpl. rewrite O, Nat.eqb_refl. reflexivity.
Qed.
Lemma inv_reach : forall s, reachable (step cap) init_state s -> exists a, inv s a.
Proof. apply (reachable_inv (step cap) (fun s => exists a, inv s a) init_state); [exists aut0; exact inv_init|]. intros s l s' (a & I) H. eapply inv_step; eauto. Qed.
End Cap.
