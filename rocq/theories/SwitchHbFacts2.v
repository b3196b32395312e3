(** Facts about SwitchHb.v for C138: the threads, and the invariant. *)
From Coq Require Import List Arith Bool Lia.
From Verif Require Import Base MutexHb SwitchHb SwitchHbSpec SwitchHbFacts.
Import ListNotations.

Definition swok (s : st) (t : nat) (k : why) (p : ctx) : Prop := match k with
  | KLock o => slk s o = Some t /\ place s p = Wait /\ sched s p = Some t /\ live s p o
  | KYield => True
  | KSleep => place s p = Wait /\ sched s p = Some t /\ forall o, ~ live s p o
  | KTerm => place s p = Dead /\ sched s p = Some t end.
Definition pcok (s : st) (t : nat) : Prop := match pcs s t with
  | PRun => place s (act s t) = Run t
  | PNote o b => place s (act s t) = Run t /\ slk s o = Some t /\ match o with OJ g => b = true /\ g = act s t /\ term s g = true | OU _ => b = false end
  | PSw k => swok s t k (act s t) /\ (k = KYield -> place s (act s t) = Run t)
  | PAft k p => place s (act s t) = Run t /\ swok s t k p /\ (k = KYield -> place s p = Tmp t) end.
Definition deadok (s : st) : Prop := forall g, term s g = true -> place s g = Dead \/ exists t, pcs s t = PNote (OJ g) true /\ act s t = g.
Record inv (s : st) : Prop := { v_core : core s; v_pc : forall t, pcok s t; v_dead : deadok s }.

(** A context that belongs to another thread than t. *)
Definition other (s : st) (t : nat) (c : ctx) : Prop := exists u, u <> t /\ (place s c = Run u \/ place s c = Tmp u \/ ((place s c = Wait \/ place s c = Dead) /\ sched s c = Some u /\ forall o, live s c o -> slk s o = Some u)).
Definition framed (t : nat) (s s' : st) : Prop :=
  (forall u, u <> t -> pcs s' u = pcs s u /\ act s' u = act s u) /\
  (forall c, other s t c -> place s' c = place s c /\ sched s' c = sched s c /\ ep s' c = ep s c /\ forall o, live s c o <-> live s' c o) /\
  (forall o u, u <> t -> slk s o = Some u -> slk s' o = Some u) /\
  (forall g, term s g = true -> term s' g = true) /\
  (forall c, place s c = Dead -> place s' c = Dead).
Lemma other_framed t s s' c : framed t s s' -> other s t c -> other s' t c.
Proof.
  intros (F1 & F2 & F3 & F4 & F5) O. destruct (F2 c O) as (A1 & A2 & A3 & A4). destruct O as (u & N & O). exists u. split; auto. rewrite A1, A2.
  destruct O as [O | [O | (O & P & Q)]]; auto. right. right. splits; auto. intros o L. apply A4 in L. auto.
Qed.
Lemma framed_trans t s1 s2 s3 : framed t s1 s2 -> framed t s2 s3 -> framed t s1 s3.
Proof.
  intros A B. pose proof (fun c => other_framed t s1 s2 c A) as O. destruct A as (A1 & A2 & A3 & A4 & A5), B as (B1 & B2 & B3 & B4 & B5). unfold framed. splits; auto.
  - intros u N. destruct (A1 u N), (B1 u N). split; congruence.
  - intros c C. destruct (A2 c C) as (X1 & X2 & X3 & X4). destruct (B2 c (O c C)) as (Y1 & Y2 & Y3 & Y4). splits; try congruence. intros o. rewrite X4. apply Y4.
Qed.
Lemma framed_eq t s s' : act s' = act s -> pcs s' = pcs s -> place s' = place s -> sched s' = sched s -> ep s' = ep s -> wq s' = wq s -> slk s' = slk s -> term s' = term s -> framed t s s'.
Proof. intros E1 E2 E3 E4 E5 E6 E7 E8. unfold framed, live. rewrite E1, E2, E3, E4, E5, E6, E7, E8. splits; auto. intros c _. splits; auto. tauto. Qed.
Lemma fr_touchA t s c : framed t s (touchA s t c).
Proof. destruct (touchA_frame s t c) as (F1 & F2 & F3 & F4 & F5 & F6 & F7 & F8 & F9 & F10 & F11 & _). apply framed_eq; auto. Qed.
Lemma fr_touchB t s c : framed t s (touchB s t c).
Proof. destruct (touchB_frame s t c) as (F1 & F2 & F3 & F4 & F5 & F6 & F7 & F8 & F9 & F10 & F11 & _). apply framed_eq; auto. Qed.
Lemma fr_place t s c p : ~ other s t c -> place s c <> Dead -> framed t s (set_place s c p).
Proof.
  intros N D. unfold framed, live. simpl. splits; auto.
  - intros d O. cc d c; [contradiction|]. splits; auto. tauto.
  - intros d O. cc d c; [contradiction | auto].
Qed.
Lemma fr_sched t s c p : ~ other s t c -> framed t s (set_sched s c p).
Proof. intros N. unfold framed, live. simpl. splits; auto. intros d O. cc d c; [contradiction|]. splits; auto. tauto. Qed.
Lemma fr_ep t s c p : ~ other s t c -> framed t s (set_ep s c p).
Proof. intros N. unfold framed, live. simpl. splits; auto. intros d O. cc d c; [contradiction|]. splits; auto. tauto. Qed.
Lemma fr_pc t s p : framed t s (set_pc s t p).
Proof. unfold framed, live. simpl. splits; auto; [intros u N; ut u t; [contradiction | auto] | intros c O; splits; auto; tauto]. Qed.
Lemma fr_act t s p : framed t s (set_act s t p).
Proof. unfold framed, live. simpl. splits; auto; [intros u N; ut u t; [contradiction | auto] | intros c O; splits; auto; tauto]. Qed.
Lemma fr_lock t s o : slk s o = None -> framed t s (lock s t o).
Proof.
  intros L. unfold framed, live, lock. simpl. splits; auto; [intros c O; splits; auto; tauto|]. intros p u N E. unfold oupd. destruct (obj_dec p o) as [->|]; auto. congruence.
Qed.
Lemma fr_unlock t s o : slk s o = Some t -> framed t s (unlock s t o).
Proof.
  intros L. unfold framed, live, unlock. simpl. splits; auto; [intros c O; splits; auto; tauto|]. intros p u N E. unfold oupd. destruct (obj_dec p o) as [->|]; auto. congruence.
Qed.
Lemma fr_wq t s o q : (forall c, other s t c -> In (c, ep s c) q <-> live s c o) -> framed t s (set_wq s o q).
Proof.
  intros H. unfold framed, live in *. simpl. splits; auto. intros c O. splits; auto. intros p. unfold oupd. destruct (obj_dec p o) as [->|]; [|tauto]. rewrite (H c O). tauto.
Qed.
(** A queue whose spinlock t holds contains no waker of a context of another thread that is not outdated. *)
Lemma other_live s t c o : core s -> slk s o = Some t -> other s t c -> ~ live s c o.
Proof.
  intros K L (u & N & O) A. destruct (k_wq s K _ _ _ A) as (_ & B). destruct (B eq_refl) as (B1 & _). destruct O as [O | [O | (_ & _ & O)]]; try congruence. specialize (O o A). congruence.
Qed.
Lemma pc_other s t u : core s -> pcok s u -> u <> t -> (match pcs s u with PSw KYield => True | _ => True end -> other s t (act s u)) /\ forall k p, pcs s u = PAft k p -> other s t p.
Proof.
  intros K P N. assert (forall k p, swok s u k p -> k <> KYield -> other s t p) as W.
  { intros k p X Y. exists u. split; auto. right. right. destruct k; simpl in X; try congruence.
    - destruct X as (X1 & X2 & X3 & X4). splits; auto. intros o' L. assert (o' = o) by (eapply k_uniq; eauto). subst. auto.
    - destruct X as (X1 & X2 & X3). splits; auto. intros o' L. apply X3 in L. contradiction.
    - destruct X as (X1 & X2). splits; auto. intros o' L. destruct (k_wq s K _ _ _ L) as (_ & B). destruct (B eq_refl). congruence. }
  unfold pcok in P. destruct (pcs s u) as [|o b|k|k p] eqn:E.
  - split; [|discriminate]. intros _. exists u. auto.
  - split; [|discriminate]. intros _. exists u. destruct P; auto.
  - split; [|discriminate]. intros _. destruct P as (P1 & P2). destruct k; try (apply (W _ _ P1); discriminate). exists u. auto.
  - destruct P as (P1 & P2 & P3). split; [intros _; exists u; auto|]. intros k' p' A. injection A as <- <-. destruct k; try (apply (W _ _ P2); discriminate). exists u. auto.
Qed.
Lemma pc_frame s s' t u : core s -> pcok s u -> framed t s s' -> u <> t -> pcok s' u.
Proof.
  intros K P F N. destruct (pc_other s t u K P N) as (O1 & O2). specialize (O1 ltac:(destruct (pcs s u) as [| |[]|]; auto)). destruct F as (F1 & F2 & F3 & F4 & F5). destruct (F1 u N) as (E1 & E2).
  unfold pcok in *. rewrite E1, E2. destruct (F2 _ O1) as (A1 & A2 & A3 & A4).
  assert (forall k p, swok s u k p -> other s t p -> swok s' u k p) as W.
  { intros k p X O. destruct (F2 p O) as (B1 & B2 & B3 & B4). destruct k; simpl in *; rewrite ?B1, ?B2; auto.
    - destruct X as (X1 & X2 & X3 & X4). splits; auto. apply B4. auto.
    - destruct X as (X1 & X2 & X3). splits; auto. intros o L. apply B4 in L. apply (X3 o L). }
  destruct (pcs s u) as [|o b|k|k p] eqn:E.
  - congruence.
  - destruct P as (P1 & P2 & P3). splits; auto; [congruence|]. destruct o; auto. destruct P3 as (Q1 & Q2 & Q3). splits; auto.
  - destruct P as (P1 & P2). split; auto. intros X. rewrite A1. auto.
  - destruct P as (P1 & P2 & P3). pose proof (O2 _ _ eq_refl) as O3. splits; auto; [congruence|]. intros X. destruct (F2 p O3) as (B1 & _). rewrite B1. auto.
Qed.
(** The invariant of the new state from that of the old one. *)
Lemma inv_frame s s' t : inv s -> framed t s s' -> core s' -> pcok s' t -> (forall g, term s' g = true -> term s g = true \/ (pcs s' t = PNote (OJ g) true /\ act s' t = g)) ->
  (forall g, pcs s t = PNote (OJ g) true -> act s t = g -> place s' g = Dead \/ (pcs s' t = pcs s t /\ act s' t = act s t)) -> inv s'.
Proof.
  intros I F K P T D. constructor; auto.
  - intros u. destruct (Nat.eq_dec u t) as [->|N]; auto. apply (pc_frame s s' t u (v_core s I) (v_pc s I u) F N).
  - intros g G. destruct (T g G) as [G1 | G1]; [|right; exists t; exact G1]. destruct F as (F1 & F2 & F3 & F4 & F5). destruct (v_dead s I g G1) as [A | (u & A & B)]; [left; auto|].
    destruct (Nat.eq_dec u t) as [->|N].
    + destruct (D g A B) as [C | (C1 & C2)]; auto. right. exists t. split; congruence.
    + right. exists u. destruct (F1 u N). split; congruence.
Qed.
Lemma not_other s t c : (match place s c with Run u | Tmp u => u = t | Wait | Dead => sched s c = Some t \/ exists o, live s c o /\ slk s o = Some t | _ => True end) -> ~ other s t c.
Proof.
  intros H (u & N & [O | [O | (O & P & Q)]]); [rewrite O in H; congruence | rewrite O in H; congruence |].
  assert (sched s c = Some t \/ exists o, live s c o /\ slk s o = Some t) as [A | (o & A & B)] by (destruct O as [O|O]; rewrite O in H; exact H); [congruence|]. specialize (Q o A). congruence.
Qed.

Section params.
Variable pin : nat -> bool.
Lemma schedule_frame s t c : let s' := schedule pin s t c in act s' = act s /\ pcs s' = pcs s /\ term s' = term s /\ slk s' = slk s /\ wq s' = wq s /\ ep s' = ep s /\ (forall d, d <> c -> place s' d = place s d /\ sched s' d = sched s d).
Proof.
  destruct (touchA_frame s t c) as (F1 & F2 & F3 & F4 & F5 & F6 & F7 & F8 & F9 & F10 & F11 & _). unfold schedule. set (s1 := touchA s t c) in *.
  destruct (touchB_frame s1 t c) as (G1 & G2 & G3 & G4 & G5 & G6 & G7 & G8 & G9 & G10 & G11 & _).
  unfold awakened. destruct (sleepq s1 c); destruct (pinned pin c); simpl; rewrite ?G1, ?G2, ?G3, ?G4, ?G7, ?G8, ?G10, ?G11; splits; auto; intros d N; rewrite ?cupd_other by auto; rewrite ?F3, ?F4; auto.
Qed.
Lemma fr_schedule s t c : ~ other s t c -> place s c <> Dead -> framed t s (schedule pin s t c).
Proof.
  intros N D. destruct (touchA_frame s t c) as (F1 & F2 & F3 & F4 & F5 & F6 & F7 & F8 & F9 & F10 & F11 & _).
  destruct (schedule_frame s t c) as (E1 & E2 & E3 & E4 & E5 & E6 & E7).
  unfold framed, live. rewrite E1, E2, E3, E4, E5, E6. splits; auto.
  - intros d O. destruct (ctx_dec d c) as [->|M]; [contradiction|]. destruct (E7 d M). splits; auto. tauto.
  - intros d O. destruct (ctx_dec d c) as [->|M]; [contradiction|]. destruct (E7 d M). congruence.
Qed.
Lemma wake_frame s t c e : let s' := wake pin s t c e in act s' = act s /\ pcs s' = pcs s /\ term s' = term s /\ slk s' = slk s /\ wq s' = wq s /\ (forall d, d <> c -> place s' d = place s d /\ sched s' d = sched s d /\ ep s' d = ep s d) /\ (ep s c <> e -> s' = s).
Proof.
  unfold wake. destruct (Nat.eqb_spec (ep s c) e) as [E|E]; [|splits; auto].
  destruct (sched s c) as [u|]; [|simpl; splits; auto; contradiction].
  destruct (touchA_frame (set_place (set_ep s c (S e)) c (Hand t)) t c) as (F1 & F2 & F3 & F4 & F5 & F6 & F7 & F8 & F9 & F10 & F11 & _). simpl in *.
  set (s1 := touchA _ t c) in *.
  destruct (schedule_frame (emit s1 t c (EWake (act s1 t) c (tv s1 t))) t c) as (E1 & E2 & E3 & E4 & E5 & E6 & E7). simpl in *.
  destruct (u =? t); simpl.
  - rewrite E1, E2, E3, E4, E5, E6. splits; auto; try contradiction. intros d N. destruct (E7 d N) as (A & B). rewrite A, B, F3, F4, F7. rewrite !cupd_other by auto. auto.
  - splits; auto; try contradiction. intros d N. rewrite ?F3, ?F4, ?F7. rewrite !cupd_other by auto. auto.
Qed.
Lemma fr_wake s t c e : (ep s c = e -> ~ other s t c /\ place s c = Wait) -> framed t s (wake pin s t c e).
Proof.
  intros H. destruct (wake_frame s t c e) as (E1 & E2 & E3 & E4 & E5 & E6 & E7). destruct (Nat.eq_dec (ep s c) e) as [E|E].
  - destruct (H E) as (N & W). unfold framed, live. rewrite E1, E2, E3, E4, E5. splits; auto.
    + intros d O. destruct (ctx_dec d c) as [->|M]; [contradiction|]. destruct (E6 d M) as (A & B & C). rewrite C. splits; auto. tauto.
    + intros d O. destruct (ctx_dec d c) as [->|M]; [congruence|]. destruct (E6 d M). congruence.
  - rewrite (E7 E). apply framed_eq; auto.
Qed.
End params.
