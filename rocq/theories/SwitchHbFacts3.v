(** Facts about SwitchHb.v for C138: every step preserves the invariant. *)
From Coq Require Import List Arith Bool Lia.
From Verif Require Import Base MutexHb SwitchHb SwitchHbSpec SwitchHbFacts SwitchHbFacts2.
Import ListNotations.

Lemma free_spec s t : free s t = true -> pcs s t = PRun /\ pend s (act s t) = PNone.
Proof. unfold free. destruct (pcs s t); try discriminate. destruct (act s t); try discriminate; destruct (pend s _); try discriminate; auto. Qed.
Lemma disp_spec s t : dispatching s t = true -> pcs s t = PRun.
Proof. unfold dispatching. destruct (pcs s t); try discriminate. auto. Qed.
Lemma run_place s t : inv s -> pcs s t = PRun -> place s (act s t) = Run t.
Proof. intros I E. pose proof (v_pc s I t) as P. unfold pcok in P. rewrite E in P. exact P. Qed.
Lemma run_alive s t : inv s -> pcs s t = PRun -> term s (act s t) = false.
Proof.
  intros I E. pose proof (run_place s t I E) as R. destruct (term s (act s t)) eqn:T; auto. exfalso. destruct (v_dead s I _ T) as [A | (u & A & B)]; [congruence|].
  pose proof (v_pc s I u) as P. unfold pcok in P. rewrite A in P. destruct P as (P & _). rewrite B, R in P. injection P as <-. congruence.
Qed.
Lemma run_sched s c t : core s -> place s c = Run t \/ place s c = Loc t \/ place s c = Tmp t -> incl (seen s c) (tv s t) /\ sched s c = Some t.
Proof. intros K H. pose proof (k_hold s K c) as X. unfold hold in X. destruct H as [H | [H | H]]; rewrite H in X; exact X. Qed.
Lemma held_run s c t : place s c = Run t \/ place s c = Loc t \/ place s c = Tmp t -> held s t c.
Proof. unfold held. intros [H | [H | H]]; rewrite H; auto. Qed.

Section params.
Variable pin : nat -> bool.

(** resume() *)
Lemma resume_ok s t c k : core s -> (forall u, u <> t -> pcok s u) -> place s c = Loc t \/ place s c = Tmp t -> swok s t k (act s t) -> (k = KYield -> place s (act s t) = Run t) -> c <> act s t ->
  core (resume s t c k) /\ framed t s (resume s t c k) /\ pcok (resume s t c k) t /\ term (resume s t c k) = term s.
Proof.
  intros K PO L W Y N. assert (held s t c) as H by (apply held_run; tauto).
  destruct (touchA_frame s t c) as (F1 & F2 & F3 & F4 & F5 & F6 & F7 & F8 & F9 & F10 & F11 & F12 & F13 & F14).
  pose proof (core_touchA s t c K H) as K1. pose proof (fr_touchA t s c) as R1.
  unfold resume. set (s1 := touchA s t c) in *. set (p := act s t) in *.
  assert (place s1 c = Loc t \/ place s1 c = Tmp t) as L1 by (rewrite F3; exact L).
  assert (core (set_place s1 c (Run t))) as K2.
  { apply core_place; auto.
    - unfold hold. simpl. rewrite cupd_same. apply run_sched; auto.
    - right. apply quiet_of; auto; destruct L1; congruence. }
  assert (framed t s1 (set_place s1 c (Run t))) as R2.
  { apply fr_place; [apply not_other|]; destruct L1 as [X|X]; rewrite X; auto; discriminate. }
  set (s2 := set_place s1 c (Run t)) in *.
  assert (core (set_act s2 t c)) as K3 by (apply core_act; auto).
  pose proof (fr_act t s2 c) as R3.
  pose proof (framed_trans _ _ _ _ R1 (framed_trans _ _ _ _ R2 R3)) as R4.
  assert (place (set_act s2 t c) p = place s p) as PP by (unfold s2; simpl; rewrite cupd_other by auto; rewrite F3; auto).
  assert (forall q, place (set_act s2 t c) q = place s q \/ q = c) as PQ by (intros q; unfold s2; simpl; cc q c; auto; rewrite F3; auto).
  assert (forall o, live s p o <-> live (set_act s2 t c) p o) as LL by (intros o; unfold live, s2; simpl; rewrite F7, F10; tauto).
  destruct k.
  - splits; auto.
    + apply core_pc; auto.
    + eapply framed_trans; [exact R4 | apply fr_pc].
    + unfold pcok. simpl pcs. rewrite upd_same. simpl act. rewrite upd_same. splits; auto; [unfold s2; simpl; apply cupd_same| |discriminate].
      simpl in W. destruct W as (W1 & W2 & W3 & W4). simpl. rewrite F11, F3, F4, cupd_other by auto. splits; auto. apply LL. exact W4.
  - specialize (Y eq_refl).
    assert (core (set_place (set_act s2 t c) p (Tmp t))) as K4.
    { apply core_place; auto.
      - unfold hold. simpl place. rewrite cupd_same. apply (run_sched (set_act s2 t c)); auto. rewrite PP. auto.
      - right. apply quiet_of; auto; rewrite PP, Y; discriminate. }
    splits; auto.
    + apply core_pc; auto.
    + eapply framed_trans; [exact R4|]. eapply framed_trans; [|apply fr_pc]. apply fr_place; [apply not_other|]; rewrite PP, Y; auto. discriminate.
    + unfold pcok. simpl pcs. rewrite upd_same. simpl act. rewrite upd_same. split; [|split; [exact Logic.I|]].
      * simpl. rewrite cupd_other by auto. apply cupd_same.
      * intros _. simpl. apply cupd_same.
  - splits; auto.
    + apply core_pc; auto.
    + eapply framed_trans; [exact R4 | apply fr_pc].
    + unfold pcok. simpl pcs. rewrite upd_same. simpl act. rewrite upd_same. splits; auto; [unfold s2; simpl; apply cupd_same| |discriminate].
      simpl in W. destruct W as (W1 & W2 & W3). simpl. rewrite F3, F4, cupd_other by auto. splits; auto. intros o X. apply (W3 o). apply LL. exact X.
  - splits; auto.
    + apply core_pc; auto.
    + eapply framed_trans; [exact R4 | apply fr_pc].
    + unfold pcok. simpl pcs. rewrite upd_same. simpl act. rewrite upd_same. splits; auto; [unfold s2; simpl; apply cupd_same| |discriminate].
      simpl in W. destruct W as (W1 & W2). simpl. rewrite F3, F4, cupd_other by auto. splits; auto.
Qed.
Ltac nonote E := intros ? ?; congruence.

Lemma inv_act s t : inv s -> free s t = true -> inv (action s t (act s t)).
Proof.
  intros I F. destruct (free_spec s t F) as (E & P). pose proof (run_place s t I E) as R. pose proof (v_core s I) as K.
  apply (inv_frame s _ t); auto.
  - apply framed_eq; auto.
  - apply core_action; auto; [apply held_run; auto | apply run_alive; auto].
  - exact (v_pc s I t).
Qed.
(** A state in which g has been created. *)
Lemma created s t g : inv s -> pcs s t = PRun -> place s g = No ->
  let s1 := touchA (set_place (set_sched s g (Some t)) g (Tmp t)) t g in let s2 := emit s1 t g (ECreate (act s1 t) g (tv s1 t)) in
  core s2 /\ framed t s s2 /\ place s2 g = Tmp t /\ sched s2 g = Some t /\ place s2 (act s t) = Run t /\ act s2 = act s /\ pcs s2 = pcs s /\ term s2 = term s /\ g <> act s t.
Proof.
  intros I E P. pose proof (run_place s t I E) as R. pose proof (v_core s I) as K. simpl.
  assert (g <> act s t) as N by congruence.
  pose proof (k_hold s K g) as H. unfold hold in H. rewrite P in H. destruct H as (H1 & H2 & H3).
  assert (sleepq s g = None) as SQ by (destruct (sleepq s g) eqn:X; auto; apply (k_sleep s K) in X; destruct X; congruence).
  assert (core (set_place (set_sched s g (Some t)) g (Tmp t))) as K1.
  { apply core_move; auto; try congruence.
    - left. congruence.
    - rewrite H2. intros u _ a [].
    - unfold hold. simpl. rewrite !cupd_same, H1. split; auto. intros a []. }
  assert (framed t s (set_place (set_sched s g (Some t)) g (Tmp t))) as R1.
  { eapply framed_trans; [apply fr_sched, not_other; rewrite P; auto|]. apply fr_place; [apply not_other|]; simpl; rewrite P; auto. discriminate. }
  set (s0 := set_place (set_sched s g (Some t)) g (Tmp t)) in *.
  assert (held s0 t g) as HG by (apply held_run; right; right; unfold s0; simpl; apply cupd_same).
  destruct (touchA_frame s0 t g) as (F1 & F2 & F3 & F4 & F5 & F6 & F7 & F8 & F9 & F10 & F11 & _).
  pose proof (core_touchA s0 t g K1 HG) as K2. pose proof (fr_touchA t s0 g) as R2.
  assert (place (touchA s0 t g) g = Tmp t /\ place (touchA s0 t g) (act s t) = Run t /\ sched (touchA s0 t g) g = Some t /\ act (touchA s0 t g) = act s) as (Q1 & Q2 & Q3 & Q4).
  { rewrite F3, F4, F1. unfold s0. simpl. rewrite !cupd_same, cupd_other by auto. auto. }
  splits; auto.
  - apply core_emit; auto; try (apply held_run; rewrite ?Q4; auto). split; [|exact Logic.I]. simpl. intros x v (A & <-). split; auto. destruct A; auto.
  - eapply framed_trans; [exact R1|]. eapply framed_trans; [exact R2|]. apply framed_eq; auto.
Qed.
Lemma inv_create s t g (d : bool) : inv s -> free s t = true -> place s g = No ->
  let s1 := touchA (set_place (set_sched s g (Some t)) g (Tmp t)) t g in let s2 := emit s1 t g (ECreate (act s1 t) g (tv s1 t)) in
  inv (if d then resume s2 t g KYield else schedule pin s2 t g).
Proof.
  intros I F P. destruct (free_spec s t F) as (E & _). pose proof (v_core s I) as K.
  pose proof (created s t g I E P) as X. cbv zeta in X |- *. set (s2 := emit _ t g _) in *. destruct X as (K2 & R2 & Q1 & Q2 & Q3 & Q4 & Q5 & Q6 & Q7). clearbody s2.
  assert (forall u, u <> t -> pcok s2 u) as PO by (intros u N; apply (pc_frame s s2 t u K (v_pc s I u) R2 N)).
  destruct d.
  - destruct (resume_ok s2 t g KYield K2 PO) as (A1 & A2 & A3 & A4); auto; try (rewrite Q4; auto); simpl; auto.
    apply (inv_frame s _ t); auto.
    + eapply framed_trans; eauto.
    + intros x. rewrite A4, Q6. auto.
    + intros x X. congruence.
  - destruct (schedule_frame pin s2 t g) as (E1 & E2 & E3 & E4 & E5 & E6 & E7).
    apply (inv_frame s _ t); auto.
    + eapply framed_trans; [exact R2|]. apply fr_schedule; [apply not_other; rewrite Q1; auto | congruence].
    + apply core_schedule; auto; [apply held_run; auto | congruence | apply quiet_of; auto; congruence].
    + unfold pcok. rewrite E1, E2, Q5, E, Q4. destruct (E7 (act s t)); auto. congruence.
    + intros x. rewrite E3, Q6. auto.
    + intros x X. congruence.
Qed.
Lemma inv_yield s t : inv s -> pcs s t = PRun -> inv (set_pc s t (PSw KYield)).
Proof.
  intros I E. pose proof (run_place s t I E) as R. pose proof (v_core s I) as K. apply (inv_frame s _ t); auto.
  - apply fr_pc.
  - apply core_pc; auto.
  - unfold pcok. simpl. rewrite upd_same. auto. split; [exact Logic.I | auto].
  - intros x X. congruence.
Qed.
Lemma wait_core s t : core s -> place s (act s t) = Run t -> core (set_place s (act s t) Wait).
Proof.
  intros K R. apply core_place; auto; [|left; split; auto; congruence]. unfold hold. simpl. rewrite cupd_same. exists t. destruct (run_sched s (act s t) t K); auto.
Qed.
Lemma to_sleep_frame s t c : let s' := to_sleep s t c in act s' = act s /\ pcs s' = pcs s /\ place s' = place s /\ sched s' = sched s /\ ep s' = ep s /\ term s' = term s /\ pend s' = pend s /\ wq s' = wq s /\ slk s' = slk s.
Proof. destruct (touchB_frame s t c) as (F1 & F2 & F3 & F4 & F5 & F6 & F7 & F8 & F9 & F10 & F11 & _). unfold to_sleep. simpl. splits; auto. Qed.
Lemma fr_to_sleep s t c : framed t s (to_sleep s t c).
Proof. destruct (to_sleep_frame s t c) as (F1 & F2 & F3 & F4 & F5 & F6 & F7 & F8 & F9). apply framed_eq; auto. Qed.
Lemma inv_sleep s t : inv s -> free s t = true -> inv (set_pc (to_sleep (set_ep (set_place s (act s t) Wait) (act s t) (S (ep s (act s t)))) t (act s t)) t (PSw KSleep)).
Proof.
  intros I F. destruct (free_spec s t F) as (E & P). pose proof (run_place s t I E) as R. pose proof (v_core s I) as K. destruct (run_sched s (act s t) t K (or_introl R)) as (W & SC).
  pose proof (wait_core s t K R) as K1. pose proof (core_ep _ (act s t) K1) as K2. simpl in K2. set (c := act s t) in *. set (s2 := set_ep (set_place s c Wait) c (S (ep s c))) in *.
  assert (framed t s s2) as R2.
  { eapply framed_trans; [apply (fr_place t s c Wait)|]; [apply not_other; rewrite R; auto | congruence |]. apply fr_ep, not_other. simpl. rewrite cupd_same. auto. }
  destruct (to_sleep_frame s2 t c) as (F1 & F2 & F3 & F4 & F5 & F6 & F7 & F8 & F9).
  assert (core (to_sleep s2 t c)) as K3 by (apply core_to_sleep; auto; [unfold s2; simpl; apply cupd_same | simpl; congruence]).
  pose proof (fr_to_sleep s2 t c) as R3. set (s3 := to_sleep s2 t c) in *. clearbody s3.
  apply (inv_frame s _ t); auto.
  - eapply framed_trans; [exact R2|]. eapply framed_trans; [exact R3 | apply fr_pc].
  - apply core_pc; auto.
  - unfold pcok. simpl pcs. rewrite upd_same. unfold swok, live. simpl. rewrite F1, F3, F4, F5, F8. unfold s2. simpl. fold c. rewrite !cupd_same. split; [|discriminate]. splits; auto. intros o A. apply (k_wq s K) in A. lia.
  - simpl. rewrite F6. auto.
  - intros x X. congruence.
Qed.
(** enqueue() *)
Lemma fr_enqueue s t o : place s (act s t) = Run t -> slk s o = Some t -> core s -> framed t s (enqueue s (act s t) o).
Proof.
  intros R L K. unfold enqueue. set (c := act s t) in *. destruct (run_sched s c t K (or_introl R)) as (W & SC).
  assert (framed t s (set_ep (set_place s c Wait) c (S (ep s c)))) as R2.
  { eapply framed_trans; [apply (fr_place t s c Wait)|]; [apply not_other; rewrite R; auto | congruence |]. apply fr_ep, not_other. simpl. rewrite cupd_same. auto. }
  eapply framed_trans; [exact R2|]. apply fr_wq. intros d O. unfold live. simpl.
  assert (d <> c) as N by (intros ->; revert O; apply not_other; simpl; rewrite cupd_same; auto).
  rewrite in_app_iff. simpl. split; auto. intros [A | [A | []]]; auto. congruence.
Qed.
Lemma inv_suspend s t o s' : inv s -> pcs s t = PRun -> slk s o = None -> let s1 := enqueue (lock s t o) (act s t) o in
  core s' -> framed t s1 s' -> pcs s' = pcs s1 -> act s' = act s1 -> place s' = place s1 -> sched s' = sched s1 -> slk s' = slk s1 -> ep s' = ep s1 -> wq s' = wq s1 -> term s' = term s1 -> inv (set_pc s' t (PSw (KLock o))).
Proof.
  intros I E L s1 K' R' E1 E2 E3 E4 E5 E6 E7 E8. pose proof (run_place s t I E) as R. pose proof (v_core s I) as K. destruct (run_sched s (act s t) t K (or_introl R)) as (W & SC).
  assert (slk (lock s t o) o = Some t) as L1 by (unfold lock; simpl; apply oupd_same).
  pose proof (core_lock s t o K L) as K1.
  pose proof (fr_enqueue (lock s t o) t o R L1 K1) as R1. simpl act in R1.
  apply (inv_frame s _ t); auto.
  - eapply framed_trans; [apply (fr_lock t s o L)|]. eapply framed_trans; [exact R1|]. eapply framed_trans; [exact R' | apply fr_pc].
  - apply core_pc; auto.
  - unfold pcok. simpl pcs. rewrite upd_same. split; [|discriminate]. simpl act. unfold swok, live. simpl. rewrite E2, E3, E4, E5, E6, E7. unfold s1. simpl. rewrite !cupd_same, !oupd_same. splits; auto. apply in_app_iff. right. left. auto.
  - simpl. rewrite E8. auto.
  - intros x X. congruence.
Qed.
Lemma inv_join s t g : inv s -> free s t = true -> slk s (OJ g) = None -> term s g = false -> inv (set_pc (set_pend (enqueue (lock s t (OJ g)) (act s t) (OJ g)) (act s t) (PJoin g)) t (PSw (KLock (OJ g)))).
Proof.
  intros I F L T. destruct (free_spec s t F) as (E & P). pose proof (run_place s t I E) as R. pose proof (v_core s I) as K.
  pose proof (core_lock s t (OJ g) K L) as K1.
  assert (core (enqueue (lock s t (OJ g)) (act s t) (OJ g))) as K2 by (apply (core_enqueue pin _ t); auto; [unfold lock; simpl; apply oupd_same | simpl; congruence]).
  apply (inv_suspend s t (OJ g)); auto.
  - apply core_pend; auto. intros x X. injection X as <-. unfold live, asleep. simpl. rewrite !cupd_same. splits; auto.
    + intros (A & B). destruct (sleepq s (act s t)) eqn:Y; [|congruence]. apply (k_sleep s K) in Y. lia.
    + intros o A. unfold oupd in A. destruct (obj_dec o (OJ g)) as [->|]; auto. apply (k_wq s K) in A. lia.
  - apply framed_eq; auto.
Qed.
Lemma inv_joined s t g : inv s -> free s t = true -> slk s (OJ g) = None -> term s g = true -> let s1 := lock s t (OJ g) in inv (emit (unlock s1 t (OJ g)) t (act s t) (EJoined (act s t) g (tv s1 t))).
Proof.
  intros I F L T. simpl. destruct (free_spec s t F) as (E & P). pose proof (run_place s t I E) as R. pose proof (v_core s I) as K.
  pose proof (core_lock s t (OJ g) K L) as K1. assert (slk (lock s t (OJ g)) (OJ g) = Some t) as L1 by (unfold lock; simpl; apply oupd_same).
  pose proof (core_unlock _ t (OJ g) K1 L1) as K2.
  apply (inv_frame s _ t); auto.
  - eapply framed_trans; [apply (fr_lock t s _ L)|]. eapply framed_trans; [apply (fr_unlock t _ _ L1)|]. apply framed_eq; auto.
  - apply core_emit; auto; try (apply held_run; auto). split.
    + simpl. intros x v (<- & <-). auto.
    + destruct (k_term _ K1 g T) as (v & V & X). exists v. split; auto. unfold lockview in X. rewrite L1 in X. exact X.
  - unfold pcok. simpl. rewrite E. exact R.
Qed.
Lemma inv_wait s t n (b : bool) : inv s -> free s t = true -> slk s (OU n) = None ->
  let s1 := enqueue (lock s t (OU n)) (act s t) (OU n) in
  inv (set_pc (if b then set_pend (to_sleep s1 t (act s t)) (act s t) (PTimed (OU n)) else s1) t (PSw (KLock (OU n)))).
Proof.
  intros I F L s1. destruct (free_spec s t F) as (E & P). pose proof (run_place s t I E) as R. pose proof (v_core s I) as K. destruct (run_sched s (act s t) t K (or_introl R)) as (W & SC).
  pose proof (core_lock s t (OU n) K L) as K1.
  assert (core s1) as K2 by (apply (core_enqueue pin _ t); auto; [unfold lock; simpl; apply oupd_same | simpl; congruence]).
  destruct b.
  - destruct (to_sleep_frame s1 t (act s t)) as (F1 & F2 & F3 & F4 & F5 & F6 & F7 & F8 & F9). apply (inv_suspend s t (OU n)); auto.
    + apply core_pend; [|discriminate]. apply core_to_sleep; auto; [unfold s1; simpl; apply cupd_same | unfold s1; simpl; congruence].
    + fold s1. apply framed_eq; auto.
  - apply (inv_suspend s t (OU n)); auto. fold s1. apply framed_eq; auto.
Qed.
Lemma inv_ret_join s t g : inv s -> pcs s t = PRun -> pend s (act s t) = PJoin g -> inv (set_pend (emit s t (act s t) (EJoined (act s t) g (tv s t))) (act s t) PNone).
Proof.
  intros I E P. pose proof (run_place s t I E) as R. pose proof (v_core s I) as K. destruct (run_sched s (act s t) t K (or_introl R)) as (W & SC).
  apply (inv_frame s _ t); auto.
  - apply framed_eq; auto.
  - apply core_pend; [|discriminate]. apply core_emit; auto; try (apply held_run; auto). split.
    + simpl. intros x v (<- & <-). auto.
    + destruct (k_pend s K _ g P) as [(v & V & X) | [(u & X & _) | (X & _)]]; try congruence. exists v. split; auto. eapply incl_tran; eauto.
  - exact (v_pc s I t).
Qed.
Lemma inv_pnone s t : inv s -> pcs s t = PRun -> inv (set_pend s (act s t) PNone).
Proof.
  intros I E. apply (inv_frame s _ t); auto; [apply framed_eq; auto | apply core_pend; [apply I | discriminate] | exact (v_pc s I t)].
Qed.
Lemma inv_unlink s t o : inv s -> pcs s t = PRun -> slk s o = None -> inv (set_pend (unlink s t (act s t) o) (act s t) PNone).
Proof.
  intros I E L. pose proof (run_place s t I E) as R. pose proof (v_core s I) as K. pose proof (core_lock s t o K L) as K1. assert (slk (lock s t o) o = Some t) as L1 by (unfold lock; simpl; apply oupd_same).
  pose proof (fr_lock t s o L) as R1. unfold unlink. set (s1 := lock s t o) in *. set (q := filter _ _).
  assert (incl q (wq s1 o)) as Q by (intros a A; apply filter_In in A; tauto).
  pose proof (core_sub s1 o q K1 Q) as K2.
  assert (framed t s1 (set_wq s1 o q)) as R2.
  { apply fr_wq. intros c O. pose proof (other_live s1 t c o K1 L1 O) as N. split; [|contradiction]. intros A. apply Q in A. contradiction. }
  apply (inv_frame s _ t); auto.
  - eapply framed_trans; [exact R1|]. eapply framed_trans; [exact R2|]. eapply framed_trans; [apply (fr_unlock t (set_wq s1 o q) o L1)|]. apply framed_eq; auto.
  - apply core_pend; [|discriminate]. apply core_unlock; auto.
  - unfold pcok. simpl. rewrite E. exact R.
Qed.
Lemma inv_locked s t n : inv s -> free s t = true -> slk s (OU n) = None -> inv (set_pc (lock s t (OU n)) t (PNote (OU n) false)).
Proof.
  intros I F L. destruct (free_spec s t F) as (E & P). pose proof (run_place s t I E) as R. pose proof (v_core s I) as K.
  apply (inv_frame s _ t); auto.
  - eapply framed_trans; [apply (fr_lock t s _ L) | apply fr_pc].
  - apply core_pc, core_lock; auto.
  - unfold pcok. simpl. rewrite upd_same. rewrite oupd_same. auto.
  - intros x X. congruence.
Qed.
Lemma inv_term s t : inv s -> free s t = true -> slk s (OJ (act s t)) = None -> let s1 := lock s t (OJ (act s t)) in
  inv (set_pc (set_term (emit s1 t (act s t) (EEnd (act s t) (tv s1 t))) (act s t)) t (PNote (OJ (act s t)) true)).
Proof.
  intros I F L. simpl. destruct (free_spec s t F) as (E & P). pose proof (run_place s t I E) as R. pose proof (v_core s I) as K.
  pose proof (core_lock s t _ K L) as K1. pose proof (fr_lock t s _ L) as R1. set (c := act s t) in *. set (s1 := lock s t (OJ c)) in *.
  apply (inv_frame s _ t); auto.
  - eapply framed_trans; [exact R1|]. eapply framed_trans; [|apply fr_pc]. unfold framed, live. simpl. splits; auto; [intros d O; splits; auto; tauto|]. intros g G. cc g c; auto.
  - apply core_pc, core_term; auto; [apply held_run; auto | unfold s1, lock; simpl; apply oupd_same].
  - unfold pcok. simpl. rewrite upd_same. fold c. rewrite oupd_same, cupd_same. splits; auto.
  - simpl. rewrite upd_same. intros g G. cc g c; auto.
  - intros x X. congruence.
Qed.
Lemma inv_pop s t o b c e q : inv s -> pcs s t = PNote o b -> wq s o = (c, e) :: q -> inv (wake pin (set_wq s o q) t c e).
Proof.
  intros I E Q. pose proof (v_core s I) as K. pose proof (v_pc s I t) as P. unfold pcok in P. rewrite E in P. destruct P as (R & L & P).
  assert (incl q (wq s o)) as QI by (rewrite Q; apply incl_tl, incl_refl).
  pose proof (core_sub s o q K QI) as K1.
  assert (framed t s (set_wq s o q)) as R1.
  { apply fr_wq. intros d O. pose proof (other_live s t d o K L O) as N. split; [|contradiction]. intros A. apply QI in A. contradiction. }
  assert (In (c, e) (wq s o)) as IN by (rewrite Q; left; auto).
  destruct (k_wq s K c e o IN) as (A1 & A2).
  assert (ep s c = e -> ~ other s t c /\ place s c = Wait) as X.
  { intros <-. destruct (A2 eq_refl) as (B1 & B2). split; auto. apply not_other. rewrite B1. right. exists o. split; auto. }
  destruct (wake_frame pin (set_wq s o q) t c e) as (E1 & E2 & E3 & E4 & E5 & E6 & E7). simpl in *.
  assert (framed t s (wake pin (set_wq s o q) t c e)) as R2.
  { destruct (Nat.eq_dec (ep s c) e) as [Y|Y]; [|rewrite (E7 Y); exact R1]. destruct (X Y) as (Y1 & Y2).
    destruct R1 as (G1 & G2 & G3 & G4 & G5). unfold framed, live in *. rewrite E1, E2, E3, E4, E5. splits; auto.
    - intros d O. assert (d <> c) as N by congruence. destruct (G2 d O) as (B1 & B2 & B3 & B4). destruct (E6 d N) as (C1 & C2 & C3). splits; auto. intros p. rewrite C3. apply B4.
    - intros d D. assert (d <> c) as N by congruence. destruct (E6 d N) as (C1 & _). congruence. }
  assert (ep s c = e -> c <> act s t) as NC by (intros Y; destruct (X Y); congruence).
  apply (inv_frame s _ t); auto.
  - apply core_wake; auto. simpl. intros Y. destruct (X Y) as (Y1 & Y2). rewrite Y in A2. destruct (A2 eq_refl) as (B1 & B2). unfold lockview in B2. rewrite L in B2. splits; auto.
    intros g G. assert (live s c o) as LV by (unfold live; rewrite Y; exact IN). destruct (k_pend s K c g G) as [(v & V & Z) | [(u & Z & _) | (_ & _ & Z)]]; [|congruence|].
    + exists v. split; auto. eapply incl_tran; eauto.
    + specialize (Z o LV). subst o. destruct P as (_ & _ & P). destruct (k_term s K g P) as (v & V & Z). unfold lockview in Z. rewrite L in Z. exists v. auto.
  - unfold pcok. rewrite E1, E2, E3, E4, E. splits; auto. destruct (Nat.eq_dec (ep s c) e) as [Y|Y]; [|rewrite (E7 Y); exact R]. destruct (E6 (act s t) (fun Z => NC Y (eq_sym Z))) as (C1 & _). rewrite C1. exact R.
  - intros g. rewrite E3. auto.
  - intros g _ _. right. rewrite E1, E2. auto.
Qed.
Lemma inv_finish s t : inv s -> pcs s t = PNote (OJ (act s t)) true -> inv (finish s t (act s t)).
Proof.
  intros I E. pose proof (v_core s I) as K. pose proof (v_pc s I t) as P. unfold pcok in P. rewrite E in P. destruct P as (R & L & _).
  assert (held s t (act s t)) as H by (apply held_run; auto).
  destruct (touchA_frame s t (act s t)) as (F1 & F2 & F3 & F4 & F5 & F6 & F7 & F8 & F9 & F10 & F11 & _).
  pose proof (core_touchA s t _ K H) as K1. pose proof (fr_touchA t s (act s t)) as R1. unfold finish. set (c := act s t) in *. set (s1 := touchA s t c) in *.
  assert (slk s1 (OJ c) = Some t) as L1 by congruence.
  pose proof (core_unlock s1 t _ K1 L1) as K2. pose proof (fr_unlock t s1 _ L1) as R2.
  assert (place (unlock s1 t (OJ c)) c = Run t) as P2 by (simpl; congruence).
  destruct (run_sched _ c t K2 (or_introl P2)) as (W & SC).
  apply (inv_frame s _ t); auto.
  - eapply framed_trans; [exact R1|]. eapply framed_trans; [exact R2|]. eapply framed_trans; [|apply fr_pc]. apply fr_place; [apply not_other; rewrite P2; auto | congruence].
  - apply core_pc, core_place; auto.
    + unfold hold. simpl place. rewrite cupd_same. exists t. auto.
    + right. apply quiet_of; auto; congruence.
  - unfold pcok. simpl pcs. rewrite upd_same. split; [|discriminate]. simpl. rewrite F1. fold c. rewrite cupd_same. auto.
  - intros g. simpl. rewrite F8. auto.
  - intros g X Y. left. simpl. rewrite E in X. injection X as X. subst g. apply cupd_same.
Qed.
Lemma inv_unlock s t n : inv s -> pcs s t = PNote (OU n) false -> inv (set_pc (unlock s t (OU n)) t PRun).
Proof.
  intros I E. pose proof (v_core s I) as K. pose proof (v_pc s I t) as P. unfold pcok in P. rewrite E in P. destruct P as (R & L & _).
  apply (inv_frame s _ t); auto.
  - eapply framed_trans; [apply (fr_unlock t s _ L) | apply fr_pc].
  - apply core_pc, core_unlock; auto.
  - unfold pcok. simpl. rewrite upd_same. exact R.
  - intros g X. congruence.
Qed.
Lemma inv_pick s t c k s' : inv s -> pcs s t = PSw k -> pick s t c = Some s' -> inv (resume s' t c k).
Proof.
  intros I E X. pose proof (v_core s I) as K. pose proof (v_pc s I t) as P. unfold pcok in P. rewrite E in P. destruct P as (W & Y).
  assert (forall p, place s c = p -> (forall u, p <> Run u) -> p <> Wait -> p <> Dead -> c <> act s t) as NE.
  { intros p A B C D ->. destruct k; simpl in W; [destruct W as (_ & W & _) | | destruct W as (W & _) | destruct W as (W & _)]; try congruence. rewrite (Y eq_refl) in A. apply (B t). auto. }
  unfold pick in X. destruct (place s c) eqn:PC; try discriminate.
  - destruct (Nat.eqb_spec t0 t) as [->|]; [|discriminate]. injection X as <-.
    destruct (resume_ok s t c k K (fun u _ => v_pc s I u) (or_introl PC) W Y) as (A1 & A2 & A3 & A4); [apply (NE (Loc t)); auto; discriminate|].
    apply (inv_frame s _ t); auto; [intros g; rewrite A4; auto | congruence].
  - injection X as X. set (w := qv s c ++ tv s t) in *.
    assert (core (set_tv s t w)) as K1.
    { apply core_tv; auto. apply incl_appr, incl_refl. }
    pose proof (k_hold s K c) as H. unfold hold in H. rewrite PC in H. destruct H as (H1 & H2 & H3).
    assert (sleepq s c = None) as SQ by (destruct (sleepq s c) eqn:Z; auto; apply (k_sleep s K) in Z; destruct Z; congruence).
    set (s1 := set_place (set_sched (set_tv s t w) c (Some t)) c (Tmp t)) in *.
    assert (core s1) as K2.
    { apply core_move; auto; try (simpl; congruence).
      - left. simpl. congruence.
      - intros u U. injection U as <-. simpl. rewrite upd_same. eapply incl_tran; [exact H2 | apply incl_appl, incl_refl].
      - unfold hold. simpl. rewrite !cupd_same, upd_same. split; auto. eapply incl_tran; [exact H1 | apply incl_appl, incl_refl]. }
    assert (framed t s s1) as R1.
    { assert (framed t s (set_tv s t w)) as R0 by (apply framed_eq; auto). eapply framed_trans; [exact R0|]. eapply framed_trans; [apply fr_sched, not_other; simpl; rewrite PC; auto|]. apply fr_place; [apply not_other|]; simpl; rewrite PC; auto. discriminate. }
    assert (held s1 t c) as HC by (apply held_run; right; right; unfold s1; simpl; apply cupd_same).
    destruct (touchA_frame s1 t c) as (F1 & F2 & F3 & F4 & F5 & F6 & F7 & F8 & F9 & F10 & F11 & _).
    pose proof (core_touchA s1 t c K2 HC) as K3. pose proof (framed_trans _ _ _ _ R1 (fr_touchA t s1 c)) as R3. rewrite X in *.
    assert (c <> act s t) as N by (apply (NE Que); auto; discriminate).
    assert (place s' c = Tmp t) as PT by (rewrite F3; unfold s1; simpl; apply cupd_same).
    assert (act s' t = act s t) as AE by (rewrite F1; auto).
    assert (place s' (act s t) = place s (act s t)) as PE by (rewrite F3; unfold s1; simpl; apply cupd_other; auto).
    assert (sched s' (act s t) = sched s (act s t)) as SE by (rewrite F4; unfold s1; simpl; apply cupd_other; auto).
    destruct (resume_ok s' t c k K3) as (A1 & A2 & A3 & A4); auto.
    + intros u U. apply (pc_frame s s' t u K (v_pc s I u) R3 U).
    + rewrite AE. unfold swok, live in *. rewrite F11, PE, SE, F7, F10. exact W.
    + rewrite AE, PE. exact Y.
    + congruence.
    + apply (inv_frame s _ t); auto; [eapply framed_trans; eauto | intros g; rewrite A4, F8; auto | congruence].
Qed.
Lemma inv_aft s t k p : inv s -> pcs s t = PAft k p -> let s1 := set_pc (touchA s t p) t PRun in inv (match k with KLock o => unlock s1 t o | KYield => schedule pin s1 t p | _ => s1 end).
Proof.
  intros I E. pose proof (v_core s I) as K. pose proof (v_pc s I t) as P. unfold pcok in P. rewrite E in P. destruct P as (R & W & Y). simpl.
  assert (held s t p) as H.
  { destruct k; simpl in W.
    - destruct W as (W1 & W2 & W3 & W4). unfold held. rewrite W2. split; auto. intros o' L. assert (o' = o) by (eapply k_uniq; eauto). subst. auto.
    - apply held_run. right. right. auto.
    - destruct W as (W1 & W2 & W3). unfold held. rewrite W1. split; auto. intros o' L. apply W3 in L. contradiction.
    - destruct W as (W1 & W2). unfold held. rewrite W1. split; auto. intros o' L. destruct (k_wq s K _ _ _ L) as (_ & B). destruct (B eq_refl). congruence. }
  destruct (touchA_frame s t p) as (F1 & F2 & F3 & F4 & F5 & F6 & F7 & F8 & F9 & F10 & F11 & _).
  pose proof (core_pc _ t PRun (core_touchA s t p K H)) as K1. pose proof (framed_trans _ _ _ _ (fr_touchA t s p) (fr_pc t (touchA s t p) PRun)) as R1.
  set (s1 := set_pc (touchA s t p) t PRun) in *.
  assert (pcs s1 t = PRun /\ act s1 = act s /\ place s1 = place s /\ sched s1 = sched s /\ slk s1 = slk s /\ term s1 = term s) as (G1 & G2 & G3 & G4 & G5 & G6).
  { unfold s1. simpl. rewrite upd_same. auto 10. }
  assert (inv s1 \/ k = KYield \/ exists o, k = KLock o) as D.
  { destruct k; eauto; left; apply (inv_frame s _ t); auto; try (unfold pcok; rewrite G1, G2, G3; exact R); try (intros g; rewrite G6; auto); intros g X; congruence. }
  destruct k.
  - simpl in W. destruct W as (W1 & W2 & W3 & W4). assert (slk s1 o = Some t) as L1 by congruence. apply (inv_frame s _ t); auto.
    + eapply framed_trans; [exact R1 | apply (fr_unlock t s1 o L1)].
    + apply core_unlock; auto.
    + unfold pcok. simpl. rewrite upd_same. simpl. rewrite F1, F3. exact R.
    + intros g. simpl. rewrite F8. auto.
    + intros g X. congruence.
  - specialize (Y eq_refl). assert (place s1 p = Tmp t) as PT by congruence.
    destruct (schedule_frame pin s1 t p) as (E1 & E2 & E3 & E4 & E5 & E6 & E7).
    apply (inv_frame s _ t); auto.
    + eapply framed_trans; [exact R1|]. apply fr_schedule; [apply not_other; rewrite PT; auto | congruence].
    + apply core_schedule; auto; [apply held_run; auto | congruence | apply quiet_of; auto; congruence | apply run_sched; auto].
    + unfold pcok. rewrite E1, E2, G1, G2. destruct (E7 (act s t)) as (X & _); [congruence|]. rewrite X, G3. exact R.
    + intros g. rewrite E3, G6. auto.
    + intros g X. congruence.
  - destruct D as [D | [D | (o & D)]]; auto; discriminate.
  - destruct D as [D | [D | (o & D)]]; auto; discriminate.
Qed.
Lemma inv_swap s t s' : inv s -> step pin s (LSwap t) = Some s' -> inv s'.
Proof.
  intros I X. simpl in X. destruct (dispatching s t) eqn:D; [|discriminate]. injection X as X. pose proof (disp_spec s t D) as E. pose proof (v_core s I) as K. pose proof (run_place s t I E) as R.
  set (w := rv s t ++ tv s t) in *. assert (core (set_rv (set_tv s t w) t w)) as K1.
  { apply core_rv; [apply core_tv; auto; apply incl_appr, incl_refl | apply incl_appl, incl_refl]. }
  set (s1 := set_rv (set_tv s t w) t w) in *.
  assert (forall c, place s' c = place s c \/ (place s c = Rem t /\ place s' c = Tmp t)) as PL.
  { intros c. subst s'. simpl. destruct (place s c); auto. destruct (Nat.eqb_spec t0 t) as [->|]; auto. }
  assert (act s' = act s /\ pcs s' = pcs s /\ sched s' = sched s /\ ep s' = ep s /\ wq s' = wq s /\ slk s' = slk s /\ term s' = term s) as (F1 & F2 & F3 & F4 & F5 & F6 & F7) by (subst s'; simpl; auto 10).
  assert (place s' (act s t) = place s (act s t)) as PA by (destruct (PL (act s t)) as [|(A & _)]; auto; congruence).
  apply (inv_frame s _ t); auto.
  - unfold framed, live. rewrite F1, F2, F3, F4, F5, F6, F7. splits; auto.
    + intros c (u & U & O). splits; auto; [|tauto]. destruct (PL c) as [|(A & _)]; auto. exfalso. destruct O as [O | [O | ([O|O] & _)]]; congruence.
    + intros c C. destruct (PL c) as [|(A & _)]; congruence.
  - assert (forall c, place s' c = Wait <-> place s1 c = Wait) as PW by (intros c; change (place s1 c) with (place s c); destruct (PL c) as [->|(-> & ->)]; split; congruence).
    assert (forall c u, place s' c = Hand u <-> place s1 c = Hand u) as PH by (intros c u; change (place s1 c) with (place s c); destruct (PL c) as [->|(-> & ->)]; split; congruence).
    pose proof (k_hold s1 K1) as k_hold0. pose proof (k_sleep s1 K1) as k_sleep0. pose proof (k_wq s1 K1) as k_wq0. pose proof (k_pend s1 K1) as k_pend0.
    destruct K1; constructor; unfold pend_ok, live, asleep, ended, lockview in *; subst s'; simpl in *; auto.
    + intros c. specialize (k_hold0 c). unfold hold in *. simpl in *. destruct (place s c); auto. destruct (Nat.eqb_spec t0 t) as [->|]; auto. rewrite upd_same in *. exact k_hold0.
    + intros c u A. destruct (k_sleep0 c u A) as (A1 & A2 & A3). splits; auto. intros Z. apply PW. auto.
    + intros c e o A. destruct (k_wq0 c e o A) as (A1 & A2). split; auto. intros Z. destruct (A2 Z). split; auto. apply PW. auto.
    + intros c g A. destruct (k_pend0 c g A) as [Z | [(u & Z & V) | (Z & V)]]; auto; right; [left; exists u; split; auto; apply PH; auto | right; split; auto; apply PW; auto].
  - unfold pcok. rewrite F2, F1, E, PA. exact R.
  - intros g. rewrite F7. auto.
  - intros g Z. congruence.
Qed.
Lemma inv_drain s t c : inv s -> dispatching s t = true -> place s c = Tmp t -> inv (schedule pin s t c).
Proof.
  intros I D PT. pose proof (disp_spec s t D) as E. pose proof (v_core s I) as K. pose proof (run_place s t I E) as R.
  destruct (schedule_frame pin s t c) as (E1 & E2 & E3 & E4 & E5 & E6 & E7).
  apply (inv_frame s _ t); auto.
  - apply fr_schedule; [apply not_other; rewrite PT; auto | congruence].
  - apply core_schedule; auto; [apply held_run; auto | congruence | apply quiet_of; auto; congruence | apply run_sched; auto].
  - unfold pcok. rewrite E1, E2, E. destruct (E7 (act s t)) as (X & _); [congruence|]. rewrite X. exact R.
  - intros g. rewrite E3. auto.
  - intros g X. congruence.
Qed.
Lemma inv_timer s t c : inv s -> dispatching s t = true -> sleepq s c = Some t -> inv (wake pin (set_sleep (touchB s t c) c None (swk s c)) t c (swk s c)).
Proof.
  intros I D SQ. pose proof (disp_spec s t D) as E. pose proof (v_core s I) as K. pose proof (run_place s t I E) as R.
  destruct (k_sleep s K c t SQ) as (S1 & S2 & S3).
  destruct (touchB_frame s t c) as (F1 & F2 & F3 & F4 & F5 & F6 & F7 & F8 & F9 & F10 & F11 & F12 & _).
  pose proof (core_wake_off _ c (swk s c) (core_touchB s t c K S1)) as K1. pose proof (touchB_tv s t c) as G.
  assert (framed t s (set_sleep (touchB s t c) c None (swk s c))) as R1 by (apply framed_eq; auto).
  set (s1 := set_sleep (touchB s t c) c None (swk s c)) in *.
  assert (act s1 = act s /\ pcs s1 = pcs s /\ place s1 = place s /\ sched s1 = sched s /\ ep s1 = ep s /\ seen s1 = seen s /\ pend s1 = pend s /\ term s1 = term s) as (G1 & G2 & G3 & G4 & G5 & G6 & G7 & G8) by (unfold s1; simpl; auto 10).
  destruct (wake_frame pin s1 t c (swk s c)) as (E1 & E2 & E3 & E4 & E5 & E6 & E7).
  apply (inv_frame s _ t); auto.
  - eapply framed_trans; [exact R1|]. apply fr_wake. rewrite G5. intros X. symmetry in X. specialize (S3 X). split; [apply not_other; rewrite G3, S3, G4; auto | congruence].
  - apply core_wake; auto; [congruence|]. rewrite G5. intros X. symmetry in X. specialize (S3 X). rewrite G3, G6, G7. pose proof (k_hold s K c) as H. unfold hold in H. rewrite S3 in H. destruct H as (u & H1 & H2). assert (u = t) by congruence. subst u.
    assert (incl (seen s c) (tv s1 t)) as SI by (eapply incl_tran; [exact H2 | exact G]). splits; auto.
    intros g P. destruct (k_pend s K c g P) as [(v & V & Z) | [(u & Z & _) | (_ & Z & _)]]; [|congruence|].
    + exists v. split; [unfold s1; simpl; apply touchB_end; exact V | eapply incl_tran; eauto].
    + exfalso. apply Z. split; congruence.
  - unfold pcok. rewrite E1, E2, G1, G2, E. destruct (Nat.eq_dec (ep s c) (swk s c)) as [Y|Y].
    + assert (act s t <> c) as N by (intros <-; symmetry in Y; specialize (S3 Y); congruence). destruct (E6 (act s t) N) as (X & _). rewrite X, G3. exact R.
    + rewrite E7 by (rewrite G5; exact Y). rewrite G3. exact R.
  - intros g. rewrite E3, G8. auto.
  - intros g X. congruence.
Qed.
Lemma step_inv s l s' : inv s -> step pin s l = Some s' -> inv s'.
Proof.
  intros I X. destruct l; try (apply (inv_swap s t s' I X)); simpl in X.
  - destruct (free s t) eqn:F; [|discriminate]. injection X as <-. apply inv_act; auto.
  - destruct (free s t) eqn:F; [|discriminate]. destruct (is_wk g); [|discriminate]. simpl in X. destruct (place s g) eqn:P; try discriminate. injection X as <-. apply (inv_create s t g d I F P).
  - destruct (pcs s t) eqn:E; try discriminate. injection X as <-. apply inv_yield; auto.
  - destruct (free s t) eqn:F; [|discriminate]. injection X as <-. apply inv_sleep; auto.
  - destruct (free s t) eqn:F; [|discriminate]. destruct (is_wk g); [|discriminate]. simpl in X.
    assert (slk s (OJ g) = None /\ (if term s g then Some (emit (unlock (lock s t (OJ g)) t (OJ g)) t (act s t) (EJoined (act s t) g (tv (lock s t (OJ g)) t))) else Some (set_pc (set_pend (enqueue (lock s t (OJ g)) (act s t) (OJ g)) (act s t) (PJoin g)) t (PSw (KLock (OJ g))))) = Some s') as (L & Y).
    { destruct (place s g); try discriminate; destruct (slk s (OJ g)); try discriminate; destruct (ctx_dec (act s t) g); try discriminate; auto. }
    destruct (term s g) eqn:T; injection Y as <-; [apply (inv_joined s t g); auto | apply inv_join; auto].
  - destruct (free s t) eqn:F; [|discriminate]. destruct (slk s (OU n)) eqn:L; [discriminate|]. injection X as <-. apply (inv_wait s t n b I F L).
  - destruct (pcs s t) eqn:E; try discriminate. destruct (pend s (act s t)) eqn:P; try discriminate.
    + injection X as <-. apply inv_ret_join; auto.
    + destruct b; [destruct (slk s o) eqn:L; [discriminate|]|]; injection X as <-; [apply inv_unlink; auto | apply inv_pnone; auto].
  - destruct (free s t) eqn:F; [|discriminate]. destruct (slk s (OU n)) eqn:L; [discriminate|]. injection X as <-. apply inv_locked; auto.
  - destruct (free s t) eqn:F; [|discriminate]. destruct (is_wk (act s t)); [|discriminate]. simpl in X. destruct (slk s (OJ (act s t))) eqn:L; [discriminate|]. injection X as <-. apply (inv_term s t I F L).
  - destruct (pcs s t) as [|o b| |] eqn:E; try discriminate. destruct (wq s o) as [|(c & e) q] eqn:Q; [discriminate|]. injection X as <-. apply (inv_pop s t o b c e q I E Q).
  - destruct (pcs s t) as [|o b| |] eqn:E; try discriminate. pose proof (v_pc s I t) as P. unfold pcok in P. rewrite E in P. destruct P as (_ & _ & P).
    destruct o as [g|n]; [destruct P as (-> & -> & _); destruct (wq s (OJ (act s t))); [|discriminate]; injection X as <-; apply inv_finish; auto|]. subst b. injection X as <-. apply inv_unlock; auto.
  - destruct (pcs s t) as [| |k|] eqn:E; try discriminate. destruct (pick s t c) as [s1|] eqn:P; [|discriminate]. injection X as <-. apply (inv_pick s t c k s1 I E P).
  - destruct (pcs s t) as [| | |k p] eqn:E; try discriminate. injection X as <-. apply (inv_aft s t k p I E).
  - destruct (dispatching s t) eqn:D; [|discriminate]. destruct (place s c) eqn:P; try discriminate. destruct (Nat.eqb_spec t0 t) as [->|]; [|discriminate]. injection X as <-. apply inv_drain; auto.
  - destruct (dispatching s t) eqn:D; [|discriminate]. destruct (sleepq s c) eqn:P; try discriminate. destruct (Nat.eqb_spec n t) as [->|]; [|discriminate]. injection X as <-. apply inv_timer; auto.
Qed.
Lemma init_inv : inv init_state.
Proof.
  constructor.
  - constructor.
    + intros c a [].
    + intros e c w [].
    + intros l1 x l2 y w X. destruct l1; discriminate.
    + intros e [].
    + split; [split; [constructor | intros c n w []] | intros n []].
    + intros c. unfold hold. simpl. destruct c; simpl; splits; auto; intros a [].
    + intros c t _ a [].
    + intros c t X. discriminate.
    + intros c e o [].
    + intros c o o' [].
    + intros c g A. discriminate.
    + intros g X. discriminate.
    + intros g w [].
    + intros l1 c g w l2 X; destruct l1; discriminate.
    + intros l1 g n v l2 X; destruct l1; discriminate.
  - intros t. reflexivity.
  - intros g G. discriminate.
Qed.
Lemma reach_inv s : reachable (step pin) init_state s -> inv s.
Proof. apply (reachable_inv (step pin) inv init_state init_inv). apply step_inv. Qed.
End params.

(** join_complete from its parts. *)
Lemma complete l : in_order l -> numbered l -> join_ok l -> fin l -> join_complete l.
Proof.
  intros O (_ & N) J F l1 c g w l2 E. destruct (J l1 c g w l2 E) as (w' & A & B). split; [eauto|]. intros n v C.
  subst l. apply in_split in A. destruct A as (m1 & m2 & ->).
  assert (In (EAct g n v) m2) as D.
  { apply in_app_iff in C. destruct C as [C | [C | C]]; [|discriminate|].
    - exfalso. apply in_split in C. destruct C as (x1 & x2 & ->). rewrite <- app_assoc in F. simpl in F. specialize (F _ _ _ _ _ eq_refl w'). apply F. apply in_app_iff. right. right. apply in_app_iff. right. left. auto.
    - apply in_app_iff in C. destruct C as [C | [C | C]]; [|discriminate | exact C].
      exfalso. apply in_split in C. destruct C as (x1 & x2 & ->). specialize (F (l1 ++ EJoined c g w :: x1) g n v (x2 ++ EEnd g w' :: m2)). rewrite <- !app_assoc in F. simpl in F. rewrite <- ?app_assoc in F. simpl in F. specialize (F eq_refl w'). apply F. apply in_app_iff. right. left. auto. }
  apply B. specialize (O (l1 ++ EJoined c g w :: m1) (EEnd g w') m2 g w'). rewrite <- app_assoc in O. simpl in O. specialize (O eq_refl (conj eq_refl eq_refl) (EAct g n v) v D (conj eq_refl eq_refl)). apply O.
  apply (N g n v). apply in_app_iff. right. right. apply in_app_iff. right. right. exact D.
Qed.
