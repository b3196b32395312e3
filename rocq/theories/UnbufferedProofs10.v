From Coq Require Import List Arith Bool Lia.
From Verif Require Import Base Kernel KernelFacts WakeFacts SlotFacts Unbuffered UnbufferedSpec UnbufferedProofs UnbufferedProofs2 UnbufferedProofs3 UnbufferedProofs4 UnbufferedProofs5 UnbufferedProofs6 UnbufferedProofs7 UnbufferedProofs8 UnbufferedProofs9.
Import ListNotations.

(** All the cases of a step of one fiber whose place is known: [Ep : pcs s f = p]. *)
Ltac runcases Hs Ep Er :=
  unfold step in Hs;
  match type of Hs with (if ub ?s then None else _) = _ => destruct (ub s); [discriminate Hs|] end;
  match type of Hs with (if ?x then _ else _) = _ => destruct x eqn:Er; [|discriminate Hs] end;
  unfold run_step in Hs; rewrite Ep in Hs; unfold try_push, blockP, blockC, notify1, notifyA in Hs;
  repeat match type of Hs with
  | context [match lkP ?s with _ => _ end] => destruct (lkP s) eqn:?; try discriminate Hs
  | context [match lkC ?s with _ => _ end] => destruct (lkC s) eqn:?; try discriminate Hs
  | context [match frames ?s ?f with _ => _ end] => destruct (frames s f) eqn:?; try discriminate Hs
  | context [match ?x with _ => _ end] =>
      match x with
      | _ => destruct x eqn:?
      end
  end; first [discriminate Hs | inj Hs; unf; simpl; rewrite ?upd_same].

Section Proofs.
Context {V : Type}.
Notation state := (state V). Notation pc := (pc V). Notation op := (op V). Notation event := (event V).

Definition inq (p : pc) (i : nat) : Prop := exists e, sst p = SUntimed i e \/ exists tp, sst p = STimed i tp e.
Definition bq (s : state) (i : nat) (g : fid) : Prop := xblocked (fib (kn s) g) /\ inq (pcs s g) i.

Lemma bq_live (s : state) i g : Inv s -> bq s i g -> In (g, epoch (fib (kn s) g)) (queues s i).
Proof.
  intros I [A (e & B)]. destruct (sblocked_live _ _ _ _ (i_ki _ I) A) as [(j & X & Y)|[Y|(tp & Y)]].
  - replace i with j; auto. destruct B as [B|(tp & B)], Y as [Y|(tp' & Y)]; congruence.
  - destruct B as [B|(tp & B)]; congruence.
  - destruct B as [B|(tp' & B)]; congruence.
Qed.
Lemma live_bq (s : state) i g : Inv s -> In (g, epoch (fib (kn s) g)) (queues s i) -> bq s i g.
Proof.
  intros I A. destruct (slive_blocked _ _ _ _ _ _ (i_ki _ I) A eq_refl) as [B C]. split; auto. exists (epoch (fib (kn s) g)). exact C.
Qed.
Lemma none_runnable (s : state) g : Inv s -> sst (pcs s g) = SNone -> xrunnable (fib (kn s) g).
Proof. intros I A. pose proof (si_f _ _ _ (i_ki _ I) g) as S. unfold sfok in S. rewrite A in S. intuition. Qed.
Lemma runnable_dec x : {xrunnable x} + {xblocked x}.
Proof. unfold xrunnable, xblocked. destruct (running x), (queued x); auto. Qed.
Lemma not_both x : xrunnable x -> xblocked x -> False.
Proof. unfold xrunnable, xblocked. intros [A|A] [B C]; congruence. Qed.

Lemma call_idle (s : state) g o s' : step s (LCall g o) = Some s' -> pcs s g = Idle /\ running (fib (kn s) g) = true /\ kn s' = kn s.
Proof.
  intros Hs. unfold step in Hs. destruct (ub s); [discriminate Hs|]. destruct (pcs s g); try discriminate Hs.
  destruct (running _); [|discriminate Hs]. injection Hs as <-. splits; auto. unfold call_op. destruct o; reflexivity.
Qed.

Lemma keep (s : state) l s' g : step s l = Some s' -> pcs s g <> Idle -> l <> LRun g -> pcs s' g = pcs s g /\ calls s' g = calls s g.
Proof.
  intros Hs A B. apply (other_step _ _ _ g Hs B). intros o ->. now destruct (call_idle _ _ _ _ Hs).
Qed.

Lemma lrun_dec (l : label V) g : {l = LRun g} + {l <> LRun g}.
Proof. destruct l as [kl|f o|f|f|f]; try (right; discriminate). destruct (Nat.eq_dec f g); [left; congruence|right; congruence]. Qed.

Lemma blocked_before (s : state) l s' g : Inv s -> step s l = Some s' -> l <> LRun g -> xblocked (fib (kn s') g) ->
  xblocked (fib (kn s) g) /\ pcs s' g = pcs s g /\ calls s' g = calls s g.
Proof.
  intros I Hs A B. destruct (runnable_dec (fib (kn s) g)) as [R|R].
  - exfalso. eapply not_both; [eapply runnable_step; eauto|]; auto.
  - split; auto. apply (other_step _ _ _ g Hs A). intros o ->. destruct (call_idle _ _ _ _ Hs) as (_ & C & _). destruct R. congruence.
Qed.

Lemma own_block (s : state) g s' i : Inv s -> step s (LRun g) = Some s' -> inq (pcs s' g) i ->
  (i = 1 /\ exists o, pcs s g = CHold o /\ slot s = None /\ slot s' = None) \/
  (i = 0 /\ exists o, pcs s g = PHold o /\ slot s' = slot s /\ slot s <> None).
Proof.
  intros I Hs (e & H).
  assert (H' : sst (pcs s' g) <> SNone /\ (forall a b c, sst (pcs s' g) <> SRelock a b c) /\ (forall a, sst (pcs s' g) <> SOffer a)
    /\ (forall a, sst (pcs s' g) <> SSlot a) /\ (forall a b, sst (pcs s' g) <> SSlotT a b)).
  { destruct H as [H|(tp & H)]; rewrite H; splits; intros; discriminate. }
  destruct H' as (H1 & H2 & H3 & H4 & H5).
  destruct (pcs s g) eqn:Ep; try (exfalso; revert H1 H2 H3 H4 H5; runcases Hs Ep Er; simpl; rewrite ?Ep; simpl; intros; congruence).
  - right. revert H1 H. runcases Hs Ep Er; intros H1 H; simpl in H, H1; try congruence.
    + destruct H as [H|(tp & H)]; inversion H; subst. split; auto. exists o. splits; auto; congruence.
    + destruct H as [H|(tp & H)]; inversion H; subst. split; auto. exists o. splits; auto; congruence.
  - left. revert H1 H. runcases Hs Ep Er; intros H1 H; simpl in H, H1; try congruence.
    + destruct H as [H|(tp & H)]; inversion H; subst. split; auto. exists o. splits; auto; congruence.
    + destruct H as [H|(tp & H)]; inversion H; subst. split; auto. exists o. splits; auto; congruence.
Qed.

(** Nothing closed, no timeouts. *)
Definition live (s : state) : Prop := never_closed (log s) /\ no_timeout (log s).
Lemma live_back (s : state) l s' : step s l = Some s' -> live s' -> live s.
Proof.
  intros Hs [A B]. destruct (step_mono _ _ _ Hs) as (_ & _ & [E|[e E]]).
  - split; unfold never_closed, no_timeout in *; rewrite E in *; auto.
  - split; [intros f X; apply (A f)|intros f o t X; apply (B f o t)]; rewrite E; now right.
Qed.
Lemma live_open (s : state) : ClI s -> never_closed (log s) -> closed s = false.
Proof. intros C A. destruct (closed s) eqn:E; auto. destruct (cl_called _ C E) as [f X]. now apply A in X. Qed.

Definition CS (p : pc) : bool := match p with CTop _ | CLock _ | CHold _ | CWait _ _ | CWaitT _ _ _ | CRelock _ _ _ => true | _ => false end.

Lemma no_tm (h : list event) f o t : no_timeout (ERet f o (RStatus Timeout) t :: h) -> False.
Proof. intros A. apply (A f o t). now left. Qed.

Lemma cons_own (s : state) c s' : step s (LRun c) = Some s' -> CS (pcs s c) = true -> closed s = false -> no_timeout (log s') ->
  slot s <> None -> slot s' = None \/ (CS (pcs s' c) = true /\ xrunnable (fib (kn s') c)).
Proof.
  intros Hs Hc Cl. destruct (pcs s c) eqn:Ep; simpl in Hc; try discriminate Hc; runcases Hs Ep Er; intros N Sl; try congruence; auto.
  all: try (now apply no_tm in N).
  all: try (right; split; [reflexivity|left; exact Er]).
Qed.

Lemma prod_own (s : state) c s' : step s (LRun c) = Some s' -> pre (pcs s c) = true -> closed s = false -> no_timeout (log s') ->
  slot s' <> None \/ (pre (pcs s' c) = true /\ xrunnable (fib (kn s') c)).
Proof.
  intros Hs Hc Cl. destruct (pcs s c) eqn:Ep; simpl in Hc; try discriminate Hc; runcases Hs Ep Er; intros N; try congruence; auto.
  all: try (now apply no_tm in N).
  all: try (right; split; [reflexivity|left; exact Er]).
  all: try (left; congruence).
Qed.

Lemma inq1_CS (p : pc) : inq p 1 -> CS p = true.
Proof. intros (e & [H|(tp & H)]); destruct p; simpl in *; auto; discriminate. Qed.
Lemma inq0_pre (p : pc) : inq p 0 -> pre p = true.
Proof. intros (e & [H|(tp & H)]); destruct p; simpl in *; auto; discriminate. Qed.

(** notify_one wakes a blocked fiber if there is one. *)
Lemma notify_wakes (s : state) i k' q' g : Inv s -> notify_one (kn s) (queues s i) = (k', q') -> bq s i g ->
  exists h, bq s i h /\ xrunnable (fib k' h).
Proof.
  intros I E B. destruct (snotify_one_inv i _ _ _ _ _ _ (i_ki _ I) eq_refl E) as (_ & _ & _ & _ & [(h & H1 & H2 & H3 & _)|(_ & _ & H)]).
  - exists h. split; [now apply live_bq|]. rewrite H3. now right.
  - exfalso. eapply H; [apply bq_live; eauto|]. apply B.
Qed.

Definition AI (s : state) : Prop := live s -> forall p g, slot s = Some p -> bq s 1 g ->
  (exists o e, pcs s (fst p) = PNotify o e) \/ exists c, xrunnable (fib (kn s) c) /\ CS (pcs s c) = true.

Lemma ai_step (s : state) l s' : Inv s -> ClI s -> AI s -> step s l = Some s' -> AI s'.
Proof.
  intros I C H Hs Lv p g Sl [B Q]. pose proof (live_back _ _ _ Hs Lv) as Lv0.
  assert (Cl : closed s = false) by (apply live_open; [auto|apply Lv0]).
  destruct (slot_step _ _ _ _ I Hs Sl) as [Sl0|(_ & _ & o & e & X)]; [|left; eauto].
  destruct (lrun_dec l g) as [->|Ng].
  { destruct (own_block _ _ _ _ I Hs Q) as [(_ & o & _ & X & Y)|(X & _)]; congruence. }
  destruct (blocked_before _ _ _ _ I Hs Ng B) as (B0 & Eg & _). rewrite Eg in Q.
  destruct (H Lv0 p g Sl0 (conj B0 Q)) as [(o & e & X)|(c & X & Y)].
  - destruct (lrun_dec l (fst p)) as [->|N].
    + assert (Rf : running (fib (kn s) (fst p)) = true).
      { unfold step in Hs. destruct (ub s); [discriminate Hs|]. destruct (running _); [auto|discriminate Hs]. }
      assert (Z : forall k' q', notify_one (kn s) (queues s 1) = (k', q') -> exists h, h <> fst p /\ CS (pcs s h) = true /\ xrunnable (fib k' h)).
      { intros k' q' E. destruct (notify_wakes _ _ _ _ _ I E (conj B0 Q)) as (h & [H1 H2] & H3). exists h. splits; auto; [|now apply inq1_CS].
        intros ->. eapply not_both; [left; exact Rf|exact H1]. }
      right. runcases Hs X Er.
      * destruct (Z _ _ eq_refl) as (h & Z1 & Z2 & Z3). exists h. rewrite !(upd_other _ _ _ h Z1). auto.
      * destruct (Z _ _ eq_refl) as (h & Z1 & Z2 & Z3). exists h. rewrite !(upd_other _ _ _ h Z1). auto.
    + left. exists o, e. rewrite <- X. apply (keep _ _ _ _ Hs); auto. congruence.
  - destruct (lrun_dec l c) as [->|N].
    + right. exists c. destruct (cons_own _ _ _ Hs Y Cl) as [Z|Z]; try tauto; [apply Lv|congruence|congruence].
    + right. exists c. split; [eapply runnable_step; eauto|]. rewrite (proj1 (keep _ _ _ c Hs ltac:(destruct (pcs s c); simpl in Y; congruence) N)). auto.
Qed.

Definition BI (s : state) : Prop := live s -> forall g, bq s 0 g -> slot s = None ->
  (exists c o p, pcs s c = CNotify o p) \/ exists c, xrunnable (fib (kn s) c) /\ pre (pcs s c) = true.

Lemma bi_step (s : state) l s' : Inv s -> ClI s -> BI s -> step s l = Some s' -> BI s'.
Proof.
  intros I C H Hs Lv g [B Q] Sl. pose proof (live_back _ _ _ Hs Lv) as Lv0.
  assert (Cl : closed s = false) by (apply live_open; [auto|apply Lv0]).
  destruct (lrun_dec l g) as [->|Ng].
  { destruct (own_block _ _ _ _ I Hs Q) as [(X & _)|(_ & o & _ & X & Y)]; congruence. }
  destruct (blocked_before _ _ _ _ I Hs Ng B) as (B0 & Eg & _). rewrite Eg in Q.
  destruct (slot s) as [p|] eqn:Sl0.
  { destruct (slot_cleared _ _ _ _ Hs Sl0 Sl) as (c & o & -> & [[X Y]|X]).
    - left. eauto.
    - exfalso. destruct Lv as [_ Lv]. revert Lv Sl. runcases Hs X Er; intros Lv; now apply no_tm in Lv. }
  destruct (H Lv0 g (conj B0 Q) Sl0) as [(c & o & p & X)|(c & X & Y)].
  - destruct (lrun_dec l c) as [->|N].
    + assert (Rf : running (fib (kn s) c) = true).
      { unfold step in Hs. destruct (ub s); [discriminate Hs|]. destruct (running _); [auto|discriminate Hs]. }
      assert (Z : forall k' q', notify_one (kn s) (queues s 0) = (k', q') -> exists h, h <> c /\ pre (pcs s h) = true /\ xrunnable (fib k' h)).
      { intros k' q' E. destruct (notify_wakes _ _ _ _ _ I E (conj B0 Q)) as (h & [H1 H2] & H3). exists h. splits; auto; [|now apply inq0_pre].
        intros ->. eapply not_both; [left; exact Rf|exact H1]. }
      right. clear Eg Sl B. runcases Hs X Er.
      destruct (Z _ _ eq_refl) as (h & Z1 & Z2 & Z3). exists h. rewrite !(upd_other _ _ _ h Z1). auto.
    + left. exists c, o, p. rewrite <- X. apply (keep _ _ _ _ Hs); auto. congruence.
  - destruct (lrun_dec l c) as [->|N].
    + right. exists c. destruct (prod_own _ _ _ Hs Y Cl) as [Z|Z]; try tauto; apply Lv.
    + right. exists c. split; [eapply runnable_step; eauto|]. rewrite (proj1 (keep _ _ _ c Hs ltac:(destruct (pcs s c); simpl in Y; congruence) N)). auto.
Qed.
End Proofs.
