From Coq Require Import List Arith Bool Lia.
From Verif Require Import Base Kernel KernelFacts WakeFacts SlotFacts Unbuffered UnbufferedSpec UnbufferedProofs UnbufferedProofs2 UnbufferedProofs3 UnbufferedProofs4 UnbufferedProofs5 UnbufferedProofs6 UnbufferedProofs7 UnbufferedProofs8 UnbufferedProofs9 UnbufferedProofs10.
Import ListNotations.

Section Proofs.
Context {V : Type}.
Notation state := (state V). Notation pc := (pc V). Notation op := (op V). Notation event := (event V).

Definition closing3 (p : pc) : bool := match p with X1 | X2 _ | X3 => true | _ => false end.

(** While close() is at work: consumers / producers can still be in a queue, or on the way there. *)
Record DI (s : state) : Prop := {
  d_c : closed s = true -> forall g, bq s 1 g \/ hasC (pcs s g) = true -> exists x, closing (pcs s x) = true;
  d_p : closed s = true -> forall g, bq s 0 g \/ (exists o, pcs s g = PHold o) -> exists x, closing3 (pcs s x) = true
}.

Lemma closed_new (s : state) l s' : step s l = Some s' -> closed s' = true -> closed s = true \/ exists x, pcs s' x = X1.
Proof.
  intros Hs. stepcases Hs; auto; intros E; try (left; congruence). right. exists f. now rewrite upd_same.
Qed.

Lemma own_hold (s : state) g s' : step s (LRun g) = Some s' -> hasC (pcs s' g) = true \/ (exists o, pcs s' g = PHold o) -> closed s = false.
Proof.
  intros Hs. destruct (closed s) eqn:Ecl; auto. destruct (pcs s g) eqn:Ep; runcases Hs Ep Er; simpl.
  all: intros [H|[o1 H]]; rewrite ?Ep in H; simpl in H; try discriminate H; congruence.
Qed.

Lemma hold_before (s : state) l s' g : step s l = Some s' -> l <> LRun g -> hasC (pcs s' g) = true \/ (exists o, pcs s' g = PHold o) ->
  pcs s' g = pcs s g.
Proof.
  intros Hs N H. apply (other_step _ _ _ g Hs N). intros o ->.
  unfold step in Hs. destruct (ub s); [discriminate Hs|]. destruct (pcs s g); try discriminate Hs. destruct (running _); [|discriminate Hs].
  injection Hs as <-. unfold call_op in H. destruct o; simpl in H; rewrite upd_same in H; simpl in H; destruct H as [H|[o1 H]]; discriminate H.
Qed.

(** notify_all leaves nobody blocked. *)
Lemma notify_all_wakes (s : state) i k' q' g : Inv s -> notify_all (kn s) (queues s i) = (k', q') -> bq s i g -> xrunnable (fib k' g).
Proof.
  intros I E B. destruct (snotify_all_inv i _ _ _ _ _ _ (i_ki _ I) eq_refl E) as (_ & _ & _ & _ & H & _).
  destruct (H g (bq_live _ _ _ I B)) as [_ ->]. now right.
Qed.

Lemma closing_own (s : state) x s' : step s (LRun x) = Some s' -> closing (pcs s x) = true ->
  closing (pcs s' x) = true \/ (lkC s = None /\ pcs s x = X4 /\ kn s' = fst (notify_all (kn s) (queues s 1))).
Proof.
  intros Hs H. destruct (pcs s x) eqn:Ep; simpl in H; try discriminate H; runcases Hs Ep Er; rewrite ?Ep; auto.
Qed.
Lemma closing3_own (s : state) x s' : step s (LRun x) = Some s' -> closing3 (pcs s x) = true ->
  closing3 (pcs s' x) = true \/ (lkP s = None /\ pcs s x = X3 /\ kn s' = fst (notify_all (kn s) (queues s 0))).
Proof.
  intros Hs H. destruct (pcs s x) eqn:Ep; simpl in H; try discriminate H; runcases Hs Ep Er; rewrite ?Ep; auto.
Qed.

Lemma di_step (s : state) l s' : Inv s -> DI s -> step s l = Some s' -> DI s'.
Proof.
  intros I [A B] Hs. constructor; intros Cl g H.
  - destruct (closed_new _ _ _ Hs Cl) as [Cl0|[x X]]; [|exists x; now rewrite X].
    assert (P : bq s 1 g \/ hasC (pcs s g) = true).
    { destruct (lrun_dec l g) as [->|N].
      - destruct H as [[H1 H2]|H].
        + destruct (own_block _ _ _ _ I Hs H2) as [(_ & o & X & _)|(X & _)]; [|discriminate X]. right. now rewrite X.
        + pose proof (own_hold _ _ _ Hs (or_introl H)). congruence.
      - destruct H as [[H1 H2]|H].
        + destruct (blocked_before _ _ _ _ I Hs N H1) as (X & Y & _). left. split; auto. now rewrite <- Y.
        + right. rewrite <- (hold_before _ _ _ _ Hs N (or_introl H)). auto. }
    destruct (A Cl0 g P) as [x X]. destruct (lrun_dec l x) as [->|N].
    + destruct (closing_own _ _ _ Hs X) as [Y|(Y1 & Y2 & Y3)]; [eauto|]. exfalso.
      assert (Ngx : g <> x).
      { intros ->. destruct H as [[_ (e & H)]|H]; destruct P as [[_ (e' & P)]|P]; rewrite Y2 in P; simpl in P;
          try destruct P as [P|(? & P)]; discriminate P. }
      destruct P as [P|P].
      * destruct H as [[H _]|H].
        -- destruct (notify_all (kn s) (queues s 1)) as [k q] eqn:E. simpl in Y3. rewrite Y3 in H.
           eapply not_both; [eapply notify_all_wakes; eauto|auto].
        -- rewrite (hold_before _ _ _ g Hs) in H; auto; [|congruence]. destruct P as [_ (e & P)].
           destruct (pcs s g); simpl in H, P; try discriminate H. destruct P as [P|(? & P)]; discriminate P.
      * apply (i_lkC _ I) in P. congruence.
    + exists x. rewrite (proj1 (keep _ _ _ x Hs ltac:(destruct (pcs s x); simpl in X; congruence) N)). auto.
  - destruct (closed_new _ _ _ Hs Cl) as [Cl0|[x X]]; [|exists x; now rewrite X].
    assert (P : bq s 0 g \/ exists o, pcs s g = PHold o).
    { destruct (lrun_dec l g) as [->|N].
      - destruct H as [[H1 H2]|H].
        + destruct (own_block _ _ _ _ I Hs H2) as [(X & _)|(_ & o & X & _)]; [discriminate X|]. right. eauto.
        + pose proof (own_hold _ _ _ Hs (or_intror H)). congruence.
      - destruct H as [[H1 H2]|H].
        + destruct (blocked_before _ _ _ _ I Hs N H1) as (X & Y & _). left. split; auto. now rewrite <- Y.
        + right. rewrite <- (hold_before _ _ _ _ Hs N (or_intror H)). auto. }
    destruct (B Cl0 g P) as [x X]. destruct (lrun_dec l x) as [->|N].
    + destruct (closing3_own _ _ _ Hs X) as [Y|(Y1 & Y2 & Y3)]; [eauto|]. exfalso.
      assert (Ngx : g <> x).
      { intros ->. destruct P as [[_ (e' & P)]|[o P]]; rewrite Y2 in P; simpl in P;
          try destruct P as [P|(? & P)]; discriminate P. }
      destruct P as [P|[o P]].
      * destruct H as [[H _]|[o H]].
        -- destruct (notify_all (kn s) (queues s 0)) as [k q] eqn:E. simpl in Y3. rewrite Y3 in H.
           eapply not_both; [eapply notify_all_wakes; eauto|auto].
        -- rewrite (hold_before _ _ _ g Hs) in H; eauto; [|congruence]. destruct P as [_ (e & P)].
           rewrite H in P. simpl in P. destruct P as [P|(? & P)]; discriminate P.
      * assert (Q : hasP (pcs s g) = true) by now rewrite P. apply (i_lkP _ I) in Q. congruence.
    + exists x. rewrite (proj1 (keep _ _ _ x Hs ltac:(destruct (pcs s x); simpl in X; congruence) N)). auto.
Qed.

(** Slots are not read after the end of their push call if nothing is closed and no push times out. *)
Definition UI (s : state) : Prop := never_closed (log s) -> no_push_timeout (log s) -> ub s = false /\
  forall p, slot s = Some p \/ (exists c, holds (pcs s c) = Some p) -> post (pcs s (fst p)) = true /\ snd p = calls s (fst p).

Lemma offer_back (s : state) l s' p0 : step s l = Some s' -> slot s' = Some p0 \/ (exists c, holds (pcs s' c) = Some p0) ->
  (slot s = Some p0 \/ exists c, holds (pcs s c) = Some p0) \/
  (exists o e r, l = LRun (fst p0) /\ pcs s' (fst p0) = PNotify o e /\ frames s (fst p0) = Some r /\ snd p0 = call r).
Proof.
  intros Hs H.
  assert (K : forall f p, holds p = None \/ holds p = holds (pcs s f) -> (exists c, holds (upd (pcs s) f p c) = Some p0) -> exists c, holds (pcs s c) = Some p0).
  { intros f p Hp (c & X). destruct (Nat.eq_dec c f) as [->|N].
    - rewrite upd_same in X. destruct Hp as [Hp|Hp]; rewrite Hp in X; [discriminate X|eauto].
    - rewrite upd_other in X by auto. eauto. }
  stepcases Hs; auto; destruct H as [H|H]; try discriminate H; try (left; left; congruence).
  all: try (left; right; refine (K f _ _ H); rewrite ?Ep; simpl; auto; fail).
  - right. inversion H; subst. simpl. rewrite upd_same. eauto 10.
  - destruct H as (c & H). destruct (Nat.eq_dec c f) as [->|N].
    + rewrite upd_same in H. simpl in H. auto.
    + rewrite upd_other in H by auto. eauto.
Qed.

Lemma ub_step (s : state) l s' : step s l = Some s' -> ub s' = true -> exists c p, (holds (pcs s c) = Some p \/ pcs s c = X2 p) /\ deref s p = None.
Proof.
  intros Hs. stepcases Hs; intros E; try congruence.
  - exists f, p. rewrite Ep. auto.
  - exists f, p. rewrite Ep. auto.
  - exists f, p. rewrite Ep. auto.
Qed.

Lemma post_own (s : state) g s' : step s (LRun g) = Some s' -> post (pcs s g) = true ->
  (calls s' g = calls s g /\ post (pcs s' g) = true) \/
  (running (fib (kn s) g) = true /\ exists o e, pcs s g = PSusp o e) \/ (exists o, pcs s g = PDone o) \/
  (exists o t, pcs s g = PClear o /\ log s' = ERet g o (RStatus Timeout) t :: log s).
Proof.
  intros Hs H. destruct (pcs s g) eqn:Ep; simpl in H; try discriminate H; runcases Hs Ep Er.
  all: first [ left; split; [reflexivity|rewrite ?upd_same, ?Ep; reflexivity]
             | right; left; split; [assumption|do 2 eexists; reflexivity]
             | right; right; left; eexists; reflexivity
             | right; right; right; do 2 eexists; split; reflexivity ].
Qed.

Lemma ui_step (s : state) l s' : All s -> UI s -> step s l = Some s' -> UI s'.
Proof.
  intros [I C W _] H Hs NC NT.
  assert (X : never_closed (log s) /\ no_push_timeout (log s)).
  { destruct (step_mono _ _ _ Hs) as (_ & _ & [E|[e E]]); rewrite E in NC, NT; auto.
    split; [intros f X; apply (NC f)|intros f v tp t X; apply (NT f v tp t)]; now right. }
  destruct X as [NC0 NT0]. destruct (H NC0 NT0) as [U P]. pose proof (live_open _ C NC0) as Cl. split.
  - destruct (ub s') eqn:E; auto. destruct (ub_step _ _ _ Hs E) as (c & p & [Q|Q] & D).
    + destruct (P p) as [P1 P2]; eauto. pose proof (i_fr _ I (fst p)) as F. unfold deref in D. destruct (frames s (fst p)) as [r|].
      * destruct F as (_ & F & _). rewrite F, P2, Nat.eqb_refl in D. discriminate D.
      * unfold isP in F. rewrite P1, orb_true_r in F. discriminate F.
    + rewrite (cl_closing _ C c) in Cl; [discriminate Cl|now rewrite Q].
  - intros p Hp. destruct (offer_back _ _ _ _ Hs Hp) as [Q|(o & e & r & -> & Q1 & Q2 & Q3)].
    + destruct (P p Q) as [P1 P2]. destruct (lrun_dec l (fst p)) as [->|N].
      * assert (ND : ~ done s (fst p, calls s (fst p))).
        { rewrite <- P2. destruct p as [g n]. simpl in *. intros [D1 D2]. destruct Q as [Q|[c Q]]; [|now apply D2 in Q].
          now apply (t_slot _ (i_tok _ I)) in Q. }
        destruct (post_own _ _ _ Hs P1) as [[R1 R2]|[(R1 & o & e & R2)|[[o R]|(o & t & R1 & R2)]]].
        -- split; auto. congruence.
        -- exfalso. destruct (w_pub _ _ W (fst p) e) as [D|[D|(o2 & tp & D & _)]]; try congruence.
           ++ now rewrite R2.
           ++ destruct (sinv_slot_done _ _ _ (fst p) e (i_ki _ I) R1) as [E _]; [simpl; rewrite R2; simpl; auto|]. lia.
        -- exfalso. destruct (w_done _ _ W _ _ R) as [D|D]; auto. congruence.
        -- exfalso. destruct (w_clear _ _ W _ _ R1) as (v & tp & -> & _). rewrite R2 in NT. eapply NT. now left.
      * destruct (keep _ _ _ (fst p) Hs) as [K1 K2]; auto; [destruct (pcs s (fst p)); simpl in P1; congruence|]. rewrite K1, K2. auto.
    + rewrite Q1. split; auto. destruct (own_step _ _ _ I Hs) as [O _]. rewrite O, Q3.
      pose proof (i_fr _ I (fst p)) as F. rewrite Q2 in F. intuition.
Qed.
End Proofs.
