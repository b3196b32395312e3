From Coq Require Import List Arith Bool Lia.
From Verif Require Import Base Kernel KernelFacts WakeFacts SlotFacts Unbuffered UnbufferedSpec UnbufferedProofs UnbufferedProofs2 UnbufferedProofs3 UnbufferedProofs4 UnbufferedProofs5 UnbufferedProofs6 UnbufferedProofs7 UnbufferedProofs8 UnbufferedProofs9 UnbufferedProofs10 UnbufferedProofs11.
Import ListNotations.

Section Proofs.
Context {V : Type}.
Notation state := (state V). Notation pc := (pc V). Notation op := (op V). Notation event := (event V).

Lemma npush_app (h2 h1 : list event) f : npush h1 f <= npush (h2 ++ h1) f.
Proof.
  induction h2 as [|e h2 IH]; simpl; auto. destruct e as [g []|g o r t|c p x]; auto; destruct (Nat.eqb g f); lia.
Qed.
Lemma npush_call (h2 h1 : list event) f o : is_push o -> S (npush h1 f) <= npush (h2 ++ ECall f o :: h1) f.
Proof.
  intros P. eapply Nat.le_trans; [|apply npush_app]. destruct o; simpl in *; try contradiction; rewrite Nat.eqb_refl; auto.
Qed.
(** After a return, a push call is in progress only if a later push was called. *)
Lemma late_pending (h2 h1 : list event) f o r t : npush (h2 ++ ERet f o r t :: h1) f = npush h1 f ->
  forall o', pending (h2 ++ ERet f o r t :: h1) f = Some o' -> ~ is_push o'.
Proof.
  induction h2 as [|e h2 IH]; simpl; intros N o' P.
  - rewrite Nat.eqb_refl in P. discriminate P.
  - pose proof (npush_app h2 (ERet f o r t :: h1) f) as M. simpl in M.
    destruct e as [g o1|g o1 r1 t1|c p x]; simpl in *.
    + destruct (Nat.eqb_spec g f).
      * inversion P; subst. destruct o'; simpl; auto; lia.
      * apply IH; auto. destruct o1; auto.
    + destruct (Nat.eqb_spec g f); [discriminate P|]. apply IH; auto.
    + apply IH; auto.
Qed.

Definition LateI (s : state) : Prop := forall h2 h1 f o r t, log s = h2 ++ ERet f o r t :: h1 -> is_push o -> ~ In (f, npush h1 f) (consumed h2).

Lemma xfer_step (s : state) l s' c p0 x0 : step s l = Some s' -> log s' = EXfer c p0 x0 :: log s -> exists r, deref s p0 = Some r.
Proof.
  intros Hs. stepcases Hs; intros E; try discriminate E; try (exfalso; revert E; clear; intros E; apply (f_equal (@length _)) in E; simpl in E; lia).
  inversion E; subst. eauto.
Qed.

Lemma isP_push (p : pc) : wf p -> isP p = true -> exists o, op_of p = Some o /\ is_push o.
Proof.
  destruct p; simpl; intros W H; try discriminate H; eauto; try (destruct W as [v ->]; eexists; split; [reflexivity|exact I]); destruct W as (v & tp & ->); eexists; split; try reflexivity; exact I.
Qed.

Lemma late_step (s : state) l s' : Inv s -> LateI s -> step s l = Some s' -> LateI s'.
Proof.
  intros I H Hs. destruct (step_mono _ _ _ Hs) as (_ & _ & [E|[e E]]); unfold LateI; rewrite E; auto.
  intros h2 h1 f o r t E1 P. destruct h2 as [|e' h2]; simpl in E1; inversion E1; subst.
  - simpl. auto.
  - specialize (H _ _ _ _ _ _ H2 P). destruct e' as [g o1|g o1 r1 t1|c p x]; simpl; auto.
    intros [X|X]; auto. subst p. destruct (xfer_step _ _ _ _ _ _ Hs E) as [rr D].
    destruct (deref_alive _ _ _ _ (i_fr _ I) D) as (_ & D1 & D2 & _).
    destruct (isP_push _ (i_wf _ I f) D2) as (o' & D3 & D4).
    rewrite (i_calls _ I) in D1. rewrite <- (i_pend _ I) in D3. rewrite H2 in D1, D3. eapply late_pending; eauto.
Qed.

(** A push called after close() has returned never publishes its slot. *)
Definition AcI (s : state) : Prop := forall h2 h1 f o, log s = h2 ++ ECall f o :: h1 -> is_push o -> was_closed h1 ->
  ~ named s (f, S (npush h1 f)) /\ (calls s f = S (npush h1 f) -> (exists o', pcs s f = PTop o') \/ isP (pcs s f) = false).

Lemma top_own (s : state) f s' o : step s (LRun f) = Some s' -> pcs s f = PTop o -> closed s = true -> pcs s' f = Idle.
Proof. intros Hs Ep Cl. runcases Hs Ep Er; auto. discriminate Cl. Qed.

Lemma isP_own (s : state) f s' : step s (LRun f) = Some s' -> isP (pcs s f) = false -> isP (pcs s' f) = false.
Proof.
  intros Hs H. destruct (pcs s f) eqn:Ep; try discriminate H; runcases Hs Ep Er; rewrite ?Ep; auto.
Qed.

Lemma call_label (s : state) l s' c o0 : step s l = Some s' -> log s' = ECall c o0 :: log s -> l = LCall c o0.
Proof.
  intros Hs. stepcases Hs; intros E; try discriminate E; try (exfalso; revert E; clear; intros E; apply (f_equal (@length _)) in E; simpl in E; lia);
    inversion E; subst; auto.
Qed.

Lemma ac_step (s : state) l s' : Inv s -> ClI s -> AcI s -> step s l = Some s' -> AcI s'.
Proof.
  intros I C H Hs h2 h1 f o E P Wc. destruct (step_mono _ _ _ Hs) as (_ & _ & X).
  assert (Old : forall h2, log s = h2 ++ ECall f o :: h1 ->
    ~ named s' (f, S (npush h1 f)) /\ (calls s' f = S (npush h1 f) -> (exists o', pcs s' f = PTop o') \/ isP (pcs s' f) = false)).
  { clear h2 E X. intros h2 E. destruct (H _ _ _ _ E P Wc) as [A B]. split.
    - intros N. destruct (named_step _ _ _ _ Hs N) as [N0|(g & o1 & r & N1 & N2 & N3 & _)]; auto.
      inversion N3; subst g. pose proof (i_fr _ I f) as F. rewrite N2, N1 in F. destruct F as (_ & F & _).
      destruct B as [[o' B]|B]; [congruence|congruence|]. rewrite N1 in B. discriminate B.
    - intros Ec. assert (Cl : closed s = true).
      { apply (cl_was _ C). destruct Wc as (g & t & Wc). exists g, t. rewrite E. apply in_or_app. right. now right. }
      assert (M : S (npush h1 f) <= calls s f).
      { rewrite (i_calls _ I), E. now apply npush_call. }
      assert (Ec0 : calls s f = S (npush h1 f)) by (destruct (pre_step _ _ _ f Hs) as [[X _]|X]; lia).
      destruct (lrun_dec l f) as [->|N].
      + destruct (B Ec0) as [[o' B']|B'].
        * right. now rewrite (top_own _ _ _ _ Hs B' Cl).
        * right. eapply isP_own; eauto.
      + destruct l as [kl|g o1|g|g|g]; try (destruct (other_step _ _ _ f Hs N) as [O _]; [intros ? ?; discriminate|]; rewrite O; auto; fail).
        destruct (Nat.eq_dec g f) as [->|Nf].
        * unfold step in Hs. destruct (ub s); [discriminate Hs|]. destruct (pcs s f) eqn:Ep; try discriminate Hs. destruct (running _); [|discriminate Hs].
          injection Hs as <-. unfold call_op in *. destruct o1; simpl in *; rewrite ?upd_same in *; simpl; eauto; lia.
        * destruct (other_step _ _ _ f Hs N) as [O _]; [congruence|]. rewrite O; auto. }
  destruct X as [X|[e X]].
  - apply (Old h2). congruence.
  - rewrite X in E. destruct h2 as [|e' h2]; simpl in E; inversion E; subst; [|eapply Old; eauto].
    clear Old E.
    assert (L : l = LCall f o) by (eapply call_label; eauto).
    subst l. destruct (call_idle _ _ _ _ Hs) as (Ei & _). split.
    + intros N. destruct (named_step _ _ _ _ Hs N) as [N0|(g & o1 & r & N1 & N2 & N3 & _)].
      * apply (i_off _ I) in N0. rewrite (i_calls _ I) in N0. lia.
      * inversion N3; subst g. congruence.
    + intros _. left. unfold step in Hs. destruct (ub s); [discriminate Hs|]. rewrite Ei in Hs. destruct (running _); [|discriminate Hs].
      injection Hs as <-. unfold call_op. destruct o; simpl in P; try contradiction; simpl; rewrite upd_same; eauto.
Qed.

(** The assertion in wait_until. *)
Definition AsI (s : state) : Prop := (forall f v tp, ~ In (ECall f (PushUntil v tp)) (log s)) -> asrt s = false.
Lemma as_step (s : state) l s' : Inv s -> AsI s -> step s l = Some s' -> AsI s'.
Proof.
  intros I H Hs N.
  assert (N0 : forall f v tp, ~ In (ECall f (PushUntil v tp)) (log s)).
  { intros f v tp X. apply (N f v tp). destruct (step_mono _ _ _ Hs) as (_ & _ & [E|[e E]]); rewrite E; auto. now right. }
  specialize (H N0).
  assert (D : forall f o e tp, pcs s f = PNotify o e -> deadline o = Some tp -> False).
  { intros f o e tp P Q. pose proof (i_wf _ I f) as W. rewrite P in W. destruct o; simpl in *; try contradiction; try discriminate.
    eapply N0. apply pending_call. rewrite (i_pend _ I), P. reflexivity. }
  clear I N N0. revert H. stepcases Hs; auto. exfalso. eauto.
Qed.

Record All2 (s : state) : Prop := {
  b_all : All s;
  b_ai : AI s;
  b_bi : BI s;
  b_di : DI s;
  b_ui : UI s;
  b_late : LateI s;
  b_ac : AcI s;
  b_as : AsI s
}.
Lemma all2_reach (s : state) : reachable step init s -> All2 s.
Proof.
  intros R. pose proof (all_reach s R) as A.
  assert (X : AI s /\ BI s /\ DI s /\ UI s /\ LateI s /\ AcI s /\ AsI s).
  { revert s R A. refine (fun s R A => _). clear A. revert s R. apply reachable_inv2.
    - splits.
      + intros _ p g E. discriminate E.
      + intros _ g [[_ B] _]. discriminate B.
      + constructor; intros E; discriminate E.
      + intros _ _. split; auto. intros p [E|[c E]]; discriminate E.
      + intros [|e h2] h1 f o r t E; discriminate E.
      + intros [|e h2] h1 f o E; discriminate E.
      + intros _. reflexivity.
    - intros s l s' R (A & B & C & D & E & F & G) Hs. pose proof (all_reach s R) as [I Cl W L]. splits.
      + eapply ai_step; eauto.
      + eapply bi_step; eauto.
      + eapply di_step; eauto.
      + eapply ui_step; eauto. constructor; auto.
      + eapply late_step; eauto.
      + eapply ac_step; eauto.
      + eapply as_step; eauto. }
  constructor; try apply X; auto.
Qed.
End Proofs.
