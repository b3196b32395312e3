From Coq Require Import List Arith Bool Lia.
From Verif Require Import Base Kernel KernelFacts WakeFacts SlotFacts Unbuffered UnbufferedSpec UnbufferedProofs UnbufferedProofs2 UnbufferedProofs3 UnbufferedProofs4 UnbufferedProofs5.
Import ListNotations.

Section Proofs.
Context {V : Type}.
Notation state := (state V). Notation pc := (pc V). Notation op := (op V). Notation event := (event V).

Record Inv (s : state) : Prop := {
  i_wf : forall f, wf (pcs s f);
  i_pend : forall f, pending (log s) f = op_of (pcs s f);
  i_lkP : forall f, lkP s = Some f <-> hasP (pcs s f) = true;
  i_lkC : forall f, lkC s = Some f <-> hasC (pcs s f) = true;
  i_calls : forall f, calls s f = npush (log s) f;
  i_fr : FrI s;
  i_ki : KI s;
  i_st : StI s;
  i_off : OffI s;
  i_tok : TokI s;
  i_val : ValI s;
  i_xf : XfI s;
  i_got : GotI s
}.

Lemma inv_init : Inv init.
Proof.
  constructor.
  - intros f. exact I.
  - reflexivity.
  - intros f. split; discriminate.
  - intros f. split; discriminate.
  - reflexivity.
  - intros f. reflexivity.
  - apply sinv_init.
  - intros f r. simpl. discriminate.
  - intros f n [[]|[H|(c & [H|H])]]; discriminate H.
  - constructor; simpl; try discriminate. constructor.
  - intros f r. simpl. discriminate.
  - intros c p x [].
  - intros c. reflexivity.
Qed.

Lemma inv_step (s : state) l s' : Inv s -> step s l = Some s' -> Inv s'.
Proof.
  intros [] Hs. constructor.
  - eapply pc_wf; eauto.
  - eapply pend_step; eauto.
  - eapply lkP_step; eauto.
  - eapply lkC_step; eauto.
  - eapply calls_step; eauto.
  - eapply fr_step; eauto.
  - eapply ki_step; eauto.
  - eapply st_step; eauto.
  - eapply off_step; eauto.
  - eapply tok_step; eauto.
  - eapply val_step; eauto.
  - eapply xf_step; eauto.
  - eapply got_step; eauto.
Qed.

Lemma inv_reach (s : state) : reachable step init s -> Inv s.
Proof. apply reachable_inv; [apply inv_init|apply inv_step]. Qed.

Lemma step_mono (s : state) l s' : step s l = Some s' ->
  (closed s = true -> closed s' = true) /\ now (kn s) <= now (kn s') /\ (log s' = log s \/ exists e, log s' = e :: log s).
Proof.
  intros Hs.
  assert (N1 : forall i k' q', notify_one (kn s) (queues s i) = (k', q') -> now k' = now (kn s)).
  { intros i. generalize (kn s). induction (queues s i) as [|w q IH]; intros k k' q' E; unfold notify_one in E; fold notify_one in E.
    - now inversion E.
    - destruct (wake k w) as [k1 b] eqn:Ew. assert (now k1 = now k).
      { unfold wake in Ew. destruct w. destruct (Nat.eqb _ _); inversion Ew; auto. }
      destruct b; [inversion E; subst; auto|]. rewrite (IH _ _ _ E). auto. }
  assert (NA : forall i k' q', notify_all (kn s) (queues s i) = (k', q') -> now k' = now (kn s)).
  { intros i. generalize (kn s). induction (queues s i) as [|w q IH]; intros k k' q' E; unfold notify_all in E; fold notify_all in E.
    - now inversion E.
    - destruct (wake k w) as [k1 b] eqn:Ew. assert (now k1 = now k).
      { unfold wake in Ew. destruct w. destruct (Nat.eqb _ _); inversion Ew; auto. }
      rewrite (IH _ _ _ E). auto. }
  assert (W : forall k w, now (fst (wake k w)) = now k).
  { intros k [f e]. unfold wake. destruct (Nat.eqb _ _); auto. }
  assert (K : forall kl k', kstep (kn s) kl = Some k' -> now (kn s) <= now k').
  { intros kl k' E. destruct kl; unfold kstep in E.
    - destruct (thr (kn s) t); [discriminate E|]. destruct (queued (fib (kn s) f) && negb (running (fib (kn s) f))); [|discriminate E]. inversion E; simpl; lia.
    - destruct (thr (kn s) (home (fib (kn s) f))); [discriminate E|]. destruct (sleep (fib (kn s) f)) as [[a b]|]; [|discriminate E].
      destruct (Nat.leb a (now (kn s))); [|discriminate E]. inversion E; simpl. rewrite W. simpl. lia.
    - inversion E; simpl; lia. }
  stepcases Hs; (split; [first [now auto|congruence]|split; [|eauto]]); try apply le_n.
  all: try exact (K _ _ Ek); try (rewrite (N1 _ _ _ Eno); apply le_n); try (rewrite (NA _ _ _ Ena); apply le_n); try (rewrite W; apply le_n).
  all: try (unfold suspend, wait_until_begin, suspend, set_fib; simpl; rewrite (N1 _ _ _ Eno); apply le_n).
  all: try (unfold create_waker in Ecw; inversion Ecw; subst; apply le_n).
  all: unfold suspend_and_wait, suspend_and_wait_until, create_waker in Esw; inversion Esw; subst; apply le_n.
Qed.

Lemma pending_call (h : list event) f o : pending h f = Some o -> In (ECall f o) h.
Proof.
  induction h as [|[g o1|g o1 r t|c p x] h IH]; simpl; [discriminate| | |auto].
  - destruct (Nat.eqb_spec g f); [intros E; inversion E; subst; auto|auto].
  - destruct (Nat.eqb_spec g f); [discriminate|auto].
Qed.

(** close() *)
Record ClI (s : state) : Prop := {
  cl_closing : forall f, closing (pcs s f) = true -> closed s = true;
  cl_called : closed s = true -> exists f, In (ECall f Close) (log s);
  cl_was : was_closed (log s) -> closed s = true
}.

Lemma cl_step (s : state) l s' : Inv s -> ClI s -> step s l = Some s' -> ClI s'.
Proof.
  intros I [A B C] Hs. pose proof (i_pend _ I) as P.
  assert (B' : forall e, closed s = true -> exists f, In (ECall f Close) (e :: log s)).
  { intros e H. destruct (B H) as [f X]. exists f. now right. }
  assert (C' : forall e, (forall f t, e <> ERet f Close RVoid t) -> was_closed (e :: log s) -> closed s = true).
  { intros e N (f & t & [X|X]); [now apply N in X|]. apply C. exists f, t. auto. }
  pose proof (i_wf _ I) as W. clear I.
  stepcases Hs; try match type of Ecl with _ = false => rewrite <- Ecl in A, B, C, B', C' end; constructor; simpl; auto.
  all: try (intros g; destruct (Nat.eq_dec g f) as [->|N]; [rewrite upd_same|rewrite upd_other by auto; apply A]; simpl; try discriminate; auto; fail).
  all: try (apply C'; intros ? ?; try discriminate; specialize (W f); rewrite Ep in W; simpl in W; intros X; inversion X; subst; auto; fail).
  all: try (apply A with f; now rewrite Ep).
  all: try (intros ? _; apply A with f; now rewrite Ep).
  all: try (intros _; apply A with f; now rewrite Ep).
  intros _. exists f. apply pending_call. now rewrite P, Ep.
Qed.

End Proofs.
