From Coq Require Import List Arith Bool Lia.
From Verif Require Import Base Kernel KernelFacts WakeFacts SlotFacts Unbuffered UnbufferedSpec UnbufferedProofs UnbufferedProofs2 UnbufferedProofs3 UnbufferedProofs4 UnbufferedProofs5 UnbufferedProofs6.
Import ListNotations.

Section Proofs.
Context {V : Type}.
Notation state := (state V). Notation pc := (pc V). Notation op := (op V). Notation event := (event V).

(** The push call [p] has been served: its value was taken and its fiber was woken. *)
Definition done (s : state) (p : sptr) : Prop := In p (consumed (log s)) /\ forall c, holds (pcs s c) <> Some p.

Lemma done_step (s : state) l s' p0 : TokI s -> done s p0 -> step s l = Some s' -> done s' p0.
Proof.
  intros T [A B] Hs. pose proof (t_slot _ T) as T1. clear T.
  stepcases Hs; (split; [first [exact A|right; exact A]|]); try exact B;
    intros c; simpl; (destruct (Nat.eq_dec c f) as [->|N]; [rewrite upd_same|rewrite upd_other by auto; apply B]); simpl; try discriminate.
  all: try (specialize (B f); rewrite Ep in B; exact B).
  intros E. inversion E; subst. now apply (proj1 (T1 _ eq_refl)).
Qed.

(** [T]: values that nobody will take any more (none, except in UnbufThrow.v). *)
Record WokI (T : sptr -> Prop) (s : state) : Prop := {
  w_pub : forall f e, epub (pcs s f) = Some e -> epoch (fib (kn s) f) <> e ->
    done s (f, calls s f) \/ closed s = true \/ (exists o tp, pcs s f = PSuspT o tp e /\ tp <= now (kn s));
  w_done : forall f o, pcs s f = PDone o -> done s (f, calls s f) \/ closed s = true;
  w_clear : forall f o, pcs s f = PClear o -> exists v tp, o = PushUntil v tp /\ tp <= now (kn s);
  w_offer : forall f e, epub (pcs s f) = Some e -> epoch (fib (kn s) f) = e ->
    (slot s = Some (f, calls s f) \/ exists c, holds (pcs s c) = Some (f, calls s f)) \/ T (f, calls s f)
}.

(** The steps of a fiber that change its own place in push. *)
Lemma own_step (s : state) f s' : Inv s -> step s (LRun f) = Some s' ->
  calls s' f = calls s f /\
  match pcs s' f with
  | PNotify o e => slot s' = Some (f, calls s f) /\ epoch (fib (kn s') f) = e
  | PSusp o e => pcs s f = PNotify o e /\ epoch (fib (kn s') f) = epoch (fib (kn s) f)
  | PSuspT o tp e => pcs s f = PNotify o e /\ epoch (fib (kn s') f) = epoch (fib (kn s) f)
  | PDone o => exists tp e, pcs s f = PSuspT o tp e /\ epoch (fib (kn s) f) <> e /\ now (kn s) < tp
  | PClear o => exists tp e, pcs s f = PSuspT o tp e /\ tp <= now (kn s) /\ now (kn s') = now (kn s)
  | _ => True
  end.
Proof.
  intros I Hs. pose proof (i_fr _ I f) as F.
  assert (N1 : forall o e k' q', pcs s f = PNotify o e -> notify_one (kn s) (queues s 1) = (k', q') -> fib k' f = fib (kn s) f).
  { intros o e k' q' E En. refine (pub_notify_one _ _ (fun f => sst (pcs s f)) _ _ e _ _ (i_ki _ I) _ En).
    apply epub_publishes. now rewrite E. }
  assert (D : forall e, pcs s f = pcs s f -> running (fib (kn s) f) = true -> (sst (pcs s f) = SSlot e \/ exists tp, sst (pcs s f) = SSlotT tp e) -> epoch (fib (kn s) f) = S e).
  { intros e _ R X. exact (proj1 (sinv_slot_done _ _ _ f e (i_ki _ I) R X)). }
  clear I. unfold step in Hs. destruct (ub s); [discriminate Hs|]. destruct (running (fib (kn s) f)) eqn:Er; [|discriminate Hs].
  unfold run_step in Hs. destruct (pcs s f) eqn:Ep; try discriminate Hs; unfold try_push, blockP, blockC, notify1, notifyA in Hs.
  all: repeat match type of Hs with
    | context [match ?x with _ => _ end] => match x with
       | lkP ?s => destruct (lkP s); try discriminate Hs
       | lkC ?s => destruct (lkC s); try discriminate Hs
       | frames _ _ => destruct x eqn:Efr; try discriminate Hs
       | _ => destruct x eqn:?
       end
    end; inj Hs; unf; simpl; rewrite ?upd_same; simpl; auto.
  all: try (split; [reflexivity|]); auto.
  - destruct F as (_ & F & _). rewrite F. split; auto.
    match goal with H : create_waker _ _ = _ |- _ => exact (proj2 (proj2 (emono_create _ _ _ _ H))) end.
  - split; auto. erewrite N1; eauto.
  - split; auto. erewrite N1; eauto.
  - exists tp, e. splits; auto; [rewrite (D e) by (simpl; eauto); lia|]. match goal with H : wait_until_result _ _ = _ |- _ => apply Nat.ltb_lt; exact H end.
  - exists tp, e. splits; auto. match goal with H : wait_until_result _ _ = _ |- _ => apply Nat.ltb_ge; exact H end.
  - rewrite Ep. auto.
  - rewrite Ep. auto.
  - rewrite Ep. auto.
Qed.

(** The steps of other fibers and of the kernel. *)
Lemma other_step (s : state) l s' g : step s l = Some s' -> l <> LRun g -> (forall o, l <> LCall g o) ->
  pcs s' g = pcs s g /\ calls s' g = calls s g.
Proof.
  intros Hs A B. stepcases Hs; auto.
  all: try (assert (Hne : g <> f) by congruence).
  all: try rewrite !(upd_other _ f _ g Hne); auto.
Qed.

(** Where a published slot goes. *)
Lemma offer_keep (s : state) l s' p0 : FrI s -> step s l = Some s' ->
  slot s = Some p0 \/ (exists c, holds (pcs s c) = Some p0) ->
  slot s' = Some p0 \/ (exists c, holds (pcs s' c) = Some p0) \/
  (exists c o x r, pcs s c = CWake o p0 x /\ deref s p0 = Some r /\ kn s' = fst (wake (kn s) (fst p0, we r))) \/
  (exists o, pcs s (fst p0) = PClear o).
Proof.
  intros F Hs H.
  assert (K : forall f p, match holds (pcs s f) with Some p => p <> p0 | None => True end ->
    slot s = Some p0 \/ (exists c, holds (upd (pcs s) f p c) = Some p0)).
  { intros f p Hf. destruct H as [H|(c & H)]; auto. right. exists c. rewrite upd_other; auto. intros ->. rewrite H in Hf. auto. }
  assert (Kp : forall f p p', holds (pcs s f) = Some p -> holds p' = Some p -> slot s = Some p0 \/ (exists c, holds (upd (pcs s) f p' c) = Some p0)).
  { intros f p p' Hf Hp. destruct H as [H|(c & H)]; auto. right. exists c. destruct (Nat.eq_dec c f) as [->|N].
    - rewrite upd_same. congruence.
    - now rewrite upd_other. }
  stepcases Hs.
  all: try (destruct H as [H|H]; [left; exact H|right; left; exact H]).
  all: try match goal with |- context [upd (pcs _) ?f ?q] =>
    destruct (K f q ltac:(rewrite Ep; exact I)) as [X|X]; [left; first [exact X|congruence]|right; left; exact X] end.
  all: try match goal with |- context [upd (pcs _) ?f ?q] =>
    destruct (Kp f _ q ltac:(rewrite Ep; reflexivity) eq_refl) as [X|X]; [left; exact X|right; left; exact X] end.
  - destruct (K f Idle ltac:(rewrite Ep; exact I)) as [X|X]; [|right; left; exact X].
    inversion X; subst. right; right; right. unfold waker_eqb in Ewe. apply andb_true_iff in Ewe. destruct Ewe as [W _].
    apply Nat.eqb_eq in W. simpl in W. rewrite W. eauto.
  - destruct (K f (CNotify o s0) ltac:(rewrite Ep; exact I)) as [X|X]; right; left; [|exact X].
    exists f. rewrite upd_same. exact X.
  - destruct H as [H|(c & H)]; auto. destruct (Nat.eq_dec c f) as [->|N].
    + rewrite Ep in H. simpl in H. inversion H; subst. right; right; left. exists f, o, x, s0. auto.
    + right; left. exists c. now rewrite upd_other.
Qed.

Lemma wok_step T (s : state) l s' : Inv s -> ClI s -> WokI T s -> step s l = Some s' -> WokI T s'.
Proof.
  intros I C [A B E D] Hs. pose proof (step_mono _ _ _ Hs) as (M1 & M2 & _).
  assert (DS : forall p, done s p -> done s' p) by (intros p Hp; eapply done_step; eauto; apply I).
  assert (LC : forall g o, l = LCall g o -> epub (pcs s' g) = None /\ (forall o, pcs s' g <> PDone o) /\ (forall o, pcs s' g <> PClear o)).
  { intros g o ->. unfold step in Hs. destruct (ub s); [discriminate Hs|]. destruct (pcs s g); try discriminate Hs.
    destruct (running _); [|discriminate Hs]. injection Hs as <-. unfold call_op. destruct o; simpl; rewrite upd_same; simpl; splits; auto; discriminate. }
  assert (Dec : forall g, l = LRun g \/ (exists o, l = LCall g o) \/ (l <> LRun g /\ forall o, l <> LCall g o)).
  { intros g. destruct l as [kl|f o|f|f|f]; try (right; right; split; intros; discriminate).
    - destruct (Nat.eq_dec f g) as [->|N]; [eauto|]. right; right. split; intros; congruence.
    - destruct (Nat.eq_dec f g) as [->|N]; [eauto|]. right; right. split; intros; congruence. }
  constructor.
  - intros g e He Hn. destruct (Dec g) as [->|[(o & ->)|[Hl Hc]]].
    + destruct (own_step _ _ _ I Hs) as [O1 O2]. rewrite O1.
      destruct (pcs s' g) eqn:Ep; simpl in He; try discriminate He; inversion He; subst.
      * now destruct O2.
      * destruct O2 as [O2 O3]. destruct (A g e) as [X|[X|(o1 & tp1 & X & _)]]; auto; try (rewrite O2; auto); congruence.
      * destruct O2 as [O2 O3]. destruct (A g e) as [X|[X|(o1 & tp1 & X & _)]]; auto; try (rewrite O2; auto); congruence.
    + destruct (LC _ _ eq_refl) as [X _]. congruence.
    + destruct (other_step _ _ _ g Hs Hl Hc) as [O1 O2]. rewrite O1 in He |- *. rewrite O2.
      destruct (pub_epoch _ _ _ g e (i_ki _ I) (i_fr _ I) (i_off _ I) Hs He Hl) as (_ & _ & [P|[P|[P|P]]]).
      * rewrite P in Hn. destruct (A g e He Hn) as [X|[X|(o1 & tp1 & X & Y)]]; auto. right; right. exists o1, tp1. split; auto. lia.
      * destruct P as (kl & -> & P & _). destruct (Nat.eq_dec (epoch (fib (kn s) g)) e) as [Eq|Ne].
        -- destruct (kstep_epoch _ _ _ g P) as [X|(_ & (tp & X1 & X2) & _ & _ & _ & X3 & _)]; [congruence|].
           pose proof (si_f _ _ _ (i_ki _ I) g) as S. unfold sfok in S. rewrite X1 in S.
           destruct (pcs s g) eqn:Ep; simpl in He; try discriminate He; inversion He; subst; simpl in S.
           ++ destruct S as (_ & _ & _ & S & _). discriminate S.
           ++ destruct S as (_ & _ & S & _). discriminate S.
           ++ right; right. exists o, tp0. split; auto. destruct S as (_ & _ & [(_ & S & S')|(_ & S & S')]); [|lia]. inversion S'; subst. lia.
        -- destruct (A g e He Ne) as [X|[X|(o1 & tp1 & X & Y)]]; auto. right; right. exists o1, tp1. split; auto. lia.
      * destruct P as (c & o & x & r & -> & P1 & P2 & P3 & P4). left. pose proof (t_wake _ (i_tok _ I) _ _ _ _ P1) as TW.
        split.
        -- destruct (step_mono _ _ _ Hs) as (_ & _ & [L|[ev L]]); rewrite L; auto. destruct ev; simpl; auto.
        -- intros d. rewrite P2. destruct (Nat.eq_dec d c) as [->|N]; [rewrite upd_same; discriminate|].
           rewrite upd_other by auto. intros Hd. apply N. apply (t_uniq _ (i_tok _ I) d c (g, calls s g)); auto. now rewrite P1.
      * destruct P as (c & r & -> & P1 & _). right; left. apply M1. apply (cl_closing _ C c). now rewrite P1.
  - intros g o Hp. destruct (Dec g) as [->|[(o' & ->)|[Hl Hc]]].
    + destruct (own_step _ _ _ I Hs) as [O1 O2]. rewrite O1. rewrite Hp in O2. destruct O2 as (tp & e & O2 & O3 & O4).
      destruct (A g e) as [X|[X|(o1 & tp1 & X & Y)]]; auto; [now rewrite O2|]. rewrite O2 in X. inversion X; subst. lia.
    + destruct (LC _ _ eq_refl) as (_ & X & _). now apply X in Hp.
    + destruct (other_step _ _ _ g Hs Hl Hc) as [O1 O2]. rewrite O1 in Hp. rewrite O2. destruct (B _ _ Hp); auto.
  - intros g o Hp. destruct (Dec g) as [->|[(o' & ->)|[Hl Hc]]].
    + destruct (own_step _ _ _ I Hs) as [O1 O2]. rewrite Hp in O2. destruct O2 as (tp & e & O2 & O3 & O4).
      pose proof (i_wf _ I g) as W. rewrite O2 in W. destruct W as [v ->]. exists v, tp. split; auto. lia.
    + destruct (LC _ _ eq_refl) as (_ & _ & X). now apply X in Hp.
    + destruct (other_step _ _ _ g Hs Hl Hc) as [O1 O2]. rewrite O1 in Hp. destruct (E _ _ Hp) as (v & tp & -> & X). exists v, tp. split; auto. lia.
  - intros g e He Hn. destruct (Dec g) as [->|[(o & ->)|[Hl Hc]]].
    + destruct (own_step _ _ _ I Hs) as [O1 O2]. rewrite O1.
      assert (X : (slot s' = Some (g, calls s g)) \/ (exists o, pcs s g = PNotify o e) /\ epoch (fib (kn s) g) = e).
      { destruct (pcs s' g) eqn:Ep; simpl in He; try discriminate He; inversion He; subst; destruct O2; auto; right; split; eauto; congruence. }
      destruct X as [X|[[o X] Y]]; auto.
      destruct (D g e) as [DD|DD]; auto; [now rewrite X|].
      destruct (offer_keep _ _ _ (g, calls s g) (i_fr _ I) Hs) as [Z|[Z|[(c & o1 & x & r & Z1 & Z2 & Z3)|[o1 Z]]]]; auto.
      * exfalso. destruct (deref_alive _ _ _ _ (i_fr _ I) Z2) as (_ & _ & _ & Z4). rewrite X in Z4. specialize (Z4 e eq_refl).
        rewrite Z3, Z4 in Hn. simpl in Hn. rewrite <- Y in Hn at 1. rewrite wake_live in Hn by auto. simpl in Hn. rewrite upd_same in Hn. simpl in Hn. lia.
      * simpl in Z. congruence.
    + destruct (LC _ _ eq_refl) as [X _]. congruence.
    + destruct (other_step _ _ _ g Hs Hl Hc) as [O1 O2]. rewrite O1 in He. rewrite O2.
      assert (Y : epoch (fib (kn s) g) = e).
      { pose proof (emono_step _ _ _ Hs g) as M. pose proof (si_f _ _ _ (i_ki _ I) g) as S. unfold sfok in S.
        destruct (pcs s g); simpl in He; try discriminate He; inversion He; subst; simpl in S; lia. }
      destruct (D g e) as [DD|DD]; auto.
      destruct (offer_keep _ _ _ (g, calls s g) (i_fr _ I) Hs) as [Z|[Z|[(c & o1 & x & r & Z1 & Z2 & Z3)|[o1 Z]]]]; auto.
      * exfalso. destruct (deref_alive _ _ _ _ (i_fr _ I) Z2) as (_ & _ & _ & Z4). specialize (Z4 e He).
        rewrite Z3, Z4 in Hn. simpl in Hn. rewrite <- Y in Hn at 1. rewrite wake_live in Hn by auto. simpl in Hn. rewrite upd_same in Hn. simpl in Hn. lia.
      * simpl in Z. rewrite Z in He. discriminate He.
Qed.

End Proofs.
