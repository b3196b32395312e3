From Coq Require Import List Arith NArith Bool Lia.
From Verif Require Import Base Kernel KernelFacts WakeFacts Buffered BufferedSpec.
Import ListNotations.

(** ** The ring buffer *)
Section Ring.
Context {V : Type}.

Definition ring (cap : nat) (sl : nat -> option V) (ci pi : nat) (items : list V) : Prop :=
  ci < cap /\ length items <= cap - 1 /\ pi = (ci + length items) mod cap /\
  forall i v, nth_error items i = Some v -> sl ((ci + i) mod cap) = Some v.

Lemma mod_add_inj cap a i j : i < cap -> j < cap -> (a + i) mod cap = (a + j) mod cap -> i = j.
Proof.
  intros Hi Hj H.
  pose proof (Nat.div_mod (a + i) cap ltac:(lia)) as A. pose proof (Nat.div_mod (a + j) cap ltac:(lia)) as B.
  rewrite H in A. revert A B. generalize ((a + i) / cap) ((a + j) / cap). intros p q A B.
  assert (p = q \/ p < q \/ q < p) as [->|[X|X]] by lia.
  - lia.
  - assert (cap * q >= cap * p + cap) by nia. lia.
  - assert (cap * p >= cap * q + cap) by nia. lia.
Qed.

Lemma ring_empty cap sl ci pi items : 2 <= cap -> ring cap sl ci pi items ->
  (Nat.eqb ci pi = true <-> length items = 0).
Proof.
  intros Hc (A & B & -> & _). rewrite Nat.eqb_eq. split.
  - intros E. apply (mod_add_inj cap ci); try lia. rewrite <- E, Nat.add_0_r. symmetry. now apply Nat.mod_small.
  - intros ->. rewrite Nat.add_0_r. symmetry. now apply Nat.mod_small.
Qed.

Lemma ring_full cap sl ci pi items : 2 <= cap -> ring cap sl ci pi items ->
  (Nat.eqb ci ((pi + 1) mod cap) = true <-> length items = cap - 1).
Proof.
  intros Hc (A & B & -> & _). rewrite Nat.eqb_eq, Nat.add_mod_idemp_l by lia.
  rewrite <- Nat.add_assoc. split.
  - intros E. destruct (Nat.eq_dec (length items) (cap - 1)) as [|Hne]; auto. exfalso.
    assert (length items + 1 = 0) by (apply (mod_add_inj cap ci); try lia; rewrite <- E, Nat.add_0_r; symmetry; now apply Nat.mod_small).
    lia.
  - intros ->. replace (cap - 1 + 1) with (1 * cap) by lia. rewrite Nat.mod_add by lia. symmetry. now apply Nat.mod_small.
Qed.

Lemma ring_store cap sl ci pi items v : 2 <= cap -> ring cap sl ci pi items -> length items < cap - 1 ->
  ring cap (upd sl pi (Some v)) ci ((pi + 1) mod cap) (items ++ [v]).
Proof.
  intros Hc (A & B & -> & D) Hl. unfold ring. rewrite app_length. simpl. splits; auto; try lia.
  - rewrite Nat.add_mod_idemp_l by lia. f_equal. lia.
  - intros i w Hi. destruct (Nat.lt_ge_cases i (length items)) as [Hlt|Hge].
    + rewrite nth_error_app1 in Hi by auto. rewrite upd_other; auto.
      intros E. apply mod_add_inj in E; lia.
    + rewrite nth_error_app2 in Hi by auto. destruct (i - length items) as [|n] eqn:En; simpl in Hi.
      * inversion Hi; subst. replace i with (length items) by lia. apply upd_same.
      * now destruct n.
Qed.

Lemma ring_fetch cap sl ci pi v items : 2 <= cap -> ring cap sl ci pi (v :: items) ->
  sl ci = Some v /\ ring cap (upd sl ci None) ((ci + 1) mod cap) pi items.
Proof.
  intros Hc (A & B & C & D). simpl in B. split.
  - specialize (D 0 v eq_refl). rewrite Nat.add_0_r, Nat.mod_small in D by auto. exact D.
  - unfold ring. splits; try lia.
    + apply Nat.mod_upper_bound. lia.
    + rewrite C. simpl. rewrite Nat.add_mod_idemp_l by lia. f_equal. lia.
    + intros i w Hi. rewrite Nat.add_mod_idemp_l by lia.
      assert (i < length items) by (apply nth_error_Some; congruence).
      rewrite upd_other.
      * replace (ci + 1 + i) with (ci + S i) by lia. apply D. exact Hi.
      * intros E. assert (S i = 0); [|lia]. apply (mod_add_inj cap ci); try lia.
        rewrite Nat.add_0_r, (Nat.mod_small ci) by auto. rewrite <- E. f_equal. lia.
Qed.
End Ring.

Section Proofs.
Context {V : Type}.
Notation state := (state V). Notation pc := (pc V). Notation op := (op V). Notation event := (event V).

Definition wst (p : pc) : wstat :=
  match p with
  | Wait o e => WUntimed (queue_of o) e
  | WaitUntil o tp e => WTimed (queue_of o) tp e
  | Relock o tp e => WRelock (queue_of o) tp e
  | _ => WNone
  end.

Definition op_of (p : pc) : option op :=
  match p with Idle => None | Top o | Wait o _ | WaitUntil o _ _ | Relock o _ _ => Some o end.

Definition blocking (o : op) (i : nat) : Prop :=
  match o with Push _ | PushUntil _ _ => i = 0 | Pop | ValuePop | PopUntil _ => i = 1 | _ => False end.
Definition inq (p : pc) (i : nat) : Prop := exists o, op_of p = Some o /\ blocking o i.

Definition wf (p : pc) : Prop :=
  match p with
  | Idle | Top _ => True
  | Wait o _ => match o with Push _ | Pop | ValuePop => True | _ => False end
  | WaitUntil o tp _ | Relock o tp _ =>
      match o with PushUntil _ t | PopUntil t => t = tp | _ => False end
  end.

Definition enough (k : kern) (pcs : fid -> pc) (i n : nat) : Prop :=
  exists l, NoDup l /\ length l = n /\ forall g, In g l -> xrunnable (fib k g) /\ inq (pcs g) i.
Definition live (k : kern) (pcs : fid -> pc) (i n : nat) : Prop :=
  (exists f, xblocked (fib k f) /\ inq (pcs f) i) -> enough k pcs i n.

Fixpoint log_ok (cap : nat) (h : list event) : Prop :=
  match h with
  | [] => True
  | ERet f o r a :: h' => (ret_ok cap h' o r a /\ pending h' f = Some o /\
      exists rest, map Some (accepted h') = delivered h' ++ map Some rest) /\ log_ok cap h'
  | ECall _ _ :: h' => log_ok cap h'
  end.

Definition undisturbed (h : list event) : Prop := no_timeout h /\ no_exception h.

Record BInv (cap : nat) (s : state) : Prop := {
  b_cap : 2 <= cap /\ capacity (ch s) = cap;
  b_k : KInv (kn s) (queues (ch s)) (fun f => wst (pcs s f));
  b_ring : exists items, ring cap (slots (ch s)) (cidx (ch s)) (pidx (ch s)) items /\
             map Some (accepted (log s)) = delivered (log s) ++ map Some items;
  b_closed : closed (ch s) = true <-> was_closed (log s);
  b_pend : forall f, pending (log s) f = op_of (pcs s f);
  b_wf : forall f, wf (pcs s f);
  b_log : log_ok cap (log s);
  b_cl : closed (ch s) = true -> forall f, ~ xblocked (fib (kn s) f);
  b_cons : undisturbed (log s) -> live (kn s) (pcs s) 1 (stored (log s));
  b_prod : undisturbed (log s) -> live (kn s) (pcs s) 0 (cap - 1 - stored (log s))
}.

Lemma stored_items (h : list event) items :
  map Some (accepted h) = delivered h ++ map Some items -> stored h = length items.
Proof.
  intros H. unfold stored. apply (f_equal (@length _)) in H. rewrite app_length, !map_length in H. lia.
Qed.

Lemma accepted_cons (e : event) h : accepted (e :: h) = accepted h ++ put_of e.
Proof. unfold accepted. simpl. rewrite flat_map_app. simpl. now rewrite app_nil_r. Qed.
Lemma delivered_cons (e : event) h : delivered (e :: h) = delivered h ++ got_of e.
Proof. unfold delivered. simpl. rewrite flat_map_app. simpl. now rewrite app_nil_r. Qed.

Lemma stored_cons0 (e : event) h : put_of e = [] -> got_of e = [] -> stored (e :: h) = stored h.
Proof. intros A B. unfold stored. now rewrite accepted_cons, delivered_cons, A, B, !app_nil_r. Qed.

Lemma nt_cons (e : event) h : undisturbed (e :: h) -> undisturbed h.
Proof. intros [H1 H2]. split; [intros f o t Hi; apply (H1 f o t)|intros f o t Hw Hi; apply (H2 f o t Hw)]; now right. Qed.

Lemma wc_cons (e : event) h : (forall f t, e <> ERet f Close RVoid t) -> (was_closed (e :: h) <-> was_closed h).
Proof.
  intros H. unfold was_closed. split.
  - intros (f & t & [E|Hi]); [exfalso; eapply H; eauto|eauto].
  - intros (f & t & Hi). exists f, t. now right.
Qed.

Lemma live_mono k k' pcs i n :
  (forall g, xrunnable (fib k g) -> xrunnable (fib k' g)) -> live k pcs i n -> live k' pcs i n.
Proof.
  intros H L (f & Hb & Hi). destruct L as (l & A & B & C).
  - exists f. split; auto. specialize (H f). unfold xrunnable, xblocked in *.
    destruct (running (fib k f)), (queued (fib k f)); auto; destruct Hb; destruct H; auto; congruence.
  - exists l. splits; auto. intros g Hg. destruct (C g Hg). auto.
Qed.

Lemma live_pc k pcs i n f p :
  (inq p i <-> inq (pcs f) i) -> live k pcs i n -> live k (upd pcs f p) i n.
Proof.
  intros H L (g & Hb & Hi).
  assert (X : forall g, inq (upd pcs f p g) i <-> inq (pcs g) i) by (intros x; upds; tauto).
  destruct L as (l & A & B & C).
  - exists g. split; auto. now apply X.
  - exists l. splits; auto. intros x Hx. rewrite X. auto.
Qed.

Lemma live_enter k pcs i n f p :
  ~ xblocked (fib k f) -> (inq (pcs f) i -> inq p i) -> live k pcs i n -> live k (upd pcs f p) i n.
Proof.
  intros Hr Hp L (g & Hb & Hi). destruct (Nat.eq_dec g f) as [->|Hne]; [contradiction|]. updt.
  destruct L as (l & A & B & C); [eauto|].
  exists l. splits; auto. intros x Hx. destruct (C x Hx). split; auto. upds; auto.
Qed.

Lemma remove_length (f : nat) l : NoDup l -> In f l -> S (length (remove Nat.eq_dec f l)) = length l.
Proof.
  induction 1 as [|x l Hx Hn IH]; simpl; intros Hi; [destruct Hi|].
  destruct (Nat.eq_dec f x) as [->|Hne].
  - now rewrite notin_remove.
  - destruct Hi as [->|Hi]; [congruence|]. simpl. now rewrite IH.
Qed.
Lemma remove_nodup (f : nat) l : NoDup l -> NoDup (remove Nat.eq_dec f l).
Proof.
  induction 1 as [|x l Hx Hn IH]; simpl; [constructor|]. destruct (Nat.eq_dec f x); auto.
  constructor; auto. intros Hi. apply in_remove in Hi. tauto.
Qed.

Lemma live_leave k pcs i n f p :
  ~ xblocked (fib k f) -> live k pcs i (S n) -> live k (upd pcs f p) i n.
Proof.
  intros Hr L (g & Hb & Hi). destruct (Nat.eq_dec g f) as [->|Hne]; [contradiction|]. updt.
  destruct L as (l & A & B & C); [eauto|].
  destruct (in_dec Nat.eq_dec f l) as [Hf|Hf].
  - exists (remove Nat.eq_dec f l). splits.
    + now apply remove_nodup.
    + pose proof (remove_length f l A Hf). unfold fid in *; lia.
    + intros x Hx. apply in_remove in Hx. destruct Hx as [Hx Hxf]. updt. auto.
  - destruct l as [|y l]; [discriminate|]. exists l. inversion A; subst. simpl in B. splits; auto.
    intros x Hx. assert (x <> f) by (intros ->; apply Hf; now right). updt. apply C. now right.
Qed.

Lemma live_leave0 k pcs i n f p :
  ~ xblocked (fib k f) -> ~ inq (pcs f) i -> live k pcs i n -> live k (upd pcs f p) i n.
Proof.
  intros Hr Hn L (g & Hb & Hi). destruct (Nat.eq_dec g f) as [->|Hne]; [contradiction|]. updt.
  destruct L as (l & A & B & C); [eauto|]. exists l. splits; auto. intros x Hx.
  destruct (Nat.eq_dec x f) as [->|]; [destruct (C f Hx); contradiction|]. updt. auto.
Qed.

Lemma live_zero k pcs i : live k pcs i 0.
Proof. intros _. exists []. splits; auto; [constructor|intros g []]. Qed.

Lemma wf_waits p i e : wf p -> waits_in (wst p) i e -> inq p i.
Proof.
  intros Hw [E|[[tp E]|[tp E]]]; destruct p as [|o|o e'|o tp' e'|o tp' e']; simpl in E; inversion E; subst;
    destruct o; simpl in Hw; try contradiction; unfold inq; simpl; eexists; (split; [reflexivity|simpl; auto]).
Qed.
Lemma inq_det p i j : inq p i -> inq p j -> i = j.
Proof. intros (o & A & B) (o2 & A2 & B2). rewrite A in A2. injection A2 as <-. clear A. destruct o; simpl in B, B2; try contradiction; congruence. Qed.

Lemma live_notify k qs pcs i n k' q' :
  KInv k qs (fun f => wst (pcs f)) -> (forall f, wf (pcs f)) -> notify_one k (qs i) = (k', q') ->
  live k pcs i n -> live k' pcs i (S n).
Proof.
  intros K W En L. destruct (notify_one_inv i (qs i) k qs _ k' q' K eq_refl En) as (_ & _ & _ & _ & [X|X]).
  - destruct X as (g & G1 & G2 & G3 & G4 & _). intros (f & Hb & Hi).
    assert (Hfg : f <> g) by (intros ->; rewrite G3 in Hb; destruct Hb as [_ Hb]; discriminate).
    destruct L as (l & A & B & C).
    + exists f. rewrite G4 in Hb by auto. auto.
    + exists (g :: l). splits.
      * constructor; auto. intros Hg. destruct (C g Hg) as [[R|R] _]; destruct G2; congruence.
      * simpl. lia.
      * intros x [<-|Hx].
        -- split; [rewrite G3; now right|]. eapply wf_waits; [apply W|]. eapply (proj2 (ki_q _ _ _ K i)). exact G1.
        -- destruct (Nat.eq_dec x g) as [->|Hne].
           ++ destruct (C g Hx) as [[R|R] _]; destruct G2; congruence.
           ++ rewrite G4 by auto. auto.
  - destruct X as (-> & _ & X). intros (f & Hb & Hi). exfalso.
    destruct (blocked_live _ _ _ _ K Hb) as (j & Hj & _).
    assert (inq (pcs f) j) by (eapply wf_waits; [apply W|]; eapply (proj2 (ki_q _ _ _ K j)); exact Hj).
    assert (i = j) by (eapply inq_det; eauto). subst j. eapply X; eauto.
Qed.

Lemma notify_one_mono i k qs ws k' q' : KInv k qs ws -> notify_one k (qs i) = (k', q') ->
  (forall g, xrunnable (fib k g) -> xrunnable (fib k' g)) /\ KInv k' (upd qs i q') ws /\ now k' = now k /\
  (forall g, running (fib k' g) = running (fib k g)).
Proof.
  intros K En. destruct (notify_one_inv i (qs i) k qs ws k' q' K eq_refl En) as (K' & N & _ & _ & [X|X]).
  - destruct X as (g & _ & G2 & G3 & G4 & _). splits; auto; intros x; destruct (Nat.eq_dec x g) as [->|Hne].
    + rewrite G3. intros _. now right.
    + now rewrite G4.
    + rewrite G3. destruct G2. simpl. auto.
    + now rewrite G4.
  - destruct X as (-> & _). splits; auto.
Qed.

Lemma kinv_pc k qs (pcs0 : fid -> pc) f p :
  KInv k qs (fun g => wst (pcs0 g)) -> wst p = wst (pcs0 f) -> KInv k qs (fun g => wst (upd pcs0 f p g)).
Proof. intros H E. eapply KInv_ext; [exact H| |]; auto. intros g. upds; auto. Qed.
Lemma kinv_pcw k qs (pcs0 : fid -> pc) f p w :
  KInv k qs (upd (fun g => wst (pcs0 g)) f w) -> wst p = w -> KInv k qs (fun g => wst (upd pcs0 f p g)).
Proof. intros H E. eapply KInv_ext; [exact H| |]; auto. intros g. cbv beta. upds; auto. Qed.

Lemma pend_call (pcs0 : fid -> pc) h f o : (forall g, pending h g = op_of (pcs0 g)) ->
  forall g, pending (ECall f o :: h) g = op_of (upd pcs0 f (Top o) g).
Proof. intros H g. simpl. destruct (Nat.eqb_spec f g) as [->|]; updt; auto. Qed.
Lemma pend_ret (pcs0 : fid -> pc) h f o r a : (forall g, pending h g = op_of (pcs0 g)) ->
  forall g, pending (ERet f o r a :: h) g = op_of (upd pcs0 f Idle g).
Proof. intros H g. simpl. destruct (Nat.eqb_spec f g) as [->|]; updt; auto. Qed.
Lemma wf_upd (pcs0 : fid -> pc) f p : (forall g, wf (pcs0 g)) -> wf p -> forall g, wf (upd pcs0 f p g).
Proof. intros H Hp g. upds; auto. Qed.

Lemma running_nb x : running x = true -> ~ xblocked x.
Proof. intros H [A _]. congruence. Qed.

(** A return that transfers nothing and wakes nobody. *)
Lemma binv_ret cap s f o r :
  BInv cap s -> running (fib (kn s) f) = true -> pcs s f = Top o ->
  put_of (ERet f o r 0) = [] -> got_of (ERet f o r 0) = [] ->
  (o = Close -> closed (ch s) = true) ->
  ret_ok cap (log s) o r (now (kn s)) ->
  ((forall i, ~ inq (Top o) i) \/ closed (ch s) = true \/ (r = RExn /\ may_wait o)) ->
  BInv cap (ret s f o r).
Proof.
  intros [] Hr Hp Hput Hgot Hcl Hok Hl.
  assert (Hput' : put_of (ERet f o r (now (kn s))) = []) by (destruct o, r as [[]| | | | |]; auto).
  assert (Hgot' : got_of (ERet f o r (now (kn s))) = []) by (destruct o, r as [[]| | | | |]; auto).
  assert (Hlive : forall i n, undisturbed (ERet f o r (now (kn s)) :: log s) ->
    live (kn s) (pcs s) i n -> live (kn s) (upd (pcs s) f Idle) i n).
  { intros i n Hu L. destruct Hl as [Hl|[Hl|[-> Hw]]].
    - apply live_leave0; auto; [now apply running_nb|]. rewrite Hp. auto.
    - intros (g & Hb & _). exfalso. eapply b_cl0; eauto.
    - exfalso. apply (proj2 Hu f o (now (kn s)) Hw). now left. }
  constructor; simpl; auto.
  - apply kinv_pc; auto. now rewrite Hp.
  - destruct b_ring0 as (items & A & B). exists items. split; auto.
    now rewrite accepted_cons, delivered_cons, Hput', Hgot', !app_nil_r.
  - rewrite b_closed0. split.
    + intros (g & t & Hi). exists g, t. now right.
    + intros (g & t & [E|Hi]); [|exists g, t; auto]. inversion E; subst. apply b_closed0. auto.
  - exact (pend_ret (pcs s) (log s) f Close RVoid 0 b_pend0).
  - intros g. apply wf_upd; simpl; auto.
  - splits; auto; [now rewrite b_pend0, Hp|destruct b_ring0 as (items & _ & B); eauto].
  - intros Hn. rewrite stored_cons0 by auto. apply Hlive; auto. apply b_cons0. eapply nt_cons; eauto.
  - intros Hn. rewrite stored_cons0 by auto. apply Hlive; auto. apply b_prod0. eapply nt_cons; eauto.
Qed.

Lemma not_closed_spec cap s : BInv cap s -> closed (ch s) = false -> ~ was_closed (log s).
Proof. intros [] H X. apply b_closed0 in X. congruence. Qed.

Lemma full_spec cap s : BInv cap s ->
  (is_full (ch s) = true -> stored (log s) = cap - 1) /\ (is_full (ch s) = false -> stored (log s) < cap - 1).
Proof.
  intros []. destruct b_cap0 as [A B]. destruct b_ring0 as (items & C & D). unfold is_full. rewrite B.
  rewrite (stored_items _ _ D). pose proof (ring_full _ _ _ _ _ A C) as X. split; intros E.
  - now apply X.
  - destruct C as (_ & C & _). assert (length items <> cap - 1); [|lia]. intros Y. apply X in Y. congruence.
Qed.
Lemma empty_spec cap s : BInv cap s ->
  (is_empty (ch s) = true -> stored (log s) = 0) /\ (is_empty (ch s) = false -> 0 < stored (log s)).
Proof.
  intros []. destruct b_cap0 as [A B]. destruct b_ring0 as (items & C & D). unfold is_empty.
  rewrite (stored_items _ _ D). pose proof (ring_empty _ _ _ _ _ A C) as X. split; intros E.
  - now apply X.
  - assert (length items <> 0); [|lia]. intros Y. apply X in Y. congruence.
Qed.

Definition puts (o : op) (v : V) : Prop :=
  match o with Push w | TryPush w | PushUntil w _ => w = v | _ => False end.

Lemma binv_store cap s f o v :
  BInv cap s -> running (fib (kn s) f) = true -> pcs s f = Top o -> puts o v ->
  closed (ch s) = false -> is_full (ch s) = false -> BInv cap (store s f o v).
Proof.
  intros I Hr Hp Hv Hc Hf. pose proof (not_closed_spec _ _ I Hc) as Hnc.
  pose proof (proj2 (full_spec _ _ I) Hf) as Hst. destruct I.
  destruct b_ring0 as (items & R & E). pose proof (stored_items _ _ E) as Hsi. destruct b_cap0 as [Hcap Hcape].
  unfold store, notify1. simpl.
  destruct (notify_one (kn s) (queues (ch s) 1)) as [k' q'] eqn:En.
  destruct (notify_one_mono 1 _ _ _ _ _ b_k0 En) as (M1 & K' & N & Rn).
  assert (Hput : put_of (ERet f o (RStatus Success) (now k')) = [v]) by (destruct o; simpl in Hv; try contradiction; subst; auto).
  assert (Hgot : got_of (ERet f o (RStatus Success) (now k')) = []) by auto.
  assert (Hs' : forall s0, stored (ERet f o (RStatus Success) (now k') :: s0) = length (accepted s0 ++ [v]) - length (delivered s0)).
  { intros h. unfold stored. now rewrite accepted_cons, delivered_cons, Hput, Hgot, app_nil_r. }
  assert (Hstored : stored (ERet f o (RStatus Success) (now k') :: log s) = S (stored (log s))).
  { rewrite Hs', app_length. unfold stored. simpl. apply (f_equal (@length _)) in E. rewrite app_length, !map_length in E. lia. }
  constructor; simpl; rewrite ?Hcape; auto.
  - apply kinv_pc; auto. now rewrite Hp.
  - exists (items ++ [v]). split.
    + apply ring_store; auto. rewrite <- Hsi. auto.
    + now rewrite accepted_cons, delivered_cons, Hput, Hgot, app_nil_r, !map_app, E, app_assoc.
  - rewrite b_closed0. symmetry. apply wc_cons. intros g t X. inversion X.
  - exact (pend_ret (pcs s) (log s) f Close RVoid 0 b_pend0).
  - intros g. apply wf_upd; simpl; auto.
  - splits; auto; [|now rewrite b_pend0, Hp|eauto]. destruct o; simpl in Hv; try contradiction; simpl; auto.
  - congruence.
  - intros Hn. apply nt_cons in Hn. rewrite Hstored. apply live_leave0.
    + apply running_nb. now rewrite Rn.
    + rewrite Hp. intros (o' & A & B). inversion A; subst o'. destruct o; simpl in *; try contradiction; lia.
    + apply (live_notify (kn s) (queues (ch s)) (pcs s) 1 (stored (log s)) k' q'); auto.
  - intros Hn. apply nt_cons in Hn. rewrite Hstored. apply live_leave.
    + apply running_nb. now rewrite Rn.
    + replace (S (cap - 1 - S (stored (log s)))) with (cap - 1 - stored (log s)) by lia.
      eapply live_mono; [exact M1|]. auto.
Qed.

Definition is_popop (o : op) : bool := match o with Pop | TryPop | ValuePop | PopUntil _ => true | _ => false end.

Lemma binv_fetch cap s f o :
  BInv cap s -> running (fib (kn s) f) = true -> pcs s f = Top o -> is_popop o = true ->
  is_empty (ch s) = false -> BInv cap (fetch s f o).
Proof.
  intros I Hr Hp Hv Hf.
  pose proof (proj2 (empty_spec _ _ I) Hf) as Hst. destruct I.
  destruct b_ring0 as (items & R & E). pose proof (stored_items _ _ E) as Hsi. destruct b_cap0 as [Hcap Hcape].
  destruct items as [|v items]; [simpl in Hsi; lia|]. rewrite Hsi in Hst.
  destruct (ring_fetch _ _ _ _ _ _ Hcap R) as [Hv0 R'].
  unfold fetch, notify1. simpl. rewrite Hv0.
  destruct (notify_one (kn s) (queues (ch s) 0)) as [k' q'] eqn:En.
  destruct (notify_one_mono 0 _ _ _ _ _ b_k0 En) as (M1 & K' & N & Rn).
  assert (Hput : put_of (ERet f o (RValue (Some v)) (now k')) = []) by (destruct o; auto).
  assert (Hgot : got_of (ERet f o (RValue (Some v)) (now k')) = [Some v]) by auto.
  assert (E' : map Some (accepted (log s)) = (delivered (log s) ++ [Some v]) ++ map Some items) by (rewrite <- app_assoc; exact E).
  assert (Hstored : S (stored (ERet f o (RValue (Some v)) (now k') :: log s)) = stored (log s)).
  { rewrite Hsi. simpl. f_equal. apply stored_items. now rewrite accepted_cons, delivered_cons, Hput, Hgot, app_nil_r. }
  pose proof (proj1 (proj2 R)) as Hle. simpl in Hle.
  constructor; simpl; rewrite ?Hcape; auto.
  - apply kinv_pc; auto. now rewrite Hp.
  - exists items. split; auto. now rewrite accepted_cons, delivered_cons, Hput, Hgot, app_nil_r.
  - rewrite b_closed0. symmetry. apply wc_cons. intros g t X. inversion X.
  - exact (pend_ret (pcs s) (log s) f Close RVoid 0 b_pend0).
  - intros g. apply wf_upd; simpl; auto.
  - splits; auto; [|now rewrite b_pend0, Hp|eauto]. rewrite <- Hsi in Hst. destruct o; simpl in Hv; try discriminate; simpl; left; eauto.
  - intros Hc g Hb. apply (b_cl0 Hc g). specialize (M1 g). unfold xrunnable, xblocked in *.
    destruct (running (fib (kn s) g)), (queued (fib (kn s) g)); auto; destruct Hb; destruct M1; auto; congruence.
  - intros Hn. apply nt_cons in Hn. apply live_leave.
    + apply running_nb. now rewrite Rn.
    + rewrite Hstored. eapply live_mono; [exact M1|]. auto.
  - intros Hn. apply nt_cons in Hn. apply live_leave0.
    + apply running_nb. now rewrite Rn.
    + rewrite Hp. intros (o' & A & B). inversion A; subst o'. destruct o; simpl in *; try contradiction; try discriminate; lia.
    + match goal with |- live _ _ _ ?n => replace n with (S (cap - 1 - stored (log s))) by (simpl in Hsi; lia) end.
      apply (live_notify (kn s) (queues (ch s)) (pcs s) 0 (cap - 1 - stored (log s)) k' q'); auto.
Qed.

Lemma binv_block cap s f o i :
  BInv cap s -> running (fib (kn s) f) = true -> pcs s f = Top o ->
  queue_of o = i -> wf (Wait o 0) -> closed (ch s) = false ->
  (i = 0 /\ is_full (ch s) = true \/ i = 1 /\ is_empty (ch s) = true) ->
  BInv cap (block s f i o).
Proof.
  intros I Hr Hp Hq Hw Hc Hd. pose proof (full_spec _ _ I) as [Hfu _]. pose proof (empty_spec _ _ I) as [Hem _]. destruct I.
  unfold block. destruct (suspend_and_wait (kn s) f (queues (ch s) i)) as [[k q] e] eqn:Es.
  assert (K := kinv_block (kn s) (queues (ch s)) _ f i k q e b_k0 ltac:(cbv beta; now rewrite Hp) Hr Es).
  destruct (suspend_and_wait_facts _ _ _ _ _ _ _ _ b_k0 Hr Es) as (Hfk & He & _ & Hb & Hqq & Hn). clear Es.
  assert (Hio : forall j, inq (Wait o e) j <-> inq (pcs s f) j) by (intros j; rewrite Hp; unfold inq; simpl; tauto).
  assert (Hb2 : blocking o i) by (subst i; destruct o; simpl in Hw |- *; try contradiction; auto).
  assert (Hlv : forall j n, j <> i -> live (kn s) (pcs s) j n -> live k (upd (pcs s) f (Wait o e)) j n).
  { intros j n Hj L. apply live_pc; auto. intros (g & Hgb & Hgi).
    assert (Hg : g <> f). { intros ->. apply Hj. symmetry. eapply inq_det; [|exact Hgi]. rewrite Hp. exists o. simpl. auto. }
    destruct L as (l & A & B & C); [exists g; rewrite <- (Hfk g Hg); auto|]. exists l. splits; auto.
    intros x Hx. destruct (C x Hx) as [C1 C2]. split; auto. assert (x <> f).
    { intros ->. apply Hj. symmetry. eapply inq_det; [|exact C2]. rewrite Hp. exists o. simpl. auto. }
    now rewrite Hfk. }
  constructor; simpl; auto.
  - eapply kinv_pcw; [exact K|]. simpl. now rewrite Hq.
  - intros g. rewrite b_pend0. upds; auto. rewrite Hp. reflexivity.
  - intros g. apply wf_upd; auto.
  - congruence.
  - intros Hnt. specialize (b_cons0 Hnt). destruct Hd as [[-> Hd]|[-> Hd]].
    + apply Hlv; auto.
    + rewrite (Hem Hd). apply live_zero.
  - intros Hnt. specialize (b_prod0 Hnt). destruct Hd as [[-> Hd]|[-> Hd]].
    + rewrite (Hfu Hd), Nat.sub_diag. apply live_zero.
    + apply Hlv; auto.
Qed.

Lemma binv_block_until cap s f o i tp :
  BInv cap s -> running (fib (kn s) f) = true -> pcs s f = Top o ->
  queue_of o = i -> wf (WaitUntil o tp 0) -> closed (ch s) = false ->
  (i = 0 /\ is_full (ch s) = true \/ i = 1 /\ is_empty (ch s) = true) ->
  BInv cap (block_until s f i o tp).
Proof.
  intros I Hr Hp Hq Hw Hc Hd. pose proof (full_spec _ _ I) as [Hfu _]. pose proof (empty_spec _ _ I) as [Hem _]. destruct I.
  unfold block_until. destruct (suspend_and_wait_until (kn s) f (queues (ch s) i) tp) as [[k q] e] eqn:Es.
  assert (K := kinv_block_until (kn s) (queues (ch s)) _ f i tp k q e b_k0 ltac:(cbv beta; now rewrite Hp) Hr Es).
  destruct (suspend_and_wait_until_facts _ _ _ _ _ _ _ _ _ b_k0 Hr Es) as (Hfk & He & _ & Hb & Hqq & Hn). clear Es.
  assert (Hio : forall j, inq (WaitUntil o tp e) j <-> inq (pcs s f) j) by (intros j; rewrite Hp; unfold inq; simpl; tauto).
  assert (Hb2 : blocking o i) by (subst i; destruct o; simpl in Hw |- *; try contradiction; auto).
  assert (Hlv : forall j n, j <> i -> live (kn s) (pcs s) j n -> live k (upd (pcs s) f (WaitUntil o tp e)) j n).
  { intros j n Hj L. apply live_pc; auto. intros (g & Hgb & Hgi).
    assert (Hg : g <> f). { intros ->. apply Hj. symmetry. eapply inq_det; [|exact Hgi]. rewrite Hp. exists o. simpl. auto. }
    destruct L as (l & A & B & C); [exists g; rewrite <- (Hfk g Hg); auto|]. exists l. splits; auto.
    intros x Hx. destruct (C x Hx) as [C1 C2]. split; auto. assert (x <> f).
    { intros ->. apply Hj. symmetry. eapply inq_det; [|exact C2]. rewrite Hp. exists o. simpl. auto. }
    now rewrite Hfk. }
  constructor; simpl; auto.
  - eapply kinv_pcw; [exact K|]. simpl. now rewrite Hq.
  - intros g. rewrite b_pend0. upds; auto. rewrite Hp. reflexivity.
  - intros g. apply wf_upd; auto.
  - congruence.
  - intros Hnt. specialize (b_cons0 Hnt). destruct Hd as [[-> Hd]|[-> Hd]].
    + apply Hlv; auto.
    + rewrite (Hem Hd). apply live_zero.
  - intros Hnt. specialize (b_prod0 Hnt). destruct Hd as [[-> Hd]|[-> Hd]].
    + rewrite (Hfu Hd), Nat.sub_diag. apply live_zero.
    + apply Hlv; auto.
Qed.

Lemma notify_all_mono i k qs ws k' q' : KInv k qs ws -> notify_all k (qs i) = (k', q') ->
  (forall g, xrunnable (fib k g) -> xrunnable (fib k' g)) /\ KInv k' (upd qs i q') ws /\ q' = [] /\ now k' = now k /\
  (forall g, running (fib k' g) = running (fib k g)).
Proof.
  intros K En. destruct (notify_all_inv i (qs i) k qs ws k' q' K eq_refl En) as (K' & -> & N & _ & A & B).
  assert (D : forall g, In (g, epoch (fib k g)) (qs i) \/ ~ In (g, epoch (fib k g)) (qs i)).
  { intros g. destruct (is_linked (qs i) (g, epoch (fib k g))) eqn:El; [left; now apply is_linked_spec|right].
    intros X. apply is_linked_spec in X. congruence. }
  splits; auto; intros g; destruct (D g) as [X|X].
  - destruct (A g X) as [_ ->]. intros _. now right.
  - now rewrite (B g X).
  - destruct (A g X) as [[Y _] ->]. auto.
  - now rewrite (B g X).
Qed.

Lemma binv_close cap s f :
  BInv cap s -> running (fib (kn s) f) = true -> pcs s f = Top Close -> closed (ch s) = false ->
  BInv cap (cs s f Close).
Proof.
  intros I Hr Hp Hc. destruct I. unfold cs. rewrite Hc. unfold notifyA. cbn -[notify_all].
  destruct (notify_all (kn s) (queues (ch s) 0)) as [k1 q1] eqn:E1. cbn -[notify_all].
  destruct (notify_all_mono 0 _ _ _ _ _ b_k0 E1) as (M1 & K1 & -> & N1 & R1).
  destruct (notify_all k1 (upd (queues (ch s)) 0 [] 1)) as [k2 q2] eqn:E2. cbn -[notify_all].
  destruct (notify_all_mono 1 _ _ _ _ _ K1 E2) as (M2 & K2 & -> & N2 & R2).
  assert (Hnb : forall g, ~ xblocked (fib k2 g)).
  { intros g Hb. destruct (blocked_live _ _ _ _ K2 Hb) as (i & Hi & Hw).
    assert (Hin : inq (pcs s g) i). { eapply wf_waits; [apply b_wf0|]. unfold waits_in. destruct Hw as [Hw|Hw]; [left|right; left]; eauto. }
    destruct Hin as (o & _ & Ho). assert (i = 0 \/ i = 1) as [->|[= ->]] by (destruct o; simpl in Ho; try contradiction; auto).
    - rewrite upd_other, upd_same in Hi by discriminate. destruct Hi.
    - rewrite upd_same in Hi. destruct Hi. }
  constructor; simpl; auto.
  - apply kinv_pc; auto. now rewrite Hp.
  - destruct b_ring0 as (items & A & B). exists items. split; auto.
    now rewrite accepted_cons, delivered_cons, !app_nil_r.
  - split; auto. intros _. exists f, (now k2). now left.
  - exact (pend_ret (pcs s) (log s) f Close RVoid 0 b_pend0).
  - intros g. apply wf_upd; simpl; auto.
  - splits; auto; [now rewrite b_pend0, Hp|destruct b_ring0 as (items & _ & B); eauto].
  - intros _ (g & Hb & _). exfalso. eapply Hnb; eauto.
  - intros _ (g & Hb & _). exfalso. eapply Hnb; eauto.
Qed.

Lemma binv_cs cap s f o :
  BInv cap s -> running (fib (kn s) f) = true -> pcs s f = Top o -> BInv cap (cs s f o).
Proof.
  intros I Hr Hp.
  pose proof (full_spec _ _ I) as [F1 F2]. pose proof (empty_spec _ _ I) as [M1 M2].
  pose proof (b_closed _ _ I) as BC. pose proof (not_closed_spec _ _ I) as NC.
  assert (N0 : forall o', (forall i, ~ blocking o' i) -> forall i, ~ inq (Top o') i).
  { intros o' H i (o2 & A & B). inversion A; subst. eapply H; eauto. }
  destruct o; unfold cs.
  - destruct (closed (ch s)) eqn:Ec; [apply binv_ret; simpl; try tauto; auto|].
    destruct (is_full (ch s)) eqn:Ef; [apply binv_block; simpl; auto|now apply binv_store].
  - destruct (closed (ch s)) eqn:Ec; [apply binv_ret; simpl; try tauto; auto|].
    destruct (is_full (ch s)) eqn:Ef; [|now apply binv_store].
    apply binv_ret; simpl; auto; try discriminate. right. right. splits; auto.
  - destruct (closed (ch s)) eqn:Ec; [apply binv_ret; simpl; try tauto; auto|].
    destruct (is_full (ch s)) eqn:Ef; [apply binv_block_until; simpl; auto|now apply binv_store].
  - destruct (is_empty (ch s)) eqn:Ee; [|now apply binv_fetch].
    destruct (closed (ch s)) eqn:Ec; [apply binv_ret; simpl; auto; right; splits; auto; now apply BC|].
    apply binv_block; simpl; auto.
  - destruct (is_empty (ch s)) eqn:Ee; [|now apply binv_fetch].
    destruct (closed (ch s)) eqn:Ec; (apply binv_ret; simpl; auto; try discriminate; right).
    + left; splits; auto; now apply BC.
    + right; splits; auto.
  - destruct (is_empty (ch s)) eqn:Ee; [|now apply binv_fetch].
    destruct (closed (ch s)) eqn:Ec; [apply binv_ret; simpl; auto; right; splits; auto; now apply BC|].
    apply binv_block; simpl; auto.
  - destruct (is_empty (ch s)) eqn:Ee; [|now apply binv_fetch].
    destruct (closed (ch s)) eqn:Ec; [apply binv_ret; simpl; auto; right; left; splits; auto; now apply BC|].
    apply binv_block_until; simpl; auto.
  - destruct (closed (ch s)) eqn:Ec; [apply binv_ret; simpl; auto|].
    pose proof (binv_close _ _ _ I Hr Hp Ec) as X. unfold cs in X. rewrite Ec in X. exact X.
  - apply binv_ret; simpl; auto; try discriminate. exists (closed (ch s)). split; auto.
Qed.

(** A kernel change under which runnable fibers stay runnable. *)
Lemma binv_kern cap s k :
  BInv cap s -> KInv k (queues (ch s)) (fun f => wst (pcs s f)) ->
  (forall g, xrunnable (fib (kn s) g) -> xrunnable (fib k g)) ->
  BInv cap (mkState k (ch s) (pcs s) (log s)).
Proof.
  intros [] K M. constructor; simpl; auto.
  - intros Hc g Hb. apply (b_cl0 Hc g). specialize (M g). unfold xrunnable, xblocked in *.
    destruct (running (fib (kn s) g)), (queued (fib (kn s) g)); auto; destruct Hb; destruct M; auto; congruence.
  - intros Hn. eapply live_mono; [exact M|]. auto.
  - intros Hn. eapply live_mono; [exact M|]. auto.
Qed.

Lemma binv_goto cap s f p :
  BInv cap s -> KInv (kn s) (queues (ch s)) (fun g => wst (upd (pcs s) f p g)) ->
  op_of p = op_of (pcs s f) -> wf p -> BInv cap (goto s f p).
Proof.
  intros [] K E W. assert (X : forall i, inq p i <-> inq (pcs s f) i) by (intros i; unfold inq; rewrite E; tauto).
  constructor; simpl; auto.
  - intros g. rewrite b_pend0. upds; auto.
  - intros g. apply wf_upd; auto.
  - intros Hn. apply live_pc; auto.
  - intros Hn. apply live_pc; auto.
Qed.

Lemma yield_run k f g : xrunnable (fib k g) -> xrunnable (fib (yield k f) g).
Proof. unfold yield, xrunnable. simpl. upds; simpl; auto. Qed.

Lemma binv_step cap s l s' : BInv cap s -> step s l = Some s' -> BInv cap s'.
Proof.
  intros I Hs. destruct l as [kl|f o|f|f|f|f]; unfold step in Hs.
  - destruct (kstep (kn s) kl) as [k|] eqn:Ek; [|discriminate]. inversion Hs; subst s'; clear Hs.
    apply binv_kern; auto.
    + eapply kinv_kstep; eauto. apply I.
    + intros g. eapply kstep_runnable; eauto. apply (b_k _ _ I).
  - destruct (pcs s f) eqn:Ep; try discriminate. destruct (running (fib (kn s) f)) eqn:Er; [|discriminate].
    inversion Hs; subst s'; clear Hs. destruct I.
    assert (Hnq : forall i, ~ inq (pcs s f) i) by (rewrite Ep; intros i (o' & A & _); discriminate).
    constructor; simpl; auto.
    + apply kinv_pc; auto. now rewrite Ep.
    + destruct b_ring0 as (items & A & B). exists items. split; auto. now rewrite accepted_cons, delivered_cons, !app_nil_r.
    + rewrite b_closed0. symmetry. apply wc_cons. discriminate.
    + exact (pend_call (pcs s) (log s) f o b_pend0).
    + intros g. apply wf_upd; simpl; auto.
    + intros Hn. rewrite stored_cons0 by auto. apply live_enter; [now apply running_nb|intros X; now apply Hnq in X|].
      apply b_cons0. eapply nt_cons; eauto.
    + intros Hn. rewrite stored_cons0 by auto. apply live_enter; [now apply running_nb|intros X; now apply Hnq in X|].
      apply b_prod0. eapply nt_cons; eauto.
  - destruct (running (fib (kn s) f)) eqn:Er; [|discriminate]. unfold run_step in Hs.
    pose proof (b_wf _ _ I f) as W.
    destruct (pcs s f) as [|o|o e|o tp e|o tp e] eqn:Ep; [discriminate| | | |]; inversion Hs; subst s'; clear Hs.
    + now apply binv_cs.
    + destruct (kinv_resume _ _ _ f (queue_of o) e (b_k _ _ I) Er ltac:(cbv beta; now rewrite Ep)) as [L K].
      assert (I' : BInv cap (mkState (suspend_and_wait_end (kn s) (queues (ch s) (queue_of o)) (f, e)) (ch s) (pcs s) (log s))).
      { apply binv_kern; auto. unfold suspend_and_wait_end. rewrite L. apply kinv_kassert; auto. apply I. }
      apply binv_goto; simpl; auto; [|now rewrite Ep].
      unfold suspend_and_wait_end. rewrite L. apply kinv_kassert; auto. eapply kinv_pcw; [exact K|reflexivity].
    + destruct (wait_until_result (kn s) tp) eqn:Ew.
      * pose proof (kinv_resume_until _ _ _ f (queue_of o) tp e (b_k _ _ I) Er ltac:(cbv beta; now rewrite Ep) Ew) as K.
        apply binv_goto; simpl; auto; [|now rewrite Ep]. eapply kinv_pcw; [exact K|reflexivity].
      * pose proof (kinv_timeout _ _ _ f (queue_of o) tp e (b_k _ _ I) Er ltac:(cbv beta; now rewrite Ep) Ew) as K.
        apply binv_goto; simpl; auto; [|now rewrite Ep]. eapply kinv_pcw; [exact K|reflexivity].
    + pose proof (kinv_relock _ _ _ f (queue_of o) tp e (b_k _ _ I) Er ltac:(cbv beta; now rewrite Ep)) as K.
      pose proof (ki_f _ _ _ (b_k _ _ I) f) as F. unfold fok in F. cbv beta in F. rewrite Ep in F. simpl in F.
      destruct F as (_ & _ & _ & _ & _ & Ht).
      destruct I. constructor; simpl; auto.
      * eapply kinv_pcw; [exact K|reflexivity].
      * destruct b_ring0 as (items & A & B). exists items. split; auto. rewrite accepted_cons, delivered_cons.
        destruct o; simpl; rewrite !app_nil_r; auto.
      * rewrite b_closed0. symmetry. apply wc_cons. intros g t X. inversion X.
      * exact (pend_ret (pcs s) (log s) f Close RVoid 0 b_pend0).
      * intros g. apply wf_upd; simpl; auto.
      * splits; auto; [|now rewrite b_pend0, Ep|destruct b_ring0 as (items & _ & B); eauto]. simpl in W. destruct o; try contradiction; subst; simpl; auto.
      * intros Hn. exfalso. destruct Hn as [Hn _]. eapply Hn. now left.
      * intros Hn. exfalso. destruct Hn as [Hn _]. eapply Hn. now left.
  - destruct (pcs s f) eqn:Ep; try discriminate. destruct (running (fib (kn s) f)) eqn:Er; [|discriminate].
    inversion Hs; subst s'; clear Hs. apply binv_kern; auto; [|intros g; apply yield_run].
    apply kinv_yield; auto. apply I.
  - destruct (pcs s f) as [|o|o e|o tp e|o tp e] eqn:Ep; try discriminate.
    destruct (running (fib (kn s) f)) eqn:Er; [|discriminate]. destruct (transfers (ch s) o) eqn:Et; [|discriminate].
    inversion Hs; subst s'; clear Hs. apply binv_ret; auto.
    + now destruct o.
    + intros ->. discriminate.
    + pose proof (full_spec _ _ I) as [_ F2]. pose proof (empty_spec _ _ I) as [_ M2].
      pose proof (not_closed_spec _ _ I) as NC.
      destruct o; simpl in Et |- *; try discriminate; left;
        try (apply andb_prop in Et; destruct Et as [E1 E2]; apply negb_true_iff in E1, E2); try apply negb_true_iff in Et; auto.
    + destruct o; try (right; right; split; [reflexivity|exact Logic.I]); left; intros i (o' & A & B); inversion A; subst o'; exact B.
  - assert (running (fib (kn s) f) = true /\ s' = mkState (yield (kn s) f) (ch s) (pcs s) (log s)) as [Er ->].
    { destruct (pcs s f); try discriminate; destruct (running (fib (kn s) f)); try discriminate; inversion Hs; auto. }
    apply binv_kern; auto; [|intros g; apply yield_run]. apply kinv_yield; auto. apply I.
Qed.

Lemma construct_shape cap (s : state) : construct cap = Some s ->
  2 <= N.to_nat cap /\
  s = mkState kinit (mkChan (fun _ => []) (fun _ => None) 0 0 (N.to_nat cap) false) (fun _ => Idle) [].
Proof.
  unfold construct. destruct (cap <? 2)%N eqn:E; simpl; [discriminate|].
  apply N.ltb_ge in E. destruct (negb _); [discriminate|]. intros H. inversion H. split; auto. lia.
Qed.

Lemma binv_construct cap (s : state) : construct cap = Some s -> BInv (N.to_nat cap) s.
Proof.
  intros H. apply construct_shape in H. destruct H as [H ->]. constructor; simpl; auto.
  - apply kinv_init.
  - exists []. simpl. split; auto. unfold ring. simpl. splits; try lia.
    + now rewrite Nat.mod_0_l by lia.
    + intros [|i] v X; discriminate.
  - split; [discriminate|]. intros (f & t & []).
  - discriminate.
  - intros _ (f & [_ B] & _). simpl in B. discriminate.
  - intros _ (f & [_ B] & _). simpl in B. discriminate.
Qed.

Lemma binv_reachable cap (s0 s : state) : construct cap = Some s0 -> reachable step s0 s -> BInv (N.to_nat cap) s.
Proof. intros H. apply reachable_inv; [now apply binv_construct|]. intros. eapply binv_step; eauto. Qed.

Lemma log_ok_split cap h : log_ok cap h -> forall h2 f o r t h1, h = h2 ++ ERet f o r t :: h1 ->
  ret_ok cap h1 o r t /\ pending h1 f = Some o /\ exists rest, map Some (accepted h1) = delivered h1 ++ map Some rest.
Proof.
  induction h as [|e h IH]; intros H h2 f o r t h1 E; [destruct h2; discriminate|].
  destruct h2 as [|e2 h2]; simpl in E; inversion E; subst.
  - simpl in H. tauto.
  - apply (IH ltac:(destruct e2; simpl in H; tauto) h2 f o r t h1 eq_refl).
Qed.
End Proofs.
