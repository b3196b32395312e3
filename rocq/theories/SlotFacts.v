(** Like KernelFacts, for fibers that in addition may hand out a waker without a wait queue:
    a producer of the unbuffered channel publishes its waker in the slot before it suspends. *)
From Coq Require Import List Arith Bool Lia.
From Verif Require Import Base Kernel KernelFacts.
Import ListNotations.

(** What a fiber is doing with respect to the wait queues (numbered). *)
Inductive sstat :=
| SNone
| SUntimed (i e : nat)
| STimed (i tp e : nat)
| SRelock (i tp e : nat)
| SOffer (e : nat)          (* running, its waker is published *)
| SSlot (e : nat)           (* suspended with the waker published *)
| SSlotT (tp e : nat).      (* the same with a deadline *)


Definition sfok (k : kern) (qs : nat -> wq) (f : fid) (w : sstat) : Prop :=
  let x := fib k f in
  match w with SOffer _ => True | _ => running x = true -> queued x = false end /\
  (running x = true -> sleep x = None) /\
  match w with
  | SNone => xrunnable x /\ sleep x = None
  | SUntimed i e => sleep x = None /\
      (xblocked x /\ epoch x = e /\ In (f, e) (qs i) \/
       xrunnable x /\ epoch x = S e /\ ~ In (f, e) (qs i))
  | STimed i tp e =>
      (xblocked x /\ epoch x = e /\ In (f, e) (qs i) /\ sleep x = Some (tp, e)) \/
      (xrunnable x /\ epoch x = S e /\ (sleep x = None \/ sleep x = Some (tp, e)) /\
       (In (f, e) (qs i) -> tp <= now k))
  | SRelock i tp e => xrunnable x /\ epoch x = S e /\ sleep x = None /\ tp <= now k
  | SOffer e => running x = true /\ sleep x = None /\
      (queued x = false /\ epoch x = e \/ queued x = true /\ epoch x = S e)
  | SSlot e => sleep x = None /\ (xblocked x /\ epoch x = e \/ xrunnable x /\ epoch x = S e)
  | SSlotT tp e =>
      (xblocked x /\ epoch x = e /\ sleep x = Some (tp, e)) \/
      (xrunnable x /\ epoch x = S e /\ (sleep x = None \/ sleep x = Some (tp, e)))
  end.

Definition swaits_in (w : sstat) (i e : nat) : Prop :=
  w = SUntimed i e \/ (exists tp, w = STimed i tp e) \/ (exists tp, w = SRelock i tp e).

Definition sqok (qs : nat -> wq) (ws : fid -> sstat) : Prop :=
  forall i, NoDup (qs i) /\ forall f e, In (f, e) (qs i) -> swaits_in (ws f) i e.

Record SInv (k : kern) (qs : nat -> wq) (ws : fid -> sstat) : Prop := {
  si_f : forall f, sfok k qs f (ws f);
  si_q : sqok qs ws;
  si_e : err k = false;
  si_t : tok k
}.

Lemma SInv_ext k qs qs' ws ws' :
  SInv k qs ws -> (forall i, qs' i = qs i) -> (forall f, ws' f = ws f) -> SInv k qs' ws'.
Proof.
  intros [Hf Hq He Ht] E1 E2. constructor; auto.
  - intros f. specialize (Hf f). rewrite E2. unfold sfok in *.
    destruct (ws f); rewrite ?E1; auto.
  - intros i. rewrite E1. destruct (Hq i) as [H1 H2]. split; auto.
    intros. rewrite E2. auto.
Qed.

(** A waiting-queue entry whose epoch is current belongs to a blocked fiber. *)
Lemma slive_blocked k qs ws i f e :
  SInv k qs ws -> In (f, e) (qs i) -> epoch (fib k f) = e ->
  xblocked (fib k f) /\ (ws f = SUntimed i e \/ exists tp, ws f = STimed i tp e).
Proof.
  intros H Hin He. destruct (si_q _ _ _ H i) as [_ Hq]. specialize (Hq _ _ Hin).
  pose proof (si_f _ _ _ H f) as Hf. unfold sfok in Hf.
  destruct Hq as [Hw|[[tp Hw]|[tp Hw]]]; rewrite Hw in Hf.
  - destruct Hf as (_ & _ & _ & [(Hb & _)|(_ & He2 & _)]); [split; auto | lia].
  - destruct Hf as (_ & _ & [(Hb & _)|(_ & He2 & _)]); [split; eauto | lia].
  - destruct Hf as (_ & _ & _ & He2 & _); lia.
Qed.

Lemma sblocked_live k qs ws f :
  SInv k qs ws -> xblocked (fib k f) ->
  (exists i, In (f, epoch (fib k f)) (qs i) /\
    (ws f = SUntimed i (epoch (fib k f)) \/ exists tp, ws f = STimed i tp (epoch (fib k f)))) \/
  ws f = SSlot (epoch (fib k f)) \/ exists tp, ws f = SSlotT tp (epoch (fib k f)).
Proof.
  intros H Hb. pose proof (si_f _ _ _ H f) as Hf. unfold sfok in Hf. unfold xblocked, xrunnable in *.
  destruct (ws f) as [|i e|i tp e|i tp e|e|e|tp e].
  - destruct Hf as (_ & _ & [A|A] & _); destruct Hb; congruence.
  - destruct Hf as (_ & _ & _ & [(_ & <- & Hin)|([A|A] & _)]); [left; eauto| |]; destruct Hb; congruence.
  - destruct Hf as (_ & _ & [(_ & <- & Hin & _)|([A|A] & _)]); [left; eauto| |]; destruct Hb; congruence.
  - destruct Hf as (_ & _ & [A|A] & _); destruct Hb; congruence.
  - destruct Hf as (_ & _ & A & _); destruct Hb; congruence.
  - destruct Hf as (_ & _ & _ & [(_ & <-)|([A|A] & _)]); [auto| |]; destruct Hb; congruence.
  - destruct Hf as (_ & _ & [(_ & <- & _)|([A|A] & _)]); [eauto| |]; destruct Hb; congruence.
Qed.

(** Waking a live entry. *)
Lemma sinv_wake_live k qs ws i f e :
  SInv k qs ws -> In (f, e) (qs i) -> epoch (fib k f) = e ->
  SInv (fst (wake k (f, e))) (upd qs i (wq_remove (qs i) (f, e))) ws.
Proof.
  intros H Hin He.
  destruct (slive_blocked _ _ _ _ _ _ H Hin He) as [Hb Hw].
  unfold wake. rewrite (proj2 (Nat.eqb_eq _ _) He). simpl.
  destruct H as [Hf Hq Herr Ht].
  assert (Hqi : forall j g e', In (g, e') (upd qs i (wq_remove (qs i) (f, e)) j) -> In (g, e') (qs j)).
  { intros j g e'. upds; auto. rewrite wq_remove_In. tauto. }
  assert (Hqj : forall j g e', g <> f -> In (g, e') (qs j) -> In (g, e') (upd qs i (wq_remove (qs i) (f, e)) j)).
  { intros j g e' Hne Hi. upds; auto. rewrite wq_remove_In. split; auto. congruence. }
  constructor; simpl.
  - intros g. specialize (Hf g). unfold sfok in *. simpl.
    destruct (Nat.eq_dec g f) as [->|Hne]; updt; simpl.
    + destruct Hb as [Hb1 Hb2].
      destruct Hw as [Hw|[tp Hw]]; rewrite Hw in *.
      * destruct Hf as (_ & _ & Hs & _). rewrite Hb1, Hs.
        splits; auto; try discriminate.
        right. splits; auto; [now right|]. updt. rewrite wq_remove_In. tauto.
      * destruct Hf as (_ & _ & [(_ & _ & _ & Hs)|([A|A] & _)]); try congruence.
        rewrite Hb1, Hs. splits; auto; try discriminate.
        right. splits; auto; [now right|]. updt. rewrite wq_remove_In. tauto.
    + destruct (ws g) as [|j e'|j tp e'|j tp e'|e'|e'|tp e']; auto.
      * destruct Hf as (A & B & C & D). splits; auto.
        destruct D as [(D1 & D2 & D3)|(D1 & D2 & D3)]; [left|right]; splits; auto; try solve [apply D1].
        all: try (intros Hc; apply D3; eauto).
      * destruct Hf as (A & B & D). splits; auto.
        destruct D as [(D1 & D2 & D3 & D4)|(D1 & D2 & D3 & D4)]; [left|right]; splits; auto; try solve [apply D1].
  - intros j. destruct (Hq j) as [Hn Hw']. split.
    + upds; auto. now apply NoDup_filter'.
    + intros g e' Hi. apply Hw'. eauto.
  - destruct Hb as [_ ->]. now rewrite Herr.
  - destruct Ht as [T1 T2]. destruct Hb as [Hb1 Hb2]. split; simpl.
    + intros g. upds; simpl; auto; congruence.
    + intros t g Ht'. destruct (T2 _ _ Ht'). upds; simpl; auto.
Qed.

(** Removing a stale entry keeps the discipline (except for untimed entries, which are never stale). *)
Lemma sinv_drop_stale k qs ws i f e :
  SInv k qs ws -> epoch (fib k f) <> e ->
  SInv k (upd qs i (wq_remove (qs i) (f, e))) ws.
Proof.
  intros H Hst. destruct H as [Hf Hq Herr Ht]. constructor; auto.
  - intros g. specialize (Hf g). unfold sfok in *.
    assert (Hi : forall j e', epoch (fib k g) = e' ->
        In (g, e') (qs j) -> In (g, e') (upd qs i (wq_remove (qs i) (f, e)) j)).
    { intros j e' E Hi. upds; auto. rewrite wq_remove_In. split; auto. congruence. }
    assert (Hi2 : forall j e', In (g, e') (upd qs i (wq_remove (qs i) (f, e)) j) -> In (g, e') (qs j)).
    { intros j e'. upds; auto. rewrite wq_remove_In. tauto. }
    destruct (ws g) as [|j e'|j tp e'|j tp e'|e'|e'|tp e']; auto.
    + destruct Hf as (A & B & C & D). splits; auto.
      destruct D as [(D1 & D2 & D3)|(D1 & D2 & D3)]; [left|right]; splits; auto; try solve [apply D1]; auto.
    + destruct Hf as (A & B & D). splits; auto.
      destruct D as [(D1 & D2 & D3 & D4)|(D1 & D2 & D3 & D4)]; [left|right]; splits; auto; try solve [apply D1]; auto.
  - intros j. destruct (Hq j) as [Hn Hw]. split.
    + upds; auto. now apply NoDup_filter'.
    + intros g e'. upds; auto. rewrite wq_remove_In. intros [A _]; auto.
Qed.

(** Specification of notify_one under the discipline. *)
Lemma snotify_one_inv i : forall q k qs ws k' q',
  SInv k qs ws -> qs i = q -> notify_one k q = (k', q') ->
  SInv k' (upd qs i q') ws /\ now k' = now k /\ thr k' = thr k /\
  (forall f e, In (f, e) q' -> In (f, e) q) /\
  ((exists g, In (g, epoch (fib k g)) q /\ xblocked (fib k g) /\
       fib k' g = mkFiber (S (epoch (fib k g))) false true (home (fib k g)) (sleep (fib k g)) /\
       (forall f, f <> g -> fib k' f = fib k f) /\
       (forall f, f <> g -> xblocked (fib k f) -> In (f, epoch (fib k f)) q -> In (f, epoch (fib k f)) q')) \/
   (k' = k /\ q' = [] /\ forall f e, In (f, e) q -> ~ xblocked (fib k f))).
Proof.
  induction q as [|[f e] q IH]; intros k qs ws k' q' H Hq Hn; simpl in Hn.
  - inversion Hn; subst. splits; auto.
    all: try (eapply SInv_ext; eauto; intros j; upds; auto).
  - destruct (Nat.eq_dec (epoch (fib k f)) e) as [He|He].
    + assert (Hin : In (f, e) (qs i)) by (rewrite Hq; now left).
      pose proof (sinv_wake_live _ _ _ _ _ _ H Hin He) as Hk.
      destruct (slive_blocked _ _ _ _ _ _ H Hin He) as [Hb Hw].
      pose proof (wake_live k f e He) as Wk. unfold wake in Wk. rewrite Wk in Hn.
      inversion Hn; subst k' q'; clear Hn. simpl.
      rewrite wake_live in Hk by auto. simpl in Hk.
      destruct (si_q _ _ _ H i) as [Hnd _]. rewrite Hq in Hnd. inversion Hnd; subst.
      rewrite Hq, wq_remove_hd in Hk by auto.
      splits; auto.
      left. exists f. splits; auto; try apply Hb.
      * updt. destruct Hb as [-> _]. reflexivity.
      * intros g Hg. now updt.
      * intros g Hg _ [E|Hi]; auto. inversion E; congruence.
    + assert (Wk := wake_stale k f e He). unfold wake in Wk. rewrite Wk in Hn.
      pose proof (sinv_drop_stale _ _ _ i _ _ H He) as Hk.
      destruct (si_q _ _ _ H i) as [Hnd _]. rewrite Hq in Hnd. inversion Hnd as [|? ? Hni Hnd']; subst.
      rewrite Hq, wq_remove_hd in Hk by auto.
      destruct (IH k (upd qs i q) ws k' q' Hk) as (R1 & R2 & R3 & R4 & R5); auto.
      { now updt. }
      splits; auto.
      * eapply SInv_ext; [exact R1| |]; auto. intros j. symmetry. apply upd_upd.
      * intros g e' Hi. right. auto.
      * destruct R5 as [(g & G1 & G2 & G3 & G4 & G5)|(A & B & C)].
        -- left. exists g. splits; auto; try apply G2.
           ++ now right.
           ++ intros g' Hg' Hb [E|Hi]; [|auto]. inversion E; congruence.
        -- right. splits; auto. intros g e' [E|Hi] Hb; [|eapply C; eauto].
           inversion E; subst g e'. clear E.
           destruct (si_q _ _ _ H i) as [_ Hw]. rewrite Hq in Hw.
           specialize (Hw f e (or_introl eq_refl)).
           pose proof (si_f _ _ _ H f) as Hf. unfold sfok in Hf.
           unfold xblocked, xrunnable in *.
           destruct Hw as [Hw|[[tp Hw]|[tp Hw]]]; rewrite Hw in Hf.
           ++ destruct Hf as (_ & _ & _ & [(_ & X & _)|([X|X] & _)]); [congruence| |]; destruct Hb; congruence.
           ++ destruct Hf as (_ & _ & [(_ & X & _)|([X|X] & _)]); [congruence| |]; destruct Hb; congruence.
           ++ destruct Hf as (_ & _ & [X|X] & _); destruct Hb; congruence.
Qed.

(** Specification of notify_all under the discipline. *)
Lemma snotify_all_inv i : forall q k qs ws k' q',
  SInv k qs ws -> qs i = q -> notify_all k q = (k', q') ->
  SInv k' (upd qs i []) ws /\ q' = [] /\ now k' = now k /\ thr k' = thr k /\
  (forall f, In (f, epoch (fib k f)) q ->
     xblocked (fib k f) /\
     fib k' f = mkFiber (S (epoch (fib k f))) false true (home (fib k f)) (sleep (fib k f))) /\
  (forall f, ~ In (f, epoch (fib k f)) q -> fib k' f = fib k f).
Proof.
  induction q as [|[f e] q IH]; intros k qs ws k' q' H Hq Hn; simpl in Hn.
  - inversion Hn; subst. splits; auto; try contradiction.
    all: try (eapply SInv_ext; eauto; intros j; upds; auto).
  - destruct (si_q _ _ _ H i) as [Hnd _]. rewrite Hq in Hnd. inversion Hnd as [|? ? Hni Hnd']; subst.
    destruct (Nat.eq_dec (epoch (fib k f)) e) as [He|He].
    + assert (Hin : In (f, e) (qs i)) by (rewrite Hq; now left).
      pose proof (sinv_wake_live _ _ _ _ _ _ H Hin He) as Hk.
      destruct (slive_blocked _ _ _ _ _ _ H Hin He) as [Hb Hw].
      pose proof (wake_live k f e He) as Wk. unfold wake in Wk. rewrite Wk in Hn.
      rewrite wake_live in Hk by auto. simpl in Hk.
      rewrite Hq, wq_remove_hd in Hk by auto.
      set (k1 := mkKern _ _ _ _) in *.
      assert (Hfk1 : forall g, g <> f -> fib k1 g = fib k g) by (intros g Hg; unfold k1; simpl; now updt).
      assert (Hfk2 : fib k1 f = mkFiber (S e) false true (home (fib k f)) (sleep (fib k f))).
      { unfold k1; simpl. updt. destruct Hb as [-> _]. reflexivity. }
      assert (Hnf : forall e', ~ In (f, e') q).
      { intros e' Hi. destruct (si_q _ _ _ H i) as [_ Hw'].
        assert (A1 := Hw' f e'). rewrite Hq in A1. specialize (A1 (or_intror Hi)).
        destruct A1 as [A1|[[tp A1]|[tp A1]]]; destruct Hw as [Hw|[tp' Hw]];
          rewrite A1 in Hw; try discriminate; inversion Hw; subst; contradiction. }
      destruct (IH k1 (upd qs i q) ws k' q' Hk) as (R1 & R2 & R3 & R4 & R5 & R6); auto.
      { now updt. }
      splits; auto.
      * eapply SInv_ext; [exact R1| |]; auto. intros j. symmetry. apply upd_upd.
      * intros f0 Hi. destruct (Nat.eq_dec f0 f) as [->|Hne].
        -- split; auto. rewrite R6 by (rewrite Hfk2; simpl; apply Hnf). rewrite Hfk2. now rewrite He.
        -- destruct Hi as [E|Hi]; [inversion E; congruence|].
           rewrite <- (Hfk1 _ Hne) in Hi |- *. now apply R5.
      * intros g Hg. destruct (Nat.eq_dec g f) as [->|Hne]; [exfalso; apply Hg; left; congruence|].
        rewrite R6; auto. rewrite Hfk1; auto. intros Hi; apply Hg; now right.
    + assert (Wk := wake_stale k f e He). unfold wake in Wk. rewrite Wk in Hn.
      pose proof (sinv_drop_stale _ _ _ i _ _ H He) as Hk.
      rewrite Hq, wq_remove_hd in Hk by auto.
      destruct (IH k (upd qs i q) ws k' q' Hk) as (R1 & R2 & R3 & R4 & R5 & R6); auto.
      { now updt. }
      splits; auto.
      * eapply SInv_ext; [exact R1| |]; auto. intros j. symmetry. apply upd_upd.
      * intros f0 [E|Hi]; [inversion E; congruence|]. now apply R5.
      * intros g Hg. apply R6. intros Hi; apply Hg; now right.
Qed.

(** Kernel steps of the environment. *)
Lemma sinv_kstep k qs ws l k' : SInv k qs ws -> kstep k l = Some k' -> SInv k' qs ws.
Proof.
  intros H Hs. destruct l as [f t|f|d]; simpl in Hs.
  - destruct (thr k t) eqn:Et; [discriminate|].
    destruct (queued (fib k f) && negb (running (fib k f))) eqn:E; [|discriminate].
    apply andb_true_iff in E. destruct E as [E1 E2]. apply negb_true_iff in E2.
    inversion Hs; subst k'; clear Hs.
    destruct H as [Hf Hq Herr [T1 T2]]. constructor; simpl; auto.
    + intros g. specialize (Hf g). unfold sfok in *. simpl.
      destruct (Nat.eq_dec g f) as [->|Hne]; updt; simpl; auto.
      unfold xrunnable, xblocked in *. simpl.
      destruct (ws f) as [|i e|i tp e|i tp e|e|e|tp e]; destruct Hf as (X & Y & Z); splits; auto; try tauto; try congruence.
      * destruct Z as (Z & [(W & _)|(_ & W1 & W2)]); [destruct W; congruence|]. right. auto.
      * destruct Z as [(W & _)|(_ & W1 & W2 & W3)]; [destruct W; congruence|]. right. auto.
      * destruct Z as (Z & _). congruence.
      * destruct Z as (Z & [(W & _)|(_ & W1)]); [destruct W; congruence|]. right. auto.
      * destruct Z as [(W & _)|(_ & W1 & W2)]; [destruct W; congruence|]. right. auto.
    + split; simpl.
      * intros g. destruct (Nat.eq_dec g f) as [->|Hne]; updt; simpl; intros Hr; updt; auto.
        specialize (T1 _ Hr). rewrite upd_other; auto. intros Ec. rewrite Ec in T1. congruence.
      * intros t' g. unfold upd at 1. destruct (Nat.eqb_spec t' t) as [->|Hn].
        -- intros E; inversion E; subst g. updt. auto.
        -- intros E. destruct (T2 _ _ E). destruct (Nat.eq_dec g f) as [->|]; updt; auto; congruence.
  - destruct (thr k (home (fib k f))) eqn:Et; [discriminate|].
    destruct (sleep (fib k f)) as [[tp e]|] eqn:Es; [|discriminate].
    destruct (Nat.leb_spec tp (now k)) as [Hle|]; [|discriminate].
    inversion Hs; subst k'; clear Hs.
    pose proof (si_f _ _ _ H f) as Hff. unfold sfok in Hff. rewrite Es in Hff.
    destruct H as [Hf Hq Herr [T1 T2]].
    assert (Hw : (exists i, ws f = STimed i tp e) \/ ws f = SSlotT tp e).
    { destruct (ws f) as [|i' e'|i' tp' e'|i' tp' e'|e'|e'|tp' e']; try solve [kcrush].
      destruct Hff as (_ & _ & [(_ & _ & _ & E)|(_ & _ & [E|E] & _)]); inversion E; eauto. }
    assert (Hnr : running (fib k f) = false).
    { destruct (running (fib k f)) eqn:Er; auto. destruct Hff as (_ & A & _). discriminate (A eq_refl). }
    assert (Hx : (xblocked (fib k f) /\ epoch (fib k f) = e) \/ (xrunnable (fib k f) /\ epoch (fib k f) = S e)).
    { destruct Hw as [[i Hw]|Hw]; rewrite Hw in Hff; destruct Hff as (_ & _ & [X|X]); destruct X as (X1 & X2 & _); auto. }
    clear Hff.
    destruct Hx as [(Hb & He)|(Hr & He)].
    + unfold wake. simpl. updt. simpl. rewrite (proj2 (Nat.eqb_eq _ _) He). simpl.
      constructor; simpl.
      * intros g. specialize (Hf g). unfold sfok in *. simpl.
        destruct (Nat.eq_dec g f) as [->|Hne]; updt; simpl; auto.
        rewrite Hnr. destruct Hw as [[i Hw]|Hw]; rewrite Hw in *; splits; auto; try discriminate;
          right; splits; auto; now right.
      * auto.
      * updt. simpl. destruct Hb as [_ ->]. now rewrite Herr.
      * split; simpl.
        -- intros g. upds; simpl; auto; congruence.
        -- intros t' g Ht'. destruct (T2 _ _ Ht'). upds; simpl; auto.
    + unfold wake. simpl. updt. simpl.
      destruct (Nat.eqb_spec (epoch (fib k f)) e); [lia|]. simpl.
      constructor; simpl; auto.
      * intros g. specialize (Hf g). unfold sfok in *. simpl.
        destruct (Nat.eq_dec g f) as [->|Hne]; updt; simpl; auto.
        unfold xrunnable, xblocked in *. simpl.
        destruct Hw as [[i Hw]|Hw]; rewrite Hw in *.
        -- destruct Hf as (_ & _ & [(_ & X & _)|(_ & _ & _ & Y)]); [lia|].
           splits; auto; try congruence; right; splits; auto.
        -- splits; auto; try congruence; right; splits; auto.
      * split; simpl.
        -- intros g. upds; simpl; auto; congruence.
        -- intros t' g Ht'. destruct (T2 _ _ Ht'). upds; simpl; auto.
  - inversion Hs; subst k'; clear Hs. destruct H as [Hf Hq Herr Ht]. constructor; simpl; auto.
    intros g. specialize (Hf g). unfold sfok in *. simpl.
    destruct (ws g) as [|i e|i tp e|i tp e|e|e|tp e]; destruct Hf as (X & Y & Z); splits; auto; try tauto.
    + destruct Z as [Z|(Z1 & Z2 & Z3 & Z4)]; [left; auto|right; splits; auto; intros W; specialize (Z4 W); lia].
    + destruct Z as (_ & _ & _ & Z). lia.
Qed.

Lemma sinv_thr k qs ws f : SInv k qs ws -> running (fib k f) = true ->
  thr k (home (fib k f)) = Some f.
Proof. intros H. apply (si_t _ _ _ H). Qed.

(** No entry of a fiber that does not wait. *)
Lemma swnone_no_entry k qs ws f i e : SInv k qs ws -> ws f = SNone -> ~ In (f, e) (qs i).
Proof.
  intros H Hw Hin. destruct (si_q _ _ _ H i) as [_ A]. specialize (A _ _ Hin).
  unfold swaits_in in A. rewrite Hw in A. intuition; try discriminate; destruct H1; discriminate.
Qed.

Lemma sinv_block k qs ws f i k' q' e :
  SInv k qs ws -> ws f = SNone -> running (fib k f) = true ->
  suspend_and_wait k f (qs i) = (k', q', e) ->
  SInv k' (upd qs i q') (upd ws f (SUntimed i e)).
Proof.
  intros H Hw Hr Hs. unfold suspend_and_wait, create_waker in Hs. inversion Hs; subst; clear Hs.
  assert (Hn : forall j e', ~ In (f, e') (qs j)) by (intros; eapply swnone_no_entry; eauto).
  destruct H as [Hf Hq Herr Ht]. unfold suspend, set_fib. simpl. updt. simpl.
  assert (Hff := Hf f). unfold sfok in Hff. rewrite Hw in Hff. destruct Hff as (A & B & C & D).
  constructor; simpl; auto.
  - intros g. specialize (Hf g). unfold sfok in *. simpl.
    destruct (Nat.eq_dec g f) as [->|Hne].
    + updt. simpl. splits; auto; try discriminate. left.
      unfold xblocked; simpl; splits; auto.
      updt. apply in_or_app. right. now left.
    + updt.
      assert (Hi : forall j e', In (g, e') (upd qs i (qs i ++ [(f, S (epoch (fib k f)))]) j) <-> In (g, e') (qs j)).
      { intros j e'. upds; [|tauto]. rewrite in_app_iff. simpl. intuition. inversion H0; congruence. }
      destruct (ws g); rewrite ?Hi; auto.
  - intros j. destruct (Hq j) as [Hnd Hw']. split.
    + upds; auto. apply NoDup_snoc; auto.
    + intros g e' Hi. destruct (Nat.eq_dec g f) as [->|Hne].
      * upds; [|exfalso; eapply Hn; eauto]. apply in_app_or in Hi. destruct Hi as [Hi|[Hi|[]]]; [exfalso; eapply Hn; eauto|].
        inversion Hi; subst. now left.
      * updt. apply Hw'. upds; auto. apply in_app_or in Hi. destruct Hi as [Hi|[Hi|[]]]; auto. inversion Hi; congruence.
  - destruct Ht as [T1 T2]. split; simpl.
    + intros g. destruct (Nat.eq_dec g f) as [->|Hne]; updt; simpl; intros Hg; [congruence|].
      pose proof (T1 _ Hg) as Tg. unfold upd. destruct (Nat.eqb_spec (home (fib k g)) (home (fib k f))) as [E|E]; auto.
      rewrite E in Tg. rewrite (T1 _ Hr) in Tg. congruence.
    + intros t g. unfold upd at 1. destruct (Nat.eqb_spec t (home (fib k f))) as [E|E]; [discriminate|].
      intros Htt. destruct (T2 _ _ Htt) as [A1 B1]. destruct (Nat.eq_dec g f) as [->|]; updt; auto; congruence.
Qed.

Lemma sinv_block_until k qs ws f i tp k' q' e :
  SInv k qs ws -> ws f = SNone -> running (fib k f) = true ->
  suspend_and_wait_until k f (qs i) tp = (k', q', e) ->
  SInv k' (upd qs i q') (upd ws f (STimed i tp e)).
Proof.
  intros H Hw Hr Hs. unfold suspend_and_wait_until, create_waker in Hs. inversion Hs; subst; clear Hs.
  assert (Hn : forall j e', ~ In (f, e') (qs j)) by (intros; eapply swnone_no_entry; eauto).
  destruct H as [Hf Hq Herr Ht]. unfold wait_until_begin, suspend, set_fib. simpl. updt. simpl.
  assert (Hff := Hf f). unfold sfok in Hff. rewrite Hw in Hff. destruct Hff as (A & B & C & D).
  constructor; simpl; auto.
  - intros g. specialize (Hf g). unfold sfok in *. simpl.
    destruct (Nat.eq_dec g f) as [->|Hne].
    + updt. simpl. splits; auto; try discriminate. left.
      unfold xblocked; simpl; splits; auto.
      updt. apply in_or_app. right. now left.
    + updt.
      assert (Hi : forall j e', In (g, e') (upd qs i (qs i ++ [(f, S (epoch (fib k f)))]) j) <-> In (g, e') (qs j)).
      { intros j e'. upds; [|tauto]. rewrite in_app_iff. simpl. intuition. inversion H0; congruence. }
      destruct (ws g); rewrite ?Hi; auto.
  - intros j. destruct (Hq j) as [Hnd Hw']. split.
    + upds; auto. apply NoDup_snoc; auto.
    + intros g e' Hi. destruct (Nat.eq_dec g f) as [->|Hne].
      * upds; [|exfalso; eapply Hn; eauto]. apply in_app_or in Hi. destruct Hi as [Hi|[Hi|[]]]; [exfalso; eapply Hn; eauto|].
        inversion Hi; subst. right; left; eauto.
      * updt. apply Hw'. upds; auto. apply in_app_or in Hi. destruct Hi as [Hi|[Hi|[]]]; auto. inversion Hi; congruence.
  - destruct Ht as [T1 T2]. split; simpl.
    + intros g. destruct (Nat.eq_dec g f) as [->|Hne]; updt; simpl; intros Hg; [congruence|].
      pose proof (T1 _ Hg) as Tg. unfold upd at 1. destruct (Nat.eqb_spec (home (fib k g)) (home (fib k f))) as [E|E]; auto.
      rewrite E in Tg. rewrite (T1 _ Hr) in Tg. congruence.
    + intros t g. unfold upd at 1. destruct (Nat.eqb_spec t (home (fib k f))) as [E|E]; [discriminate|].
      intros Htt. destruct (T2 _ _ Htt) as [A1 B1]. destruct (Nat.eq_dec g f) as [->|]; updt; auto; congruence.
Qed.

Lemma sinv_yield k qs ws f :
  SInv k qs ws -> running (fib k f) = true -> (forall e, ws f <> SOffer e) -> SInv (yield k f) qs ws.
Proof.
  intros H Hr Hno. destruct H as [Hf Hq Herr Ht]. unfold yield.
  assert (Hff := Hf f). unfold sfok in Hff. destruct Hff as (A0 & B & C). specialize (B Hr).
  assert (A : queued (fib k f) = false) by (destruct (ws f); auto; exfalso; eapply Hno; reflexivity).
  constructor; simpl; auto.
  - intros g. specialize (Hf g). unfold sfok in *. simpl.
    destruct (Nat.eq_dec g f) as [->|Hne]; updt; simpl; auto.
    unfold xrunnable, xblocked in *. simpl.
    destruct (ws f) as [|i e|i tp e|i tp e|e|e|tp e]; try (exfalso; now apply (Hno e)); splits; auto; try congruence; try tauto.
    + destruct C as (Z & [(W & _)|(_ & W1 & W2)]); [destruct W; congruence|]. right. auto.
    + destruct C as [(W & _)|(_ & W1 & W2 & W3)]; [destruct W; congruence|]. right. auto.
    + destruct C as (Z & [(W & _)|(_ & W1)]); [destruct W; congruence|]. right. auto.
    + destruct C as [(W & _)|(_ & W1 & W2)]; [destruct W; congruence|]. right. auto.
  - now rewrite A, Herr.
  - destruct Ht as [T1 T2]. split; simpl.
    + intros g. destruct (Nat.eq_dec g f) as [->|Hne]; updt; simpl; intros Hg; [congruence|].
      pose proof (T1 _ Hg) as Tg. unfold upd at 1. destruct (Nat.eqb_spec (home (fib k g)) (home (fib k f))) as [E|E]; auto.
      rewrite E in Tg. rewrite (T1 _ Hr) in Tg. congruence.
    + intros t g. unfold upd at 1. destruct (Nat.eqb_spec t (home (fib k f))) as [E|E]; [discriminate|].
      intros Htt. destruct (T2 _ _ Htt) as [A1 B1]. destruct (Nat.eq_dec g f) as [->|]; updt; auto; congruence.
Qed.

(** Returning from an untimed wait. *)
Lemma sinv_resume k qs ws f i e :
  SInv k qs ws -> running (fib k f) = true -> ws f = SUntimed i e ->
  is_linked (qs i) (f, e) = false /\ SInv k qs (upd ws f SNone).
Proof.
  intros H Hr Hw. pose proof (si_f _ _ _ H f) as Hff. unfold sfok in Hff. rewrite Hw in Hff.
  destruct Hff as (A & B & C & [(Hb & _)|(D1 & D2 & D3)]); [destruct Hb; congruence|].
  split.
  { destruct (is_linked (qs i) (f, e)) eqn:E; auto. apply is_linked_spec in E. contradiction. }
  destruct H as [Hf Hq Herr Ht]. constructor; auto.
  - intros g. specialize (Hf g). destruct (Nat.eq_dec g f) as [->|Hne]; updt; auto.
    unfold sfok. auto.
  - intros j. destruct (Hq j) as [Hnd Hw']. split; auto.
    intros g e' Hi. destruct (Nat.eq_dec g f) as [->|Hne]; updt; auto.
    exfalso. specialize (Hw' _ _ Hi). unfold swaits_in in Hw'. rewrite Hw in Hw'.
    destruct Hw' as [E|[[tp E]|[tp E]]]; inversion E; subst. contradiction.
Qed.

Lemma sinv_kassert k qs ws b : SInv k qs ws -> b = true -> SInv (kassert k b) qs ws.
Proof.
  intros [A B C D] ->. constructor; simpl; auto.
  now rewrite C.
Qed.

(** Returning from a timed wait before the deadline. *)
Lemma sinv_resume_until k qs ws f i tp e :
  SInv k qs ws -> running (fib k f) = true -> ws f = STimed i tp e ->
  wait_until_result k tp = true -> SInv k qs (upd ws f SNone).
Proof.
  intros H Hr Hw Ht0. unfold wait_until_result in Ht0. apply Nat.ltb_lt in Ht0.
  pose proof (si_f _ _ _ H f) as Hff. unfold sfok in Hff. rewrite Hw in Hff.
  destruct Hff as (A & B & [(Hb & _)|(D1 & D2 & D3 & D4)]); [destruct Hb; congruence|].
  assert (Hni : ~ In (f, e) (qs i)) by (intros Hi; apply D4 in Hi; lia).
  destruct H as [Hf Hq Herr Ht]. constructor; auto.
  - intros g. specialize (Hf g). destruct (Nat.eq_dec g f) as [->|Hne]; updt; auto.
    unfold sfok. auto.
  - intros j. destruct (Hq j) as [Hnd Hw']. split; auto.
    intros g e' Hi. destruct (Nat.eq_dec g f) as [->|Hne]; updt; auto.
    exfalso. specialize (Hw' _ _ Hi). unfold swaits_in in Hw'. rewrite Hw in Hw'.
    destruct Hw' as [E|[[tp' E]|[tp' E]]]; inversion E; subst. contradiction.
Qed.

(** Timed out: the waker may still be linked. *)
Lemma sinv_timeout k qs ws f i tp e :
  SInv k qs ws -> running (fib k f) = true -> ws f = STimed i tp e ->
  wait_until_result k tp = false -> SInv k qs (upd ws f (SRelock i tp e)).
Proof.
  intros H Hr Hw Ht0. unfold wait_until_result in Ht0. apply Nat.ltb_ge in Ht0.
  pose proof (si_f _ _ _ H f) as Hff. unfold sfok in Hff. rewrite Hw in Hff.
  destruct Hff as (A & B & [(Hb & _)|(D1 & D2 & D3 & D4)]); [destruct Hb; congruence|].
  destruct H as [Hf Hq Herr Ht]. constructor; auto.
  - intros g. specialize (Hf g). destruct (Nat.eq_dec g f) as [->|Hne]; updt; auto.
    unfold sfok. splits; auto.
  - intros j. destruct (Hq j) as [Hnd Hw']. split; auto.
    intros g e' Hi. destruct (Nat.eq_dec g f) as [->|Hne]; updt; auto.
    specialize (Hw' _ _ Hi). unfold swaits_in in *. rewrite Hw in Hw'.
    destruct Hw' as [E|[[tp' E]|[tp' E]]]; inversion E; subst. eauto.
Qed.

Lemma sinv_relock k qs ws f i tp e :
  SInv k qs ws -> running (fib k f) = true -> ws f = SRelock i tp e ->
  SInv k (upd qs i (if is_linked (qs i) (f, e) then wq_remove (qs i) (f, e) else qs i)) (upd ws f SNone).
Proof.
  intros H Hr Hw.
  assert (E : forall j g e', In (g, e') (upd qs i (if is_linked (qs i) (f, e) then wq_remove (qs i) (f, e) else qs i) j)
            <-> In (g, e') (qs j) /\ ~ (j = i /\ g = f /\ e' = e)).
  { intros j g e'. upds.
    - destruct (is_linked (qs i) (f, e)) eqn:El.
      + rewrite wq_remove_In. split; intros [P Q]; split; auto.
        * intros (_ & -> & ->); auto.
        * intros X; inversion X; subst; apply Q; auto.
      + assert (Hl : ~ In (f, e) (qs i)) by (rewrite <- is_linked_spec; congruence).
        intuition; subst; contradiction.
    - intuition. }
  pose proof (si_f _ _ _ H f) as Hff. unfold sfok in Hff. rewrite Hw in Hff.
  destruct Hff as (A & B & D1 & D2 & D3 & D4).
  destruct H as [Hf Hq Herr Ht]. constructor; auto.
  - intros g. specialize (Hf g). destruct (Nat.eq_dec g f) as [->|Hne]; updt.
    + unfold sfok. auto.
    + unfold sfok in *.
      assert (E' : forall j e', In (g, e') (upd qs i (if is_linked (qs i) (f, e) then wq_remove (qs i) (f, e) else qs i) j)
            <-> In (g, e') (qs j)) by (intros; rewrite E; intuition).
      destruct (ws g); rewrite ?E'; auto.
  - intros j. destruct (Hq j) as [Hnd Hw']. split.
    + upds; auto. destruct (is_linked (qs i) (f, e)); auto. now apply NoDup_filter'.
    + intros g e'. rewrite E. intros [Hi Hx]. destruct (Nat.eq_dec g f) as [->|Hne]; updt; auto.
      exfalso. specialize (Hw' _ _ Hi). unfold swaits_in in Hw'. rewrite Hw in Hw'.
      destruct Hw' as [X|[[tp' X]|[tp' X]]]; inversion X; subst. apply Hx; auto.
Qed.

Lemma sinv_init : SInv kinit (fun _ => []) (fun _ => SNone).
Proof.
  constructor; simpl; auto.
  - intros f. unfold sfok, xrunnable; simpl. intuition; discriminate.
  - intros i. split; [constructor | intros ? ? []].
  - split; simpl; intros; discriminate.
Qed.

(** Facts read off the invariant. *)
Lemma sinv_running_not_queued k qs ws f :
  SInv k qs ws -> running (fib k f) = true -> (forall e, ws f <> SOffer e) -> queued (fib k f) = false.
Proof.
  intros H Hr Hno. destruct (si_f _ _ _ H f) as (A & _). destruct (ws f); auto. exfalso. eapply Hno; reflexivity.
Qed.

Lemma sinv_one_per_thread k qs ws f g :
  SInv k qs ws -> running (fib k f) = true -> running (fib k g) = true ->
  home (fib k f) = home (fib k g) -> f = g.
Proof.
  intros H Hf Hg E. destruct (si_t _ _ _ H) as [T _].
  pose proof (T _ Hf). pose proof (T _ Hg). rewrite E in *. congruence.
Qed.

Lemma skstep_runnable k l k' f qs ws :
  SInv k qs ws -> kstep k l = Some k' -> xrunnable (fib k f) -> xrunnable (fib k' f).
Proof.
  intros H Hs Hr. destruct l as [g t|g|d]; simpl in Hs.
  - destruct (thr k t); [discriminate|]. destruct (queued (fib k g) && negb (running (fib k g))); [|discriminate].
    inversion Hs; subst; simpl. upds; simpl; auto. now left.
  - destruct (thr k (home (fib k g))); [discriminate|]. destruct (sleep (fib k g)) as [[tp e]|]; [|discriminate].
    destruct (Nat.leb tp (now k)); [|discriminate]. inversion Hs; subst; clear Hs.
    unfold wake. simpl. updt. simpl. destruct (Nat.eqb (epoch (fib k g)) e); simpl; upds; simpl; auto.
    now right.
  - inversion Hs; subst; auto.
Qed.


(** Changing the record and the status of one fiber that is in no wait queue. *)
Lemma sinv_change k qs ws k' f w' :
  SInv k qs ws -> (forall i e, ~ In (f, e) (qs i)) ->
  (forall g, g <> f -> fib k' g = fib k g) -> now k' = now k -> err k' = false -> tok k' ->
  sfok k' qs f w' -> SInv k' qs (upd ws f w').
Proof.
  intros [Hf Hq Herr Ht] Hn Ho Hnow He Ht' Hw'. constructor; auto.
  - intros g. destruct (Nat.eq_dec g f) as [->|Hne]; updt; auto.
    specialize (Hf g). unfold sfok in *. rewrite Ho, Hnow by auto. auto.
  - intros i. destruct (Hq i) as [A B]. split; auto. intros g e Hi.
    destruct (Nat.eq_dec g f) as [->|Hne]; [exfalso; eapply Hn; eauto|]. updt. auto.
Qed.

Definition publishes (w : sstat) (e : nat) : Prop :=
  w = SOffer e \/ w = SSlot e \/ exists tp, w = SSlotT tp e.

Lemma publishes_no_entry k qs ws f i e e' : SInv k qs ws -> publishes (ws f) e' -> ~ In (f, e) (qs i).
Proof.
  intros H Hw Hin. destruct (si_q _ _ _ H i) as [_ A]. specialize (A _ _ Hin).
  unfold swaits_in in A. destruct Hw as [Hw|[Hw|[tp Hw]]]; rewrite Hw in A;
    destruct A as [A|[[? A]|[? A]]]; discriminate.
Qed.

Lemma tok_same k k' f : tok k -> thr k' = thr k -> (forall g, g <> f -> fib k' g = fib k g) ->
  running (fib k' f) = running (fib k f) -> home (fib k' f) = home (fib k f) -> tok k'.
Proof.
  intros [T1 T2] Et Ho Hr Hh. split.
  - intros g. rewrite Et. destruct (Nat.eq_dec g f) as [->|Hne]; [rewrite Hr, Hh|rewrite Ho by auto]; auto.
  - intros t g. rewrite Et. intros A. destruct (T2 _ _ A).
    destruct (Nat.eq_dec g f) as [->|Hne]; [rewrite Hr, Hh|rewrite Ho by auto]; auto.
Qed.

Lemma SInv_upd_same k qs ws f : SInv k qs (upd ws f (ws f)) -> SInv k qs ws.
Proof. intros H. eapply SInv_ext; eauto. intros g. upds; auto. Qed.

(** context.hpp:288-291 before try_push_, and the outcome of try_push_. *)
Lemma sinv_create k qs ws f k' e :
  SInv k qs ws -> ws f = SNone -> running (fib k f) = true -> create_waker k f = (k', e) ->
  SInv k' qs (upd ws f (SOffer e)) /\ SInv k' qs ws.
Proof.
  intros H Hw Hr Hc. unfold create_waker in Hc. inversion Hc; subst; clear Hc.
  assert (Hn : forall i e, ~ In (f, e) (qs i)) by (intros; eapply swnone_no_entry; eauto).
  pose proof (si_f _ _ _ H f) as Hf. unfold sfok in Hf. rewrite Hw in Hf. destruct Hf as (A & B & C & D).
  specialize (A Hr).
  assert (T : tok (set_fib k f (mkFiber (S (epoch (fib k f))) (running (fib k f)) (queued (fib k f)) (home (fib k f)) (sleep (fib k f))))).
  { eapply (tok_same k _ f); [apply H|reflexivity| | |]; simpl; updt; auto. intros g Hg. now updt. }
  split; [|apply SInv_upd_same with (f := f)]; (eapply sinv_change; [exact H|auto| | | |exact T|]); simpl; auto.
  1,4: intros g Hg; now updt.
  1,3: apply H.
  - unfold sfok. simpl. updt. simpl. splits; auto.
  - rewrite Hw. unfold sfok. simpl. updt. simpl. splits; auto.
Qed.

Lemma sinv_publish_wake k qs ws f e :
  SInv k qs ws -> publishes (ws f) e -> SInv (fst (wake k (f, e))) qs ws.
Proof.
  intros H Hp.
  assert (Hn : forall i e, ~ In (f, e) (qs i)) by (intros; eapply publishes_no_entry; eauto).
  destruct (Nat.eq_dec (epoch (fib k f)) e) as [He|He]; [|rewrite wake_stale; auto].
  rewrite wake_live by auto. simpl. apply SInv_upd_same with (f := f).
  pose proof (si_f _ _ _ H f) as Hf. unfold sfok in Hf.
  assert (Q : queued (fib k f) = false).
  { unfold xblocked, xrunnable in Hf. destruct Hp as [Hw|[Hw|[tp Hw]]]; rewrite Hw in Hf; clear H Hn; kcrush. }
  eapply sinv_change; [exact H|auto| | | | |]; simpl; auto.
  - intros g Hg. now updt.
  - rewrite Q, (si_e _ _ _ H). reflexivity.
  - eapply (tok_same k _ f); [apply H|reflexivity| | |]; simpl; updt; auto. intros g Hg. now updt.
  - unfold sfok. simpl. updt. simpl.
    destruct Hp as [Hw|[Hw|[tp Hw]]]; rewrite Hw in *; clear H Hn; kcrush.
Qed.

Lemma sinv_suspend k qs ws f e :
  SInv k qs ws -> ws f = SOffer e -> running (fib k f) = true ->
  SInv (suspend k f) qs (upd ws f (SSlot e)).
Proof.
  intros H Hw Hr. assert (Hn : forall i e, ~ In (f, e) (qs i)).
  { intros. eapply publishes_no_entry; eauto. left. eauto. }
  pose proof (si_f _ _ _ H f) as Hf. unfold sfok in Hf. rewrite Hw in Hf.
  unfold suspend. eapply sinv_change; [exact H|auto| | | | |]; simpl; auto.
  - intros g Hg. now updt.
  - apply H.
  - apply tok_park; auto. apply H.
  - unfold sfok. simpl. updt. simpl. clear H Hn; kcrush.
Qed.

Lemma sinv_wait_until k qs ws f tp e :
  SInv k qs ws -> ws f = SOffer e -> running (fib k f) = true ->
  SInv (wait_until_begin k f tp e) qs (upd ws f (SSlotT tp e)).
Proof.
  intros H Hw Hr. assert (Hn : forall i e, ~ In (f, e) (qs i)).
  { intros. eapply publishes_no_entry; eauto. left. eauto. }
  pose proof (si_f _ _ _ H f) as Hf. unfold sfok in Hf. rewrite Hw in Hf.
  unfold wait_until_begin, suspend, set_fib. simpl. updt. simpl.
  eapply sinv_change; [exact H|auto| | | | |]; simpl; auto.
  - intros g Hg. now updt.
  - apply H.
  - destruct (tok_park k f (mkFiber (epoch (fib k f)) false (queued (fib k f)) (home (fib k f)) (Some (tp, e)))) as [T1 T2]; auto.
    { apply H. }
    split; simpl in *.
    + intros g Hg. specialize (T1 g). destruct (Nat.eq_dec g f) as [->|Hne].
      * rewrite upd_same in Hg. discriminate Hg.
      * rewrite !(upd_other _ f _ g Hne) in *. auto.
    + intros t g X. specialize (T2 t g X). destruct (Nat.eq_dec g f) as [->|Hne].
      * rewrite upd_same in T2. destruct T2 as [T2 _]. discriminate T2.
      * rewrite !(upd_other _ f _ g Hne) in *. auto.
  - unfold sfok. simpl. updt. simpl. clear H Hn; kcrush.
Qed.

(** Resumed in the producer after the slot wait. *)
Lemma sinv_slot_done k qs ws f e :
  SInv k qs ws -> running (fib k f) = true -> (ws f = SSlot e \/ exists tp, ws f = SSlotT tp e) ->
  epoch (fib k f) = S e /\ SInv k qs (upd ws f SNone).
Proof.
  intros H Hr Hw. assert (Hn : forall i e, ~ In (f, e) (qs i)).
  { intros. eapply publishes_no_entry; eauto. right. eauto. }
  pose proof (si_f _ _ _ H f) as Hf. unfold sfok in Hf.
  assert (X : epoch (fib k f) = S e /\ (running (fib k f) = true -> queued (fib k f) = false) /\ sleep (fib k f) = None).
  { destruct Hw as [Hw|[tp Hw]]; rewrite Hw in Hf; clear H Hn; kcrush. }
  destruct X as (X1 & X2 & X3). split; auto.
  eapply sinv_change; [exact H|auto| | | | |]; auto; try apply H.
  unfold sfok, xrunnable. splits; auto.
Qed.
