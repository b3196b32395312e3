(** Facts about the kernel model: the wait discipline that every synchronization
    object follows, preserved by all kernel operations. *)
From Coq Require Import List Arith Bool Lia.
From Verif Require Import Base Kernel.
Import ListNotations.

(** What a fiber is doing with respect to the wait queues (numbered). *)
Inductive wstat :=
| WNone
| WUntimed (i e : nat)
| WTimed (i tp e : nat)
| WRelock (i tp e : nat).

Definition xrunnable (x : fiber) : Prop := running x = true \/ queued x = true.
Definition xblocked (x : fiber) : Prop := running x = false /\ queued x = false.

Definition fok (k : kern) (qs : nat -> wq) (f : fid) (w : wstat) : Prop :=
  let x := fib k f in
  (running x = true -> queued x = false) /\
  (running x = true -> sleep x = None) /\
  match w with
  | WNone => xrunnable x /\ sleep x = None
  | WUntimed i e => sleep x = None /\
      (xblocked x /\ epoch x = e /\ In (f, e) (qs i) \/
       xrunnable x /\ epoch x = S e /\ ~ In (f, e) (qs i))
  | WTimed i tp e =>
      (xblocked x /\ epoch x = e /\ In (f, e) (qs i) /\ sleep x = Some (tp, e)) \/
      (xrunnable x /\ epoch x = S e /\ (sleep x = None \/ sleep x = Some (tp, e)) /\
       (In (f, e) (qs i) -> tp <= now k))
  | WRelock i tp e => xrunnable x /\ epoch x = S e /\ sleep x = None /\ tp <= now k
  end.

Definition waits_in (w : wstat) (i e : nat) : Prop :=
  w = WUntimed i e \/ (exists tp, w = WTimed i tp e) \/ (exists tp, w = WRelock i tp e).

Definition qok (qs : nat -> wq) (ws : fid -> wstat) : Prop :=
  forall i, NoDup (qs i) /\ forall f e, In (f, e) (qs i) -> waits_in (ws f) i e.

Definition tok (k : kern) : Prop :=
  (forall f, running (fib k f) = true -> thr k (home (fib k f)) = Some f) /\
  (forall t f, thr k t = Some f -> running (fib k f) = true /\ home (fib k f) = t).

Record KInv (k : kern) (qs : nat -> wq) (ws : fid -> wstat) : Prop := {
  ki_f : forall f, fok k qs f (ws f);
  ki_q : qok qs ws;
  ki_e : err k = false;
  ki_t : tok k
}.

Lemma waker_eqb_spec a b : waker_eqb a b = true <-> a = b.
Proof.
  unfold waker_eqb. destruct a as [a1 a2], b as [b1 b2]; simpl.
  rewrite andb_true_iff, !Nat.eqb_eq. split; [intros [-> ->]; auto | intros H; inversion H; auto].
Qed.

Lemma is_linked_spec q w : is_linked q w = true <-> In w q.
Proof.
  unfold is_linked. rewrite existsb_exists. split.
  - intros (x & Hx & E). apply waker_eqb_spec in E. now subst.
  - intros H. exists w. split; auto. now apply waker_eqb_spec.
Qed.

Lemma wq_remove_In q w x : In x (wq_remove q w) <-> In x q /\ x <> w.
Proof.
  unfold wq_remove. rewrite filter_In, negb_true_iff. split; intros [H1 H2]; split; auto.
  - intros ->. assert (waker_eqb w w = true) by now apply waker_eqb_spec. congruence.
  - destruct (waker_eqb x w) eqn:E; auto. apply waker_eqb_spec in E. congruence.
Qed.

Lemma NoDup_filter' {A} (g : A -> bool) l : NoDup l -> NoDup (filter g l).
Proof.
  induction 1; simpl; [constructor|]. destruct (g x); auto.
  constructor; auto. rewrite filter_In. tauto.
Qed.

Lemma NoDup_snoc {A} (l : list A) x : NoDup l -> ~ In x l -> NoDup (l ++ [x]).
Proof.
  induction 1; simpl; intros Hn; [constructor; auto; constructor|].
  constructor.
  - rewrite in_app_iff. simpl. intuition.
  - apply IHNoDup. tauto.
Qed.

Lemma KInv_ext k qs qs' ws ws' :
  KInv k qs ws -> (forall i, qs' i = qs i) -> (forall f, ws' f = ws f) -> KInv k qs' ws'.
Proof.
  intros [Hf Hq He Ht] E1 E2. constructor; auto.
  - intros f. specialize (Hf f). rewrite E2. unfold fok in *.
    destruct (ws f); rewrite ?E1; auto.
  - intros i. rewrite E1. destruct (Hq i) as [H1 H2]. split; auto.
    intros. rewrite E2. auto.
Qed.

(** A waiting-queue entry whose epoch is current belongs to a blocked fiber. *)
Lemma live_blocked k qs ws i f e :
  KInv k qs ws -> In (f, e) (qs i) -> epoch (fib k f) = e ->
  xblocked (fib k f) /\ (ws f = WUntimed i e \/ exists tp, ws f = WTimed i tp e).
Proof.
  intros H Hin He. destruct (ki_q _ _ _ H i) as [_ Hq]. specialize (Hq _ _ Hin).
  pose proof (ki_f _ _ _ H f) as Hf. unfold fok in Hf.
  destruct Hq as [Hw|[[tp Hw]|[tp Hw]]]; rewrite Hw in Hf.
  - destruct Hf as (_ & _ & _ & [(Hb & _)|(_ & He2 & _)]); [split; auto | lia].
  - destruct Hf as (_ & _ & [(Hb & _)|(_ & He2 & _)]); [split; eauto | lia].
  - destruct Hf as (_ & _ & _ & He2 & _); lia.
Qed.

Lemma blocked_live k qs ws f :
  KInv k qs ws -> xblocked (fib k f) ->
  exists i, In (f, epoch (fib k f)) (qs i) /\
    (ws f = WUntimed i (epoch (fib k f)) \/ exists tp, ws f = WTimed i tp (epoch (fib k f))).
Proof.
  intros H Hb. pose proof (ki_f _ _ _ H f) as Hf. unfold fok in Hf. unfold xblocked, xrunnable in *.
  destruct (ws f) as [|i e|i tp e|i tp e].
  - destruct Hf as (_ & _ & [A|A] & _); destruct Hb; congruence.
  - destruct Hf as (_ & _ & _ & [(_ & <- & Hin)|([A|A] & _)]); [eauto| |]; destruct Hb; congruence.
  - destruct Hf as (_ & _ & [(_ & <- & Hin & _)|([A|A] & _)]); [eauto| |]; destruct Hb; congruence.
  - destruct Hf as (_ & _ & [A|A] & _); destruct Hb; congruence.
Qed.

Ltac kcrush :=
  unfold xrunnable, xblocked in *; simpl in *; intuition (try congruence; try lia; eauto).

(** Waking a live entry. *)
Lemma kinv_wake_live k qs ws i f e :
  KInv k qs ws -> In (f, e) (qs i) -> epoch (fib k f) = e ->
  KInv (fst (wake k (f, e))) (upd qs i (wq_remove (qs i) (f, e))) ws.
Proof.
  intros H Hin He.
  destruct (live_blocked _ _ _ _ _ _ H Hin He) as [Hb Hw].
  unfold wake. rewrite (proj2 (Nat.eqb_eq _ _) He). simpl.
  destruct H as [Hf Hq Herr Ht].
  assert (Hqi : forall j g e', In (g, e') (upd qs i (wq_remove (qs i) (f, e)) j) -> In (g, e') (qs j)).
  { intros j g e'. upds; auto. rewrite wq_remove_In. tauto. }
  assert (Hqj : forall j g e', g <> f -> In (g, e') (qs j) -> In (g, e') (upd qs i (wq_remove (qs i) (f, e)) j)).
  { intros j g e' Hne Hi. upds; auto. rewrite wq_remove_In. split; auto. congruence. }
  constructor; simpl.
  - intros g. specialize (Hf g). unfold fok in *. simpl.
    destruct (Nat.eq_dec g f) as [->|Hne]; updt; simpl.
    + destruct Hb as [Hb1 Hb2].
      destruct Hw as [Hw|[tp Hw]]; rewrite Hw in *.
      * destruct Hf as (_ & _ & Hs & _). rewrite Hb1, Hs.
        splits; auto; try discriminate.
        right. splits; auto; [now right|]. updt. rewrite wq_remove_In. tauto.
      * destruct Hf as (_ & _ & [(_ & _ & _ & Hs)|([A|A] & _)]); try congruence.
        rewrite Hb1, Hs. splits; auto; try discriminate.
        right. splits; auto; [now right|]. updt. rewrite wq_remove_In. tauto.
    + destruct (ws g) as [|j e'|j tp e'|j tp e']; auto.
      * destruct Hf as (A & B & C & D). splits; auto.
        destruct D as [(D1 & D2 & D3)|(D1 & D2 & D3)]; [left|right]; splits; auto; try solve [apply D1].
        all: try (intros Hc; apply D3; eauto).
      * destruct Hf as (A & B & D). splits; auto.
        destruct D as [(D1 & D2 & D3 & D4)|(D1 & D2 & D3 & D4)]; [left|right]; splits; auto; try solve [apply D1].
  - intros j. destruct (Hq j) as [Hn Hw']. split.
    + upds; auto. now apply NoDup_filter'.
    + intros g e' Hi. apply Hw'. eauto.
  - destruct Hb as [_ ->]. now rewrite Herr.
  - destruct Ht as [T1 T2]. destruct Hb as [Hb1 Hb2]. split; simpl.
    + intros g. upds; simpl; auto; congruence.
    + intros t g Ht'. destruct (T2 _ _ Ht'). upds; simpl; auto.
Qed.

Lemma wake_stale k f e : epoch (fib k f) <> e -> wake k (f, e) = (k, false).
Proof. intros H. unfold wake. destruct (Nat.eqb_spec (epoch (fib k f)) e); congruence. Qed.

Lemma wake_live k f e : epoch (fib k f) = e ->
  wake k (f, e) = (mkKern (upd (fib k) f (mkFiber (S e) (running (fib k f)) true (home (fib k f)) (sleep (fib k f))))
                     (thr k) (now k) (err k || queued (fib k f)), true).
Proof. intros H. unfold wake. now rewrite (proj2 (Nat.eqb_eq _ _) H). Qed.

(** Removing a stale entry keeps the discipline (except for untimed entries, which are never stale). *)
Lemma kinv_drop_stale k qs ws i f e :
  KInv k qs ws -> epoch (fib k f) <> e ->
  KInv k (upd qs i (wq_remove (qs i) (f, e))) ws.
Proof.
  intros H Hst. destruct H as [Hf Hq Herr Ht]. constructor; auto.
  - intros g. specialize (Hf g). unfold fok in *.
    assert (Hi : forall j e', epoch (fib k g) = e' ->
        In (g, e') (qs j) -> In (g, e') (upd qs i (wq_remove (qs i) (f, e)) j)).
    { intros j e' E Hi. upds; auto. rewrite wq_remove_In. split; auto. congruence. }
    assert (Hi2 : forall j e', In (g, e') (upd qs i (wq_remove (qs i) (f, e)) j) -> In (g, e') (qs j)).
    { intros j e'. upds; auto. rewrite wq_remove_In. tauto. }
    destruct (ws g) as [|j e'|j tp e'|j tp e']; auto.
    + destruct Hf as (A & B & C & D). splits; auto.
      destruct D as [(D1 & D2 & D3)|(D1 & D2 & D3)]; [left|right]; splits; auto; try solve [apply D1]; auto.
    + destruct Hf as (A & B & D). splits; auto.
      destruct D as [(D1 & D2 & D3 & D4)|(D1 & D2 & D3 & D4)]; [left|right]; splits; auto; try solve [apply D1]; auto.
  - intros j. destruct (Hq j) as [Hn Hw]. split.
    + upds; auto. now apply NoDup_filter'.
    + intros g e'. upds; auto. rewrite wq_remove_In. intros [A _]; auto.
Qed.

Lemma wq_remove_hd q w : ~ In w q -> wq_remove (w :: q) w = q.
Proof.
  intros H. unfold wq_remove. simpl.
  replace (waker_eqb w w) with true by (symmetry; now apply waker_eqb_spec). simpl.
  induction q as [|x q IH]; simpl; auto.
  destruct (waker_eqb x w) eqn:E; [apply waker_eqb_spec in E; subst; exfalso; apply H; now left|].
  simpl. f_equal. apply IH. intros Hi; apply H; now right.
Qed.

Lemma upd_upd {A} (m : nat -> A) i u v j : upd (upd m i u) i v j = upd m i v j.
Proof. unfold upd. destruct (Nat.eqb j i); auto. Qed.

(** Specification of notify_one under the discipline. *)
Lemma notify_one_inv i : forall q k qs ws k' q',
  KInv k qs ws -> qs i = q -> notify_one k q = (k', q') ->
  KInv k' (upd qs i q') ws /\ now k' = now k /\ thr k' = thr k /\
  (forall f e, In (f, e) q' -> In (f, e) q) /\
  ((exists g, In (g, epoch (fib k g)) q /\ xblocked (fib k g) /\
       fib k' g = mkFiber (S (epoch (fib k g))) false true (home (fib k g)) (sleep (fib k g)) /\
       (forall f, f <> g -> fib k' f = fib k f) /\
       (forall f, f <> g -> xblocked (fib k f) -> In (f, epoch (fib k f)) q -> In (f, epoch (fib k f)) q')) \/
   (k' = k /\ q' = [] /\ forall f e, In (f, e) q -> ~ xblocked (fib k f))).
Proof.
  induction q as [|[f e] q IH]; intros k qs ws k' q' H Hq Hn; simpl in Hn.
  - inversion Hn; subst. splits; auto.
    all: try (eapply KInv_ext; eauto; intros j; upds; auto).
  - destruct (Nat.eq_dec (epoch (fib k f)) e) as [He|He].
    + assert (Hin : In (f, e) (qs i)) by (rewrite Hq; now left).
      pose proof (kinv_wake_live _ _ _ _ _ _ H Hin He) as Hk.
      destruct (live_blocked _ _ _ _ _ _ H Hin He) as [Hb Hw].
      pose proof (wake_live k f e He) as Wk. unfold wake in Wk. rewrite Wk in Hn.
      inversion Hn; subst k' q'; clear Hn. simpl.
      rewrite wake_live in Hk by auto. simpl in Hk.
      destruct (ki_q _ _ _ H i) as [Hnd _]. rewrite Hq in Hnd. inversion Hnd; subst.
      rewrite Hq, wq_remove_hd in Hk by auto.
      splits; auto.
      left. exists f. splits; auto; try apply Hb.
      * updt. destruct Hb as [-> _]. reflexivity.
      * intros g Hg. now updt.
      * intros g Hg _ [E|Hi]; auto. inversion E; congruence.
    + assert (Wk := wake_stale k f e He). unfold wake in Wk. rewrite Wk in Hn.
      pose proof (kinv_drop_stale _ _ _ i _ _ H He) as Hk.
      destruct (ki_q _ _ _ H i) as [Hnd _]. rewrite Hq in Hnd. inversion Hnd as [|? ? Hni Hnd']; subst.
      rewrite Hq, wq_remove_hd in Hk by auto.
      destruct (IH k (upd qs i q) ws k' q' Hk) as (R1 & R2 & R3 & R4 & R5); auto.
      { now updt. }
      splits; auto.
      * eapply KInv_ext; [exact R1| |]; auto. intros j. symmetry. apply upd_upd.
      * intros g e' Hi. right. auto.
      * destruct R5 as [(g & G1 & G2 & G3 & G4 & G5)|(A & B & C)].
        -- left. exists g. splits; auto; try apply G2.
           ++ now right.
           ++ intros g' Hg' Hb [E|Hi]; [|auto]. inversion E; congruence.
        -- right. splits; auto. intros g e' [E|Hi] Hb; [|eapply C; eauto].
           inversion E; subst g e'. clear E.
           destruct (ki_q _ _ _ H i) as [_ Hw]. rewrite Hq in Hw.
           specialize (Hw f e (or_introl eq_refl)).
           pose proof (ki_f _ _ _ H f) as Hf. unfold fok in Hf.
           unfold xblocked, xrunnable in *.
           destruct Hw as [Hw|[[tp Hw]|[tp Hw]]]; rewrite Hw in Hf.
           ++ destruct Hf as (_ & _ & _ & [(_ & X & _)|([X|X] & _)]); [congruence| |]; destruct Hb; congruence.
           ++ destruct Hf as (_ & _ & [(_ & X & _)|([X|X] & _)]); [congruence| |]; destruct Hb; congruence.
           ++ destruct Hf as (_ & _ & [X|X] & _); destruct Hb; congruence.
Qed.

(** Specification of notify_all under the discipline. *)
Lemma notify_all_inv i : forall q k qs ws k' q',
  KInv k qs ws -> qs i = q -> notify_all k q = (k', q') ->
  KInv k' (upd qs i []) ws /\ q' = [] /\ now k' = now k /\ thr k' = thr k /\
  (forall f, In (f, epoch (fib k f)) q ->
     xblocked (fib k f) /\
     fib k' f = mkFiber (S (epoch (fib k f))) false true (home (fib k f)) (sleep (fib k f))) /\
  (forall f, ~ In (f, epoch (fib k f)) q -> fib k' f = fib k f).
Proof.
  induction q as [|[f e] q IH]; intros k qs ws k' q' H Hq Hn; simpl in Hn.
  - inversion Hn; subst. splits; auto; try contradiction.
    all: try (eapply KInv_ext; eauto; intros j; upds; auto).
  - destruct (ki_q _ _ _ H i) as [Hnd _]. rewrite Hq in Hnd. inversion Hnd as [|? ? Hni Hnd']; subst.
    destruct (Nat.eq_dec (epoch (fib k f)) e) as [He|He].
    + assert (Hin : In (f, e) (qs i)) by (rewrite Hq; now left).
      pose proof (kinv_wake_live _ _ _ _ _ _ H Hin He) as Hk.
      destruct (live_blocked _ _ _ _ _ _ H Hin He) as [Hb Hw].
      pose proof (wake_live k f e He) as Wk. unfold wake in Wk. rewrite Wk in Hn.
      rewrite wake_live in Hk by auto. simpl in Hk.
      rewrite Hq, wq_remove_hd in Hk by auto.
      set (k1 := mkKern _ _ _ _) in *.
      assert (Hfk1 : forall g, g <> f -> fib k1 g = fib k g) by (intros g Hg; unfold k1; simpl; now updt).
      assert (Hfk2 : fib k1 f = mkFiber (S e) false true (home (fib k f)) (sleep (fib k f))).
      { unfold k1; simpl. updt. destruct Hb as [-> _]. reflexivity. }
      assert (Hnf : forall e', ~ In (f, e') q).
      { intros e' Hi. destruct (ki_q _ _ _ H i) as [_ Hw'].
        assert (A1 := Hw' f e'). rewrite Hq in A1. specialize (A1 (or_intror Hi)).
        destruct A1 as [A1|[[tp A1]|[tp A1]]]; destruct Hw as [Hw|[tp' Hw]];
          rewrite A1 in Hw; try discriminate; inversion Hw; subst; contradiction. }
      destruct (IH k1 (upd qs i q) ws k' q' Hk) as (R1 & R2 & R3 & R4 & R5 & R6); auto.
      { now updt. }
      splits; auto.
      * eapply KInv_ext; [exact R1| |]; auto. intros j. symmetry. apply upd_upd.
      * intros f0 Hi. destruct (Nat.eq_dec f0 f) as [->|Hne].
        -- split; auto. rewrite R6 by (rewrite Hfk2; simpl; apply Hnf). rewrite Hfk2. now rewrite He.
        -- destruct Hi as [E|Hi]; [inversion E; congruence|].
           rewrite <- (Hfk1 _ Hne) in Hi |- *. now apply R5.
      * intros g Hg. destruct (Nat.eq_dec g f) as [->|Hne]; [exfalso; apply Hg; left; congruence|].
        rewrite R6; auto. rewrite Hfk1; auto. intros Hi; apply Hg; now right.
    + assert (Wk := wake_stale k f e He). unfold wake in Wk. rewrite Wk in Hn.
      pose proof (kinv_drop_stale _ _ _ i _ _ H He) as Hk.
      rewrite Hq, wq_remove_hd in Hk by auto.
      destruct (IH k (upd qs i q) ws k' q' Hk) as (R1 & R2 & R3 & R4 & R5 & R6); auto.
      { now updt. }
      splits; auto.
      * eapply KInv_ext; [exact R1| |]; auto. intros j. symmetry. apply upd_upd.
      * intros f0 [E|Hi]; [inversion E; congruence|]. now apply R5.
      * intros g Hg. apply R6. intros Hi; apply Hg; now right.
Qed.

(** Kernel steps of the environment. *)
Lemma kinv_kstep k qs ws l k' : KInv k qs ws -> kstep k l = Some k' -> KInv k' qs ws.
Proof.
  intros H Hs. destruct l as [f t|f|d]; simpl in Hs.
  - destruct (thr k t) eqn:Et; [discriminate|].
    destruct (queued (fib k f) && negb (running (fib k f))) eqn:E; [|discriminate].
    apply andb_true_iff in E. destruct E as [E1 E2]. apply negb_true_iff in E2.
    inversion Hs; subst k'; clear Hs.
    destruct H as [Hf Hq Herr [T1 T2]]. constructor; simpl; auto.
    + intros g. specialize (Hf g). unfold fok in *. simpl.
      destruct (Nat.eq_dec g f) as [->|Hne]; updt; simpl; auto.
      destruct (ws f) as [|i e|i tp e|i tp e]; kcrush.
    + split; simpl.
      * intros g. destruct (Nat.eq_dec g f) as [->|Hne]; updt; simpl; intros Hr; updt; auto.
        specialize (T1 _ Hr). rewrite upd_other; auto. intros Ec. rewrite Ec in T1. congruence.
      * intros t' g. unfold upd at 1. destruct (Nat.eqb_spec t' t) as [->|Hn].
        -- intros E; inversion E; subst g. updt. auto.
        -- intros E. destruct (T2 _ _ E). destruct (Nat.eq_dec g f) as [->|]; updt; auto; congruence.
  - destruct (thr k (home (fib k f))) eqn:Et; [discriminate|].
    destruct (sleep (fib k f)) as [[tp e]|] eqn:Es; [|discriminate].
    destruct (Nat.leb_spec tp (now k)) as [Hle|]; [|discriminate].
    inversion Hs; subst k'; clear Hs.
    pose proof (ki_f _ _ _ H f) as Hff. unfold fok in Hff. rewrite Es in Hff.
    destruct H as [Hf Hq Herr [T1 T2]].
    assert (Hw : exists i, ws f = WTimed i tp e).
    { destruct (ws f) as [|i' e'|i' tp' e'|i' tp' e']; try solve [kcrush].
      destruct Hff as (_ & _ & [(_ & _ & _ & E)|(_ & _ & [E|E] & _)]); inversion E; eauto. }
    destruct Hw as [i Hw]. rewrite Hw in Hff.
    assert (Hnr : running (fib k f) = false).
    { destruct (running (fib k f)) eqn:Er; auto. destruct Hff as (_ & A & _). discriminate (A eq_refl). }
    destruct Hff as (_ & _ & [(Hb & He & Hin & _)|(Hr & He & _ & Hin)]).
    + unfold wake. simpl. updt. simpl. rewrite (proj2 (Nat.eqb_eq _ _) He). simpl.
      constructor; simpl.
      * intros g. specialize (Hf g). unfold fok in *. simpl.
        destruct (Nat.eq_dec g f) as [->|Hne]; updt; simpl; auto.
        rewrite Hw in *. rewrite Hnr.
        splits; auto; try discriminate.
        right. splits; auto. now right.
      * auto.
      * updt. simpl. destruct Hb as [_ ->]. now rewrite Herr.
      * split; simpl.
        -- intros g. upds; simpl; auto; congruence.
        -- intros t' g Ht'. destruct (T2 _ _ Ht'). upds; simpl; auto.
    + unfold wake. simpl. updt. simpl.
      destruct (Nat.eqb_spec (epoch (fib k f)) e); [lia|]. simpl.
      constructor; simpl; auto.
      * intros g. specialize (Hf g). unfold fok in *. simpl.
        destruct (Nat.eq_dec g f) as [->|Hne]; updt; simpl; auto.
        rewrite Hw in *. rewrite Hnr in *. kcrush.
      * split; simpl.
        -- intros g. upds; simpl; auto; congruence.
        -- intros t' g Ht'. destruct (T2 _ _ Ht'). upds; simpl; auto.
  - inversion Hs; subst k'; clear Hs. destruct H as [Hf Hq Herr Ht]. constructor; simpl; auto.
    intros g. specialize (Hf g). unfold fok in *. simpl.
    destruct (ws g) as [|i e|i tp e|i tp e]; kcrush.
Qed.

Lemma kinv_thr k qs ws f : KInv k qs ws -> running (fib k f) = true ->
  thr k (home (fib k f)) = Some f.
Proof. intros H. apply (ki_t _ _ _ H). Qed.

Lemma tok_park k f x :
  tok k -> running (fib k f) = true -> running x = false ->
  tok (mkKern (upd (fib k) f x) (upd (thr k) (home (fib k f)) None) (now k) (err k)).
Proof.
  intros [T1 T2] Hr Hx. split; simpl.
  - intros g. destruct (Nat.eq_dec g f) as [->|Hne]; updt; simpl; intros Hg; [congruence|].
    pose proof (T1 _ Hg) as Tg. unfold upd. destruct (Nat.eqb_spec (home (fib k g)) (home (fib k f))) as [E|E]; auto.
    rewrite E in Tg. rewrite (T1 _ Hr) in Tg. congruence.
  - intros t g. unfold upd at 1. destruct (Nat.eqb_spec t (home (fib k f))) as [E|E]; [discriminate|].
    intros Ht. destruct (T2 _ _ Ht) as [A B]. destruct (Nat.eq_dec g f) as [->|]; updt; auto; congruence.
Qed.

(** No entry of a fiber that does not wait. *)
Lemma wnone_no_entry k qs ws f i e : KInv k qs ws -> ws f = WNone -> ~ In (f, e) (qs i).
Proof.
  intros H Hw Hin. destruct (ki_q _ _ _ H i) as [_ A]. specialize (A _ _ Hin).
  unfold waits_in in A. rewrite Hw in A. intuition; try discriminate; destruct H1; discriminate.
Qed.

Lemma kinv_block k qs ws f i k' q' e :
  KInv k qs ws -> ws f = WNone -> running (fib k f) = true ->
  suspend_and_wait k f (qs i) = (k', q', e) ->
  KInv k' (upd qs i q') (upd ws f (WUntimed i e)).
Proof.
  intros H Hw Hr Hs. unfold suspend_and_wait, create_waker in Hs. inversion Hs; subst; clear Hs.
  assert (Hn : forall j e', ~ In (f, e') (qs j)) by (intros; eapply wnone_no_entry; eauto).
  destruct H as [Hf Hq Herr Ht]. unfold suspend, set_fib. simpl. updt. simpl.
  assert (Hff := Hf f). unfold fok in Hff. rewrite Hw in Hff. destruct Hff as (A & B & C & D).
  constructor; simpl; auto.
  - intros g. specialize (Hf g). unfold fok in *. simpl.
    destruct (Nat.eq_dec g f) as [->|Hne].
    + updt. simpl. splits; auto; try discriminate. left.
      unfold xblocked; simpl; splits; auto.
      updt. apply in_or_app. right. now left.
    + updt.
      assert (Hi : forall j e', In (g, e') (upd qs i (qs i ++ [(f, S (epoch (fib k f)))]) j) <-> In (g, e') (qs j)).
      { intros j e'. upds; [|tauto]. rewrite in_app_iff. simpl. intuition. inversion H0; congruence. }
      destruct (ws g); rewrite ?Hi; auto.
  - intros j. destruct (Hq j) as [Hnd Hw']. split.
    + upds; auto. apply NoDup_snoc; auto.
    + intros g e' Hi. destruct (Nat.eq_dec g f) as [->|Hne].
      * upds; [|exfalso; eapply Hn; eauto]. apply in_app_or in Hi. destruct Hi as [Hi|[Hi|[]]]; [exfalso; eapply Hn; eauto|].
        inversion Hi; subst. now left.
      * updt. apply Hw'. upds; auto. apply in_app_or in Hi. destruct Hi as [Hi|[Hi|[]]]; auto. inversion Hi; congruence.
  - destruct Ht as [T1 T2]. split; simpl.
    + intros g. destruct (Nat.eq_dec g f) as [->|Hne]; updt; simpl; intros Hg; [congruence|].
      pose proof (T1 _ Hg) as Tg. unfold upd. destruct (Nat.eqb_spec (home (fib k g)) (home (fib k f))) as [E|E]; auto.
      rewrite E in Tg. rewrite (T1 _ Hr) in Tg. congruence.
    + intros t g. unfold upd at 1. destruct (Nat.eqb_spec t (home (fib k f))) as [E|E]; [discriminate|].
      intros Htt. destruct (T2 _ _ Htt) as [A1 B1]. destruct (Nat.eq_dec g f) as [->|]; updt; auto; congruence.
Qed.

Lemma kinv_block_until k qs ws f i tp k' q' e :
  KInv k qs ws -> ws f = WNone -> running (fib k f) = true ->
  suspend_and_wait_until k f (qs i) tp = (k', q', e) ->
  KInv k' (upd qs i q') (upd ws f (WTimed i tp e)).
Proof.
  intros H Hw Hr Hs. unfold suspend_and_wait_until, create_waker in Hs. inversion Hs; subst; clear Hs.
  assert (Hn : forall j e', ~ In (f, e') (qs j)) by (intros; eapply wnone_no_entry; eauto).
  destruct H as [Hf Hq Herr Ht]. unfold wait_until_begin, suspend, set_fib. simpl. updt. simpl.
  assert (Hff := Hf f). unfold fok in Hff. rewrite Hw in Hff. destruct Hff as (A & B & C & D).
  constructor; simpl; auto.
  - intros g. specialize (Hf g). unfold fok in *. simpl.
    destruct (Nat.eq_dec g f) as [->|Hne].
    + updt. simpl. splits; auto; try discriminate. left.
      unfold xblocked; simpl; splits; auto.
      updt. apply in_or_app. right. now left.
    + updt.
      assert (Hi : forall j e', In (g, e') (upd qs i (qs i ++ [(f, S (epoch (fib k f)))]) j) <-> In (g, e') (qs j)).
      { intros j e'. upds; [|tauto]. rewrite in_app_iff. simpl. intuition. inversion H0; congruence. }
      destruct (ws g); rewrite ?Hi; auto.
  - intros j. destruct (Hq j) as [Hnd Hw']. split.
    + upds; auto. apply NoDup_snoc; auto.
    + intros g e' Hi. destruct (Nat.eq_dec g f) as [->|Hne].
      * upds; [|exfalso; eapply Hn; eauto]. apply in_app_or in Hi. destruct Hi as [Hi|[Hi|[]]]; [exfalso; eapply Hn; eauto|].
        inversion Hi; subst. right; left; eauto.
      * updt. apply Hw'. upds; auto. apply in_app_or in Hi. destruct Hi as [Hi|[Hi|[]]]; auto. inversion Hi; congruence.
  - destruct Ht as [T1 T2]. split; simpl.
    + intros g. destruct (Nat.eq_dec g f) as [->|Hne]; updt; simpl; intros Hg; [congruence|].
      pose proof (T1 _ Hg) as Tg. unfold upd at 1. destruct (Nat.eqb_spec (home (fib k g)) (home (fib k f))) as [E|E]; auto.
      rewrite E in Tg. rewrite (T1 _ Hr) in Tg. congruence.
    + intros t g. unfold upd at 1. destruct (Nat.eqb_spec t (home (fib k f))) as [E|E]; [discriminate|].
      intros Htt. destruct (T2 _ _ Htt) as [A1 B1]. destruct (Nat.eq_dec g f) as [->|]; updt; auto; congruence.
Qed.

Lemma kinv_yield k qs ws f :
  KInv k qs ws -> running (fib k f) = true -> KInv (yield k f) qs ws.
Proof.
  intros H Hr. destruct H as [Hf Hq Herr Ht]. unfold yield.
  assert (Hff := Hf f). unfold fok in Hff. destruct Hff as (A & B & C). specialize (A Hr). specialize (B Hr).
  constructor; simpl; auto.
  - intros g. specialize (Hf g). unfold fok in *. simpl.
    destruct (Nat.eq_dec g f) as [->|Hne]; updt; simpl; auto.
    destruct (ws f) as [|i e|i tp e|i tp e]; kcrush.
  - now rewrite A, Herr.
  - destruct Ht as [T1 T2]. split; simpl.
    + intros g. destruct (Nat.eq_dec g f) as [->|Hne]; updt; simpl; intros Hg; [congruence|].
      pose proof (T1 _ Hg) as Tg. unfold upd at 1. destruct (Nat.eqb_spec (home (fib k g)) (home (fib k f))) as [E|E]; auto.
      rewrite E in Tg. rewrite (T1 _ Hr) in Tg. congruence.
    + intros t g. unfold upd at 1. destruct (Nat.eqb_spec t (home (fib k f))) as [E|E]; [discriminate|].
      intros Htt. destruct (T2 _ _ Htt) as [A1 B1]. destruct (Nat.eq_dec g f) as [->|]; updt; auto; congruence.
Qed.

(** Returning from an untimed wait. *)
Lemma kinv_resume k qs ws f i e :
  KInv k qs ws -> running (fib k f) = true -> ws f = WUntimed i e ->
  is_linked (qs i) (f, e) = false /\ KInv k qs (upd ws f WNone).
Proof.
  intros H Hr Hw. pose proof (ki_f _ _ _ H f) as Hff. unfold fok in Hff. rewrite Hw in Hff.
  destruct Hff as (A & B & C & [(Hb & _)|(D1 & D2 & D3)]); [destruct Hb; congruence|].
  split.
  { destruct (is_linked (qs i) (f, e)) eqn:E; auto. apply is_linked_spec in E. contradiction. }
  destruct H as [Hf Hq Herr Ht]. constructor; auto.
  - intros g. specialize (Hf g). destruct (Nat.eq_dec g f) as [->|Hne]; updt; auto.
    unfold fok. auto.
  - intros j. destruct (Hq j) as [Hnd Hw']. split; auto.
    intros g e' Hi. destruct (Nat.eq_dec g f) as [->|Hne]; updt; auto.
    exfalso. specialize (Hw' _ _ Hi). unfold waits_in in Hw'. rewrite Hw in Hw'.
    destruct Hw' as [E|[[tp E]|[tp E]]]; inversion E; subst. contradiction.
Qed.

Lemma kassert_true k : kassert k true = mkKern (fib k) (thr k) (now k) (err k || false).
Proof. reflexivity. Qed.

Lemma kinv_kassert k qs ws b : KInv k qs ws -> b = true -> KInv (kassert k b) qs ws.
Proof.
  intros [A B C D] ->. constructor; simpl; auto.
  now rewrite C.
Qed.

(** Returning from a timed wait before the deadline. *)
Lemma kinv_resume_until k qs ws f i tp e :
  KInv k qs ws -> running (fib k f) = true -> ws f = WTimed i tp e ->
  wait_until_result k tp = true -> KInv k qs (upd ws f WNone).
Proof.
  intros H Hr Hw Ht0. unfold wait_until_result in Ht0. apply Nat.ltb_lt in Ht0.
  pose proof (ki_f _ _ _ H f) as Hff. unfold fok in Hff. rewrite Hw in Hff.
  destruct Hff as (A & B & [(Hb & _)|(D1 & D2 & D3 & D4)]); [destruct Hb; congruence|].
  assert (Hni : ~ In (f, e) (qs i)) by (intros Hi; apply D4 in Hi; lia).
  destruct H as [Hf Hq Herr Ht]. constructor; auto.
  - intros g. specialize (Hf g). destruct (Nat.eq_dec g f) as [->|Hne]; updt; auto.
    unfold fok. auto.
  - intros j. destruct (Hq j) as [Hnd Hw']. split; auto.
    intros g e' Hi. destruct (Nat.eq_dec g f) as [->|Hne]; updt; auto.
    exfalso. specialize (Hw' _ _ Hi). unfold waits_in in Hw'. rewrite Hw in Hw'.
    destruct Hw' as [E|[[tp' E]|[tp' E]]]; inversion E; subst. contradiction.
Qed.

(** Timed out: the waker may still be linked. *)
Lemma kinv_timeout k qs ws f i tp e :
  KInv k qs ws -> running (fib k f) = true -> ws f = WTimed i tp e ->
  wait_until_result k tp = false -> KInv k qs (upd ws f (WRelock i tp e)).
Proof.
  intros H Hr Hw Ht0. unfold wait_until_result in Ht0. apply Nat.ltb_ge in Ht0.
  pose proof (ki_f _ _ _ H f) as Hff. unfold fok in Hff. rewrite Hw in Hff.
  destruct Hff as (A & B & [(Hb & _)|(D1 & D2 & D3 & D4)]); [destruct Hb; congruence|].
  destruct H as [Hf Hq Herr Ht]. constructor; auto.
  - intros g. specialize (Hf g). destruct (Nat.eq_dec g f) as [->|Hne]; updt; auto.
    unfold fok. splits; auto.
  - intros j. destruct (Hq j) as [Hnd Hw']. split; auto.
    intros g e' Hi. destruct (Nat.eq_dec g f) as [->|Hne]; updt; auto.
    specialize (Hw' _ _ Hi). unfold waits_in in *. rewrite Hw in Hw'.
    destruct Hw' as [E|[[tp' E]|[tp' E]]]; inversion E; subst. eauto.
Qed.

Lemma kinv_relock k qs ws f i tp e :
  KInv k qs ws -> running (fib k f) = true -> ws f = WRelock i tp e ->
  KInv k (upd qs i (if is_linked (qs i) (f, e) then wq_remove (qs i) (f, e) else qs i)) (upd ws f WNone).
Proof.
  intros H Hr Hw.
  assert (E : forall j g e', In (g, e') (upd qs i (if is_linked (qs i) (f, e) then wq_remove (qs i) (f, e) else qs i) j)
            <-> In (g, e') (qs j) /\ ~ (j = i /\ g = f /\ e' = e)).
  { intros j g e'. upds.
    - destruct (is_linked (qs i) (f, e)) eqn:El.
      + rewrite wq_remove_In. split; intros [P Q]; split; auto.
        * intros (_ & -> & ->); auto.
        * intros X; inversion X; subst; apply Q; auto.
      + assert (Hl : ~ In (f, e) (qs i)) by (rewrite <- is_linked_spec; congruence).
        intuition; subst; contradiction.
    - intuition. }
  pose proof (ki_f _ _ _ H f) as Hff. unfold fok in Hff. rewrite Hw in Hff.
  destruct Hff as (A & B & D1 & D2 & D3 & D4).
  destruct H as [Hf Hq Herr Ht]. constructor; auto.
  - intros g. specialize (Hf g). destruct (Nat.eq_dec g f) as [->|Hne]; updt.
    + unfold fok. auto.
    + unfold fok in *.
      assert (E' : forall j e', In (g, e') (upd qs i (if is_linked (qs i) (f, e) then wq_remove (qs i) (f, e) else qs i) j)
            <-> In (g, e') (qs j)) by (intros; rewrite E; intuition).
      destruct (ws g); rewrite ?E'; auto.
  - intros j. destruct (Hq j) as [Hnd Hw']. split.
    + upds; auto. destruct (is_linked (qs i) (f, e)); auto. now apply NoDup_filter'.
    + intros g e'. rewrite E. intros [Hi Hx]. destruct (Nat.eq_dec g f) as [->|Hne]; updt; auto.
      exfalso. specialize (Hw' _ _ Hi). unfold waits_in in Hw'. rewrite Hw in Hw'.
      destruct Hw' as [X|[[tp' X]|[tp' X]]]; inversion X; subst. apply Hx; auto.
Qed.

Lemma kinv_init : KInv kinit (fun _ => []) (fun _ => WNone).
Proof.
  constructor; simpl; auto.
  - intros f. unfold fok, xrunnable; simpl. intuition; discriminate.
  - intros i. split; [constructor | intros ? ? []].
  - split; simpl; intros; discriminate.
Qed.

(** Facts read off the invariant. *)
Lemma kinv_running_not_queued k qs ws f :
  KInv k qs ws -> running (fib k f) = true -> queued (fib k f) = false.
Proof. intros H. apply (ki_f _ _ _ H f). Qed.

Lemma kinv_one_per_thread k qs ws f g :
  KInv k qs ws -> running (fib k f) = true -> running (fib k g) = true ->
  home (fib k f) = home (fib k g) -> f = g.
Proof.
  intros H Hf Hg E. destruct (ki_t _ _ _ H) as [T _].
  pose proof (T _ Hf). pose proof (T _ Hg). rewrite E in *. congruence.
Qed.

Lemma kstep_runnable k l k' f qs ws :
  KInv k qs ws -> kstep k l = Some k' -> xrunnable (fib k f) -> xrunnable (fib k' f).
Proof.
  intros H Hs Hr. destruct l as [g t|g|d]; simpl in Hs.
  - destruct (thr k t); [discriminate|]. destruct (queued (fib k g) && negb (running (fib k g))); [|discriminate].
    inversion Hs; subst; simpl. upds; simpl; auto. now left.
  - destruct (thr k (home (fib k g))); [discriminate|]. destruct (sleep (fib k g)) as [[tp e]|]; [|discriminate].
    destruct (Nat.leb tp (now k)); [|discriminate]. inversion Hs; subst; clear Hs.
    unfold wake. simpl. updt. simpl. destruct (Nat.eqb (epoch (fib k g)) e); simpl; upds; simpl; auto.
    now right.
  - inversion Hs; subst; auto.
Qed.

Lemma kstep_now k l k' : kstep k l = Some k' -> now k <= now k'.
Proof.
  intros Hs. destruct l as [g t|g|d]; simpl in Hs.
  - destruct (thr k t); [discriminate|]. destruct (queued (fib k g) && negb (running (fib k g))); [|discriminate].
    inversion Hs; subst; simpl; auto.
  - destruct (thr k (home (fib k g))); [discriminate|]. destruct (sleep (fib k g)) as [[tp e]|]; [|discriminate].
    destruct (Nat.leb tp (now k)); [|discriminate]. inversion Hs; subst; clear Hs.
    unfold wake. simpl. updt. simpl. destruct (Nat.eqb (epoch (fib k g)) e); simpl; auto.
  - inversion Hs; subst; simpl; lia.
Qed.
