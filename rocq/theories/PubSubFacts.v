(** Invariants of the publish/subscribe server. *)
From Coq Require Import List Arith Bool Lia.
From Verif Require Import Base PubSub PubSubSpec.
Import ListNotations.

Lemma subseq_refl : forall a, subseq a a.
Proof. induction a; constructor; auto. Qed.
Lemma subseq_tail : forall m a b, subseq (m :: a) b -> subseq a b.
Proof. intros m a b H. remember (m :: a) as c eqn:E. revert m a E. induction H; intros m' a' E; try discriminate; [injection E as -> ->; now constructor|]. constructor. eauto. Qed.

(** What deliver does to every subscriber. *)
Lemma deliver_at : forall m l a s, fst (fold_left (deliver1 m) l a) s = (if in_dec Nat.eq_dec s l then m else fst a s) /\
  snd (fold_left (deliver1 m) l a) s = (if in_dec Nat.eq_dec s l then match snd a s with SWait => SReady | x => x end else snd a s).
Proof.
  intros m. induction l as [|x l IH]; intros a s; [simpl; auto|]. simpl fold_left. destruct (IH (deliver1 m a x) s) as (A & B). rewrite A, B. clear A B IH.
  unfold deliver1; cbn [fst snd]. destruct (Nat.eq_dec x s) as [->|N].
  - rewrite upd_same. destruct (in_dec Nat.eq_dec s (s :: l)) as [_|X]; [|destruct X; simpl; auto].
    destruct (in_dec Nat.eq_dec s l); split; auto; destruct (snd a s) eqn:E; rewrite ?upd_same; auto; rewrite E; auto.
  - rewrite upd_other by auto. assert (Y : (match snd a x with SWait => upd (snd a) x SReady | _ => snd a end) s = snd a s) by (destruct (snd a x); rewrite ?upd_other; auto). rewrite Y.
    destruct (in_dec Nat.eq_dec s l) as [i|i], (in_dec Nat.eq_dec s (x :: l)) as [j|j]; auto; exfalso; simpl in j; intuition.
Qed.

(** Who is subscribed, and in which state. *)
Record inv (t : st) : Prop := {
  i_in : forall q s, match queues t q with Some l => In s l <-> subscribed s (log t) = Some q | None => subscribed s (log t) <> Some q end;
  i_state : forall s, match subs t s with SNew | SEnd => subscribed s (log t) = None | _ => forall q, subscribed s (log t) = Some q -> q = sq t s end;
  i_order : forall s, match subs t s with
    | SNew => written s (log t) = [] /\ owed s (log t) = []
    | SReady => subseq (buf t s :: written s (log t)) (owed s (log t))
    | SWrite m => subseq (m :: written s (log t)) (owed s (log t))
    | _ => subseq (written s (log t)) (owed s (log t)) end
}.
Lemma inv_init : inv init_state.
Proof. split; intros; simpl; auto; discriminate. Qed.

Definition quiet_ev (e : event) : bool := match e with ERegFail _ _ | EPubFail _ _ | ESubFail _ _ | ELost _ | EReg _ _ => true | _ => false end.
Lemma quiet_sub : forall e l s, quiet_ev e = true -> subscribed s (e :: l) = subscribed s l /\ owed s (e :: l) = owed s l /\ written s (e :: l) = written s l.
Proof. intros e l s H. destruct e; try discriminate; auto. Qed.

Lemma punreg_inv : forall t p q es, (es = [] \/ exists e, es = [e] /\ quiet_ev e = true) -> inv t -> inv (punreg t p q es).
Proof.
  intros t p q es Hes [Ii Is Io]. unfold punreg. set (ls := match queues t q with Some l => l | None => [] end). destruct (deliver t ls Fini) as [b n] eqn:D.
  assert (B : forall s, b s = (if in_dec Nat.eq_dec s ls then Fini else buf t s) /\ n s = (if in_dec Nat.eq_dec s ls then match subs t s with SWait => SReady | x => x end else subs t s)).
  { intros s. pose proof (deliver_at Fini ls (buf t, subs t) s) as X. unfold deliver in D. rewrite D in X. exact X. }
  assert (L : forall s, In s ls <-> subscribed s (log t) = Some q).
  { intros s. specialize (Ii q s). unfold ls. destruct (queues t q); auto. simpl. split; [tauto|]. intros X. destruct (Ii X). }
  assert (E : forall s, subscribed s (EUnreg p q :: es ++ log t) = (if in_dec Nat.eq_dec s ls then None else subscribed s (log t)) /\
    owed s (EUnreg p q :: es ++ log t) = (if in_dec Nat.eq_dec s ls then Fini :: owed s (log t) else owed s (log t)) /\ written s (EUnreg p q :: es ++ log t) = written s (log t)).
  { intros s. assert (Q : subscribed s (es ++ log t) = subscribed s (log t) /\ owed s (es ++ log t) = owed s (log t) /\ written s (es ++ log t) = written s (log t)).
    { destruct Hes as [-> |(e & -> & He)]; [auto|]. exact (quiet_sub e (log t) s He). }
    destruct Q as (Q1 & Q2 & Q3). cbn [subscribed owed written]. rewrite Q1, Q2, Q3. specialize (L s). destruct (in_dec Nat.eq_dec s ls) as [i|i].
    - apply L in i. rewrite i, Nat.eqb_refl. auto.
    - destruct (subscribed s (log t)) as [q'|]; auto. destruct (Nat.eqb_spec q' q) as [->|]; auto. destruct i. tauto. }
  split; cbn [queues subs sq buf pubs pq log]; intros.
  - destruct (E s) as (-> & _ & _). destruct (Nat.eq_dec q0 q) as [->|N].
    + rewrite upd_same. specialize (L s). destruct (in_dec Nat.eq_dec s ls); [discriminate|]. tauto.
    + rewrite upd_other by auto. specialize (Ii q0 s). specialize (L s). destruct (in_dec Nat.eq_dec s ls) as [i|i]; auto. apply L in i. destruct (queues t q0); [|discriminate].
      rewrite Ii, i. split; [congruence|discriminate].
  - destruct (E s) as (-> & _ & _). destruct (B s) as (_ & ->). specialize (Is s). specialize (L s). destruct (in_dec Nat.eq_dec s ls) as [i|i]; auto.
    destruct (subs t s); auto; discriminate.
  - destruct (E s) as (_ & -> & ->). destruct (B s) as (-> & ->). specialize (Io s). specialize (L s). specialize (Is s). destruct (in_dec Nat.eq_dec s ls) as [i|i]; auto.
    apply L in i. destruct (subs t s); try congruence; try constructor; auto. apply subseq_tail in Io. auto.
Qed.

Lemma sunsub_inv : forall t s q es, (es = [] \/ exists e, es = [e] /\ quiet_ev e = true) -> (subscribed s (log t) = None \/ q = sq t s) -> subs t s <> SWait ->
  (forall q', subscribed s (log t) = Some q' -> q' = sq t s) -> subseq (written s (log t)) (owed s (log t)) -> inv t -> inv (sunsub t s q es).
Proof.
  intros t s q es Hes Hq Hw Hsq Ho [Ii Is Io]. unfold sunsub.
  assert (E : forall x, subscribed x (EUnsub s q :: es ++ log t) = (if Nat.eqb s x then None else subscribed x (log t)) /\ owed x (EUnsub s q :: es ++ log t) = owed x (log t) /\ written x (EUnsub s q :: es ++ log t) = written x (log t)).
  { intros x. assert (Q : subscribed x (es ++ log t) = subscribed x (log t) /\ owed x (es ++ log t) = owed x (log t) /\ written x (es ++ log t) = written x (log t)).
    { destruct Hes as [-> |(e & -> & He)]; [auto|]. exact (quiet_sub e (log t) x He). }
    destruct Q as (Q1 & Q2 & Q3). cbn [subscribed owed written]. rewrite Q1, Q2, Q3. auto. }
  split; cbn [queues subs sq buf pubs pq log]; intros.
  - destruct (E s0) as (-> & _ & _). pose proof (Ii q0 s0) as I0. assert (R : match queues t q with Some l => upd (queues t) q (Some (remove Nat.eq_dec s l)) | None => queues t end q0 = match queues t q0 with Some l => Some (if Nat.eqb q q0 then remove Nat.eq_dec s l else l) | None => None end).
    { destruct (Nat.eqb_spec q q0) as [->|N]; [destruct (queues t q0) eqn:X; [now rewrite upd_same|auto]|]. destruct (queues t q); rewrite ?upd_other by auto; destruct (queues t q0); auto. }
    rewrite R. destruct (queues t q0) as [l|]; [|destruct (Nat.eqb s s0); [discriminate|auto]].
    destruct (Nat.eqb_spec s s0) as [->|N].
    + split; [|discriminate]. intros X. exfalso. destruct (Nat.eqb_spec q q0) as [->|Nq]; [destruct (remove_In Nat.eq_dec l s0 X)|]. apply I0 in X. destruct Hq as [Hq|Hq]; [congruence|]. apply Hsq in X. congruence.
    + rewrite <- I0. destruct (Nat.eqb q q0); [|tauto]. split; [intros X; apply in_remove in X; tauto|]. intros X. apply in_in_remove; auto.
  - destruct (E s0) as (-> & _ & _). destruct (Nat.eqb_spec s s0) as [->|N]; [rewrite upd_same; auto|]. rewrite !upd_other by auto. apply Is.
  - destruct (E s0) as (_ & -> & ->). destruct (Nat.eq_dec s0 s) as [->|N]; [rewrite upd_same; auto|]. rewrite upd_other by auto. apply Io.
Qed.

Lemma inv_step : forall t l t', inv t -> step t l = Some t' -> inv t'.
Proof.
  intros t l t' Iv E. pose proof Iv as [Ii Is Io]. destruct l as [p q|p|p m|p|s q|s|s|s ok]; unfold step in E.
  - destruct (pubs t p); try discriminate. injection E as <-. destruct (queues t q) eqn:Q; [apply punreg_inv; eauto|]. 
    split; cbn [queues subs sq buf pubs pq log]; intros; cbn [subscribed owed written]; auto; [|apply Is|apply Io].
    specialize (Ii q0 s). destruct (Nat.eq_dec q0 q) as [->|N]; [rewrite upd_same; rewrite Q in Ii; simpl; tauto|]. now rewrite upd_other by auto.
  - destruct (pubs t p); try discriminate. injection E as <-. apply punreg_inv; auto.
  - destruct (pubs t p); try discriminate. injection E as <-. destruct (queues t (pq t p)) as [ls|] eqn:Q; [|apply punreg_inv; eauto]. set (q := pq t p) in *. destruct (deliver t ls m) as [b n] eqn:D.
    assert (B : forall s, b s = (if in_dec Nat.eq_dec s ls then m else buf t s) /\ n s = (if in_dec Nat.eq_dec s ls then match subs t s with SWait => SReady | x => x end else subs t s)).
    { intros s. pose proof (deliver_at m ls (buf t, subs t) s) as X. unfold deliver in D. rewrite D in X. exact X. }
    assert (L : forall s, In s ls <-> subscribed s (log t) = Some q). { intros s. specialize (Ii q s). now rewrite Q in Ii. }
    assert (Ow : forall s, owed s (EPub p q m :: log t) = if in_dec Nat.eq_dec s ls then m :: owed s (log t) else owed s (log t)).
    { intros s. cbn [owed]. specialize (L s). destruct (in_dec Nat.eq_dec s ls) as [i|i]; [apply L in i; now rewrite i, Nat.eqb_refl|]. destruct (subscribed s (log t)) as [q'|]; auto. destruct (Nat.eqb_spec q' q) as [->|]; auto. destruct i. tauto. }
    split; cbn [queues subs sq buf pubs pq log]; intros.
    + apply Ii.
    + cbn [subscribed]. destruct (B s) as (_ & ->). specialize (Is s). specialize (L s). destruct (in_dec Nat.eq_dec s ls) as [i|i]; auto. destruct (subs t s); auto.
    + rewrite Ow. cbn [written]. destruct (B s) as (-> & ->). specialize (Io s). specialize (Is s). specialize (L s). destruct (in_dec Nat.eq_dec s ls) as [i|i]; auto.
      apply L in i. destruct (subs t s); try congruence; try constructor; auto. apply subseq_tail in Io. auto.
  - destruct (pubs t p); try discriminate. injection E as <-. apply punreg_inv; auto.
  - destruct (subs t s) eqn:S; try discriminate. injection E as <-. pose proof (Is s) as Is1. pose proof (Io s) as Io1. rewrite S in Is1, Io1. destruct Io1 as (W & O). destruct (queues t q) as [ls|] eqn:Q.
    + split; cbn [queues subs sq buf pubs pq log]; intros; cbn [subscribed owed written].
      * specialize (Ii q0 s0). destruct (Nat.eqb_spec s s0) as [->|N].
        -- destruct (Nat.eq_dec q0 q) as [->|Nq]; [rewrite upd_same; simpl; tauto|]. rewrite upd_other by auto. rewrite Is1 in Ii. destruct (queues t q0); [|congruence]. rewrite Ii. split; congruence.
        -- destruct (Nat.eq_dec q0 q) as [->|Nq]; [|now rewrite upd_other by auto]. rewrite upd_same. rewrite Q in Ii. simpl. rewrite <- Ii. split; [intros [X|X]; [congruence|auto]|auto].
      * destruct (Nat.eqb_spec s s0) as [->|N]; [rewrite !upd_same; congruence|]. rewrite !upd_other by auto. apply Is.
      * destruct (Nat.eq_dec s0 s) as [->|N]; [rewrite upd_same, W, O; constructor|]. rewrite upd_other by auto. apply Io.
    + apply sunsub_inv; eauto; try congruence. rewrite W, O. constructor.
  - destruct (subs t s) eqn:S; try discriminate. injection E as <-. pose proof (Is s) as Is1. pose proof (Io s) as Io1. rewrite S in Is1, Io1. destruct Io1 as (W & O).
    apply sunsub_inv; eauto; try congruence. rewrite W, O. constructor.
  - destruct (subs t s) eqn:S; try discriminate. injection E as <-. pose proof (Is s) as Is1. pose proof (Io s) as Io1. rewrite S in Is1, Io1. destruct (buf t s) as [|v] eqn:Bf.
    + apply sunsub_inv; auto; try congruence. now apply subseq_tail in Io1.
    + split; cbn [queues subs sq buf pubs pq log]; intros; [apply Ii|destruct (Nat.eq_dec s0 s) as [->|N]; [rewrite upd_same; auto|rewrite upd_other by auto; apply Is]|destruct (Nat.eq_dec s0 s) as [->|N]; [rewrite upd_same; auto|rewrite upd_other by auto; apply Io]].
  - destruct (subs t s) eqn:S; try discriminate. injection E as <-. pose proof (Is s) as Is1. pose proof (Io s) as Io1. rewrite S in Is1, Io1. destruct ok.
    + split; cbn [queues subs sq buf pubs pq log]; intros; cbn [subscribed owed written]; auto.
      * apply Ii.
      * destruct (Nat.eq_dec s0 s) as [->|N]; [rewrite upd_same; auto|]. rewrite upd_other by auto. apply Is.
      * destruct (Nat.eqb_spec s s0) as [->|N]; [rewrite upd_same; auto|]. rewrite upd_other by auto. apply Io.
    + apply sunsub_inv; eauto; try congruence. now apply subseq_tail in Io1.
Qed.
Lemma inv_reach : forall t, reachable step init_state t -> inv t.
Proof. exact (reachable_inv step inv init_state inv_init inv_step). Qed.

(** A subscriber that waits and is in no queue waits for ever. *)
Definition orphan (s : nat) (t : st) : Prop := subs t s = SWait /\ forall q l, queues t q = Some l -> ~ In s l.
Lemma orphan_step : forall s t l t', orphan s t -> step t l = Some t' -> orphan s t'.
Proof.
  intros s t l t' (W & N) E.
  assert (PU : forall p q es, orphan s (punreg t p q es)).
  { intros p q es. unfold punreg. set (ls := match queues t q with Some l => l | None => [] end). assert (NL : ~ In s ls) by (unfold ls; specialize (N q); destruct (queues t q); auto).
    destruct (deliver t ls Fini) as [b n] eqn:D. pose proof (deliver_at Fini ls (buf t, subs t) s) as (_ & X). unfold deliver in D. rewrite D in X. cbn [snd] in X. destruct (in_dec Nat.eq_dec s ls); [tauto|].
    split; cbn [subs queues]; [congruence|]. intros q' l'. destruct (Nat.eq_dec q' q) as [->|]; [rewrite upd_same; discriminate|rewrite upd_other by auto; apply N]. }
  assert (SU : forall x q es, x <> s -> orphan s (sunsub t x q es)).
  { intros x q es Hx. unfold sunsub. split; cbn [subs queues]; [now rewrite upd_other by auto|]. intros q' l'. destruct (queues t q) as [l0|] eqn:Q; [|apply N].
    destruct (Nat.eq_dec q' q) as [->|]; [rewrite upd_same; intros X; injection X as <-; intros Y; apply in_remove in Y; destruct (N q l0 Q); tauto|rewrite upd_other by auto; apply N]. }
  destruct l as [p q|p|p m|p|x q|x|x|x ok]; unfold step in E.
  - destruct (pubs t p); try discriminate. injection E as <-. destruct (queues t q) eqn:Q; auto. split; auto. cbn [queues]. intros q' l'. destruct (Nat.eq_dec q' q) as [->|]; [rewrite upd_same; intros X; injection X as <-; auto|rewrite upd_other by auto; apply N].
  - destruct (pubs t p); try discriminate. injection E as <-. auto.
  - destruct (pubs t p); try discriminate. injection E as <-. destruct (queues t (pq t p)) as [ls|] eqn:Q; auto. destruct (deliver t ls m) as [b n] eqn:D. pose proof (deliver_at m ls (buf t, subs t) s) as (_ & X). unfold deliver in D. rewrite D in X. cbn [snd] in X.
    destruct (in_dec Nat.eq_dec s ls) as [i|]; [destruct (N _ _ Q i)|]. split; auto. cbn [subs]. congruence.
  - destruct (pubs t p); try discriminate. injection E as <-. auto.
  - destruct (subs t x) eqn:S; try discriminate. assert (x <> s) by congruence. injection E as <-. destruct (queues t q) as [ls|] eqn:Q; auto. split; cbn [subs queues]; [now rewrite upd_other by auto|].
    intros q' l'. destruct (Nat.eq_dec q' q) as [->|]; [rewrite upd_same; intros X; injection X as <-; intros [Y|Y]; [auto|exact (N _ _ Q Y)]|rewrite upd_other by auto; apply N].
  - destruct (subs t x) eqn:S; try discriminate. assert (x <> s) by congruence. injection E as <-. auto.
  - destruct (subs t x) eqn:S; try discriminate. assert (x <> s) by congruence. injection E as <-. destruct (buf t x); auto. split; cbn [subs queues]; auto. now rewrite upd_other by auto.
  - destruct (subs t x) eqn:S; try discriminate. assert (x <> s) by congruence. injection E as <-. destruct ok; auto. split; cbn [subs queues]; auto. now rewrite upd_other by auto.
Qed.
Lemma orphan_exec : forall s tr t t', orphan s t -> exec step t tr = Some t' -> orphan s t'.
Proof. induction tr as [|l tr IH]; simpl; intros t t' O E; [injection E as <-; auto|]. destruct (step t l) eqn:S; [|discriminate]. exact (IH _ _ (orphan_step _ _ _ _ O S) E). Qed.

(** Publishers do something only if no subscriber is busy. *)
Definition pinv1 (t : st) (s : nat) : Prop := match subs t s with
    | SWait => written s (log t) = owed s (log t) /\ subscribed s (log t) = Some (sq t s)
    | SReady => buf t s :: written s (log t) = owed s (log t) /\ (subscribed s (log t) = Some (sq t s) \/ buf t s = Fini)
    | SWrite m => m :: written s (log t) = owed s (log t) /\ subscribed s (log t) = Some (sq t s)
    | _ => True end.
Definition pinv (t : st) : Prop := forall s, pinv1 t s.
Lemma punreg_pinv : forall t p q es, (es = [] \/ exists e, es = [e] /\ quiet_ev e = true) -> inv t -> calm t -> pinv t -> pinv (punreg t p q es).
Proof.
  intros t p q es Hes [Ii Is _] Ca Pi s. unfold punreg. set (ls := match queues t q with Some l => l | None => [] end). destruct (deliver t ls Fini) as [b n] eqn:D.
  pose proof (deliver_at Fini ls (buf t, subs t) s) as B. unfold deliver in D. rewrite D in B. cbn [fst snd] in B. destruct B as (B1 & B2).
  assert (L : In s ls <-> subscribed s (log t) = Some q).
  { specialize (Ii q s). unfold ls. destruct (queues t q); auto. simpl. split; [tauto|]. intros X. destruct (Ii X). }
  assert (Q : subscribed s (es ++ log t) = subscribed s (log t) /\ owed s (es ++ log t) = owed s (log t) /\ written s (es ++ log t) = written s (log t)).
  { destruct Hes as [-> |(e & -> & He)]; [auto|]. exact (quiet_sub e (log t) s He). }
  destruct Q as (Q1 & Q2 & Q3). specialize (Pi s). specialize (Ca s). unfold pinv1 in *. cbn [queues subs sq buf pubs pq log subscribed owed written]. rewrite B1, B2, Q1, Q2, Q3.
  destruct (in_dec Nat.eq_dec s ls) as [i|i].
  - apply L in i. rewrite i, Nat.eqb_refl. destruct (subs t s); auto; try tauto. destruct Pi as (-> & _). auto.
  - destruct (subs t s); auto; try tauto. destruct Pi as (A & C). rewrite C. destruct (Nat.eqb_spec (sq t s) q) as [X|]; auto. destruct i. apply L. congruence.
Qed.
Lemma sunsub_pinv : forall t s q es, (es = [] \/ exists e, es = [e] /\ quiet_ev e = true) -> pinv t -> pinv (sunsub t s q es).
Proof.
  intros t s q es Hes Pi x. unfold sunsub, pinv1. cbn [queues subs sq buf pubs pq log subscribed owed written].
  assert (Q : subscribed x (es ++ log t) = subscribed x (log t) /\ owed x (es ++ log t) = owed x (log t) /\ written x (es ++ log t) = written x (log t)).
  { destruct Hes as [-> |(e & -> & He)]; [auto|]. exact (quiet_sub e (log t) x He). }
  destruct Q as (Q1 & Q2 & Q3). rewrite Q1, Q2, Q3. destruct (Nat.eqb_spec s x) as [->|N]; [now rewrite upd_same|]. rewrite !upd_other by auto. exact (Pi x).
Qed.
Lemma pinv_step : forall t l t', inv t -> (publishes l = true -> calm t) -> pinv t -> step t l = Some t' -> pinv t'.
Proof.
  intros t l t' Iv Ca Pi E. pose proof Iv as [Ii Is Io]. destruct l as [p q|p|p m|p|s q|s|s|s ok]; unfold step in E; cbn [publishes] in Ca.
  - destruct (pubs t p); try discriminate. injection E as <-. destruct (queues t q) eqn:Q; [apply punreg_pinv; eauto|]. intros s. exact (Pi s).
  - destruct (pubs t p); try discriminate. injection E as <-. apply punreg_pinv; auto.
  - destruct (pubs t p); try discriminate. injection E as <-. destruct (queues t (pq t p)) as [ls|] eqn:Q; [|apply punreg_pinv; eauto]. set (q := pq t p) in *. destruct (deliver t ls m) as [b n] eqn:D.
    intros s. pose proof (deliver_at m ls (buf t, subs t) s) as B. unfold deliver in D. rewrite D in B. cbn [fst snd] in B. destruct B as (B1 & B2).
    assert (L : In s ls <-> subscribed s (log t) = Some q). { specialize (Ii q s). now rewrite Q in Ii. }
    specialize (Pi s). specialize (Ca eq_refl s). unfold pinv1 in *. cbn [queues subs sq buf pubs pq log subscribed owed written]. rewrite B1, B2. destruct (in_dec Nat.eq_dec s ls) as [i|i].
    + apply L in i. rewrite i, Nat.eqb_refl. destruct (subs t s); auto; try tauto. destruct Pi as (-> & C). rewrite i in C. auto.
    + destruct (subs t s); auto; try tauto. destruct Pi as (A & C). rewrite C. destruct (Nat.eqb_spec (sq t s) q) as [X|]; auto. destruct i. apply L. congruence.
  - destruct (pubs t p); try discriminate. injection E as <-. apply punreg_pinv; auto.
  - destruct (subs t s) eqn:S; try discriminate. injection E as <-. pose proof (Io s) as Io1. rewrite S in Io1. destruct Io1 as (W & O). destruct (queues t q) as [ls|] eqn:Q; [|apply sunsub_pinv; eauto].
    intros x. specialize (Pi x). unfold pinv1 in *. cbn [queues subs sq buf pubs pq log subscribed owed written]. destruct (Nat.eqb_spec s x) as [->|N]; [rewrite !upd_same, W, O; auto|]. now rewrite !upd_other by auto.
  - destruct (subs t s) eqn:S; try discriminate. injection E as <-. apply sunsub_pinv; auto.
  - destruct (subs t s) eqn:S; try discriminate. injection E as <-. destruct (buf t s) as [|v] eqn:Bf; [apply sunsub_pinv; auto|].
    intros x. pose proof (Pi x) as Px. unfold pinv1 in *. cbn [queues subs sq buf pubs pq log]. destruct (Nat.eq_dec x s) as [->|N]; [|now rewrite upd_other by auto]. rewrite upd_same. rewrite S, Bf in Px. destruct Px as (A & [C|C]); [auto|discriminate].
  - destruct (subs t s) eqn:S; try discriminate. injection E as <-. destruct ok; [|apply sunsub_pinv; eauto].
    intros x. pose proof (Pi x) as Px. unfold pinv1 in *. cbn [queues subs sq buf pubs pq log subscribed owed written]. destruct (Nat.eqb_spec s x) as [->|N]; [rewrite upd_same; rewrite S in Px; auto|now rewrite upd_other by auto].
Qed.
Lemma paced_inv : forall t, paced t -> inv t /\ pinv t.
Proof.
  induction 1 as [|t l t' _ (I1 & I2) Hc E]; [split; [apply inv_init|intros s; exact I]|]. split; [eapply inv_step; eauto|eapply pinv_step; eauto].
Qed.

(** Publishers use different names. *)
Record dinv (t : st) : Prop := {
  d_run : forall p, pubs t p = PRun -> pq t p <> 0 /\ queues t (pq t p) <> None;
  d_one : forall p p', pubs t p = PRun -> pubs t p' = PRun -> pq t p = pq t p' -> p = p';
  d_own : forall q, queues t q <> None -> exists p, pubs t p = PRun /\ pq t p = q;
  d_log : forall e, In e (log t) -> match e with EPubFail _ _ | ERegFail _ _ => False | _ => True end
}.
Lemma punreg_fields : forall t p q es, queues (punreg t p q es) = upd (queues t) q None /\ pubs (punreg t p q es) = upd (pubs t) p PEnd /\ pq (punreg t p q es) = upd (pq t) p q /\ log (punreg t p q es) = EUnreg p q :: es ++ log t.
Proof. intros. unfold punreg. destruct (deliver _ _ _). auto. Qed.
(** Only the set of subscribers of a queue changes. *)
Lemma dinv_same : forall t t', dinv t -> pubs t' = pubs t -> pq t' = pq t -> (forall q, queues t' q = None <-> queues t q = None) -> (forall e, In e (log t') -> In e (log t) \/ match e with EPubFail _ _ | ERegFail _ _ => False | _ => True end) -> dinv t'.
Proof.
  intros t t' [A B C D] E1 E2 E3 E4. split; rewrite ?E1, ?E2; auto.
  - intros p Hp. destruct (A p Hp). split; auto. now rewrite E3.
  - intros q. rewrite E3. apply C.
  - intros e X. destruct (E4 e X); auto. now apply D.
Qed.
Lemma dinv_step : forall t l t', (forall p q, l = POpen p q -> q <> 0 /\ forall p', pubs t p' = PRun -> pq t p' <> q) -> dinv t -> step t l = Some t' -> dinv t'.
Proof.
  intros t l t' Hd Di E. pose proof Di as [A B C D].
  assert (SU : forall x q es, (forall e, In e es -> match e with EPubFail _ _ | ERegFail _ _ => False | _ => True end) -> dinv (sunsub t x q es)).
  { intros x q es He. apply (dinv_same t); auto; unfold sunsub; cbn [queues log].
    - intros q'. destruct (queues t q) eqn:Q; [|tauto]. destruct (Nat.eq_dec q' q) as [->|]; [rewrite upd_same, Q; split; discriminate|now rewrite upd_other by auto].
    - intros e [<-|X]; auto. apply in_app_iff in X. destruct X; auto. right. now apply He. }
  assert (PU : forall p q, (pubs t p = PRun /\ q = pq t p) \/ (pubs t p = PNew /\ q = 0) -> dinv (punreg t p q [])).
  { intros p q Hp. destruct (punreg_fields t p q []) as (F1 & F2 & F3 & F4). split; rewrite ?F1, ?F2, ?F3, ?F4.
    - intros p'. destruct (Nat.eq_dec p' p) as [->|N]; [rewrite upd_same; discriminate|]. rewrite !(upd_other _ p) by auto. intros R. destruct (A p' R) as (A1 & A2). split; auto.
      destruct (Nat.eq_dec (pq t p') q) as [X|X]; [exfalso|now rewrite upd_other by auto]. destruct Hp as [(P & ->)|(P & ->)]; [destruct (N (B p' p R P X))|congruence].
    - intros p1 p2. destruct (Nat.eq_dec p1 p) as [->|N1]; [rewrite upd_same; discriminate|]. destruct (Nat.eq_dec p2 p) as [->|N2]; [rewrite upd_same; discriminate|]. rewrite !upd_other by auto. apply B.
    - intros q'. destruct (Nat.eq_dec q' q) as [->|N]; [rewrite upd_same; congruence|]. rewrite upd_other by auto. intros X. destruct (C q' X) as (p' & R & Y). exists p'. destruct (Nat.eq_dec p' p) as [->|Np]; [|rewrite !upd_other by auto; auto].
      exfalso. destruct Hp as [(P & Hq)|(P & Hq)]; congruence.
    - intros e [<-|X]; simpl; auto. now apply D. }
  destruct l as [p q|p|p m|p|x q|x|x|x ok]; unfold step in E.
  - destruct (pubs t p) eqn:P; try discriminate. injection E as <-. destruct (Hd p q eq_refl) as (Q0 & Qn). destruct (queues t q) as [ls|] eqn:Q.
    + exfalso. destruct (C q) as (p' & R & Y); [congruence|]. exact (Qn p' R Y).
    + split; cbn [queues pubs pq log].
      * intros p'. destruct (Nat.eq_dec p' p) as [->|N]; [rewrite !upd_same; intros _; split; auto; discriminate|]. rewrite !(upd_other _ p) by auto. intros R. destruct (A p' R) as (A1 & A2). split; auto. rewrite upd_other; auto.
      * intros p1 p2. destruct (Nat.eq_dec p1 p) as [->|N1]; destruct (Nat.eq_dec p2 p) as [->|N2]; rewrite ?upd_same, ?upd_other by auto; auto; [intros _ R X; destruct (Qn p2 R); auto|intros R _ X; destruct (Qn p1 R); auto].
      * intros q'. destruct (Nat.eq_dec q' q) as [->|N]; [intros _; exists p; rewrite !upd_same; auto|]. rewrite upd_other by auto. intros X. destruct (C q' X) as (p' & R & Y). exists p'. destruct (Nat.eq_dec p' p) as [->|Np]; [congruence|]. rewrite !upd_other by auto. auto.
      * intros e [<-|X]; auto. now apply D.
  - destruct (pubs t p) eqn:P; try discriminate. injection E as <-. auto.
  - destruct (pubs t p) eqn:P; try discriminate. injection E as <-. destruct (A p P) as (_ & A2). destruct (queues t (pq t p)) as [ls|] eqn:Q; [|congruence]. destruct (deliver t ls m) as [b n] eqn:Dl. apply (dinv_same t); auto; cbn [queues log]; [tauto|]. intros e [<-|X]; auto.
  - destruct (pubs t p) eqn:P; try discriminate. injection E as <-. auto.
  - destruct (subs t x) eqn:S; try discriminate. injection E as <-. destruct (queues t q) as [ls|] eqn:Q; [|apply SU; intros e [<-|[]]; auto].
    apply (dinv_same t); auto; cbn [queues log]; [|intros e [<-|X]; auto]. intros q'. destruct (Nat.eq_dec q' q) as [->|]; [rewrite upd_same, Q; split; discriminate|now rewrite upd_other by auto].
  - destruct (subs t x) eqn:S; try discriminate. injection E as <-. apply SU. intros e [].
  - destruct (subs t x) eqn:S; try discriminate. injection E as <-. destruct (buf t x); [apply SU; intros e []|]. apply (dinv_same t); auto. tauto.
  - destruct (subs t x) eqn:S; try discriminate. injection E as <-. destruct ok; [|apply SU; intros e [<-|[]]; auto]. apply (dinv_same t); auto; cbn [queues log]; [tauto|]. intros e [<-|X]; auto.
Qed.
Lemma distinct_inv : forall t, distinct t -> dinv t.
Proof.
  induction 1 as [|t l t' _ I1 Hc E]; [|eapply dinv_step; eauto]. split; simpl; intros; try discriminate; try tauto.
Qed.
