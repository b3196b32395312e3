(** Invariants for AsioRR. *)
From Coq Require Import List Arith Bool Lia Sorted FinFun.
From Verif Require Import Base AsioRR AsioRRSpec.
Import ListNotations.

Definition nd (c : ctx) : bool := match c with Disp => false | _ => true end.
Definition ctx_eq (a b : ctx) : {a = b} + {a <> b}. Proof. repeat decide equality. Defined.
(** The dispatcher comes before the service fiber. *)
Definition dfirst (q : list ctx) : Prop := exists a b, q = a ++ Disp :: b /\ ~ In Svc a.
Definition away (p : spc) : bool := match p with LWaiting | LBlocked _ => true | _ => false end.

Record qok (q : list ctx) (c : nat) (r : ctx) (w : nat -> wst) : Prop := {
  q_cnt : c = length (filter nd q);
  q_nodup : NoDup (r :: q);
  q_ready : forall i, w i = WReady <-> In (Wk i) q;
  q_run : forall i, w i = WRun <-> r = Wk i;
  q_disp : In Disp (r :: q)
}.
Record slok (l : list (nat * nat)) (w : nat -> wst) : Prop := {
  sl_nodup : NoDup (map snd l);
  sl_sleep : forall i, w i = WSleep <-> In i (map snd l);
  sl_sorted : StronglySorted (fun a b => fst a <= fst b) l
}.
Record rok (l : list nat) (w : nat -> wst) : Prop := {
  r_nodup : NoDup l;
  r_rem : forall i, w i = WRemote <-> In i l
}.
Record inv (s : st) : Prop := {
  g_q : qok (rq s) (counter s) (run s) (ws s);
  g_s : slok (sleeps s) (ws s);
  g_r : rok (remote s) (ws s);
  g_svc : In Svc (run s :: rq s) <-> away (lpc s) = false;
  g_dsus : dsus s = true -> run s = Disp /\ rq s = [];
  g_one : run s = Svc -> lpc s = LRunOne -> counter s = 0;
  g_hnd : run s <> Svc -> lpc s <> LRunOne /\ forall k, lpc s <> LHnd HTimer k;
  g_rem : remote s <> [] -> owed s > 0 \/ In HTimer (hq s) \/ (run s = Svc /\ exists k, lpc s = LHnd HTimer k) \/ (run s <> Svc /\ (run s = Disp \/ dfirst (rq s)))
}.
Lemma inv_init : forall n, inv (init_state n).
Proof.
  intros n. split; simpl.
  - split.
    + assert (E : forall k m, length (filter nd (map Wk (seq m k))) = k) by (induction k; intros; simpl; auto). simpl. rewrite E. auto.
    + constructor.
      * intros [X|X]; [discriminate|]. apply in_map_iff in X as (i & X & _). discriminate.
      * constructor.
        -- intros X. apply in_map_iff in X as (i & X & _). discriminate.
        -- apply Injective_map_NoDup; [intros a b E; congruence|apply seq_NoDup].
    + intros i. destruct (Nat.ltb_spec i n) as [L|L]; split; intros X; auto; try discriminate.
      * right. apply in_map. apply in_seq. lia.
      * destruct X as [X|X]; [discriminate|]. apply in_map_iff in X as (j & E & X). inversion E; subst. apply in_seq in X. lia.
    + intros i. destruct (i <? n); split; intros; discriminate.
    + simpl. auto.
  - split; simpl; [constructor|intros i; destruct (i <? n); split; intros; try discriminate; tauto|constructor].
  - split; simpl; [constructor|intros i; destruct (i <? n); split; intros; try discriminate; tauto].
  - split; auto.
  - discriminate.
  - discriminate.
  - congruence.
  - congruence.
Qed.
Lemma filter_last : forall (p : ctx -> bool) q c, length (filter p (q ++ [c])) = length (filter p q) + (if p c then 1 else 0).
Proof. intros p q c. induction q as [|x q IH]; simpl; [destruct (p c); auto|]. destruct (p x); simpl; lia. Qed.

(** Ready queue: append. *)
Lemma nodup_last : forall (A : Type) (q : list A) x, NoDup q -> ~ In x q -> NoDup (q ++ [x]).
Proof.
  intros A q x H N. induction q as [|a q IH]; simpl; [repeat constructor; auto|]. inversion H; subst. constructor.
  - rewrite in_app_iff. simpl. intros [X|[X|[]]]; auto. subst. apply N. simpl. auto.
  - apply IH; auto. intros X. apply N. simpl. auto.
Qed.
Lemma qok_app : forall q c r w x w', qok q c r w -> ~ In x (r :: q) ->
  (forall i, w' i = WReady <-> w i = WReady \/ x = Wk i) -> (forall i, w' i = WRun <-> w i = WRun) ->
  qok (q ++ [x]) (match x with Disp => c | _ => S c end) r w'.
Proof.
  intros q c r w x w' Q N R1 R2. destruct Q. split.
  - rewrite filter_last. destruct x; simpl; lia.
  - apply (nodup_last _ (r :: q)); auto.
  - intros i. rewrite R1, q_ready0, in_app_iff. simpl. split; intros [X|X]; auto. destruct X as [X|[]]; auto.
  - intros i. rewrite R2. auto.
  - simpl in *. rewrite in_app_iff. tauto.
Qed.

Definition on (x : ctx) (w : nat -> wst) : nat -> wst := match x with Wk i => upd w i WRun | _ => w end.
Definition down (x : ctx) (c : nat) : nat := match x with Disp => c | _ => c - 1 end.
Definition up (x : ctx) (c : nat) : nat := match x with Disp => c | _ => S c end.
Lemma switch_spec : forall s s', switch s = Some s' -> exists x q, rq s = x :: q /\ s' = set_w (set_q s q (down x (counter s)) x) (on x (ws s)).
Proof.
  intros s s' H. unfold switch in H. destruct (rq s) as [|x q] eqn:E; [discriminate|]. exists x, q. split; auto.
  destruct x; inversion H; reflexivity.
Qed.
(** The running context is suspended or terminates. *)
Lemma qok_leave : forall x q c r w w1, qok (x :: q) c r w -> r <> Disp -> (forall i, w1 i = WReady <-> w i = WReady) -> (forall i, w1 i <> WRun) ->
  qok q (down x c) x (on x w1).
Proof.
  intros x q c r w w1 Q D R1 R2. destruct Q. inversion q_nodup0; subst. inversion H2; subst. split.
  - simpl. destruct x; simpl; lia.
  - auto.
  - intros i. unfold on. destruct x; try (rewrite R1, q_ready0; simpl; intuition discriminate).
    unfold upd. destruct (Nat.eqb_spec i i0) as [->|N].
    + split; [discriminate|tauto].
    + rewrite R1, q_ready0. simpl. split; auto. intros [X|X]; auto. congruence.
  - intros i. unfold on. destruct x; try (split; [intros X; exfalso; eapply R2; eauto|discriminate]).
    unfold upd. destruct (Nat.eqb_spec i i0) as [->|N]; [tauto|]. split; [intros X; exfalso; eapply R2; eauto|congruence].
  - destruct q_disp0; [congruence|auto].
Qed.
(** The running context is put at the end of the queue. *)
Lemma qok_yield : forall x q c r w w1, qok (x :: q) c r w -> (forall i, w1 i = WReady <-> w i = WReady \/ r = Wk i) -> (forall i, w1 i <> WRun) ->
  qok (q ++ [r]) (up r (down x c)) x (on x w1).
Proof.
  intros x q c r w w1 Q R1 R2. destruct Q. inversion q_nodup0; subst. inversion H2; subst. split.
  - rewrite filter_last. destruct x, r; simpl; lia.
  - apply (nodup_last _ (x :: q)); auto.
  - intros i. rewrite in_app_iff. unfold on. destruct x; try (rewrite R1, q_ready0; simpl; intuition discriminate).
    unfold upd. destruct (Nat.eqb_spec i i0) as [->|N].
    + split; [discriminate|]. intros [X|[X|[]]]; [tauto|]. exfalso. apply H1. simpl. auto.
    + rewrite R1, q_ready0. simpl. intuition congruence.
  - intros i. unfold on. destruct x; try (split; [intros X; exfalso; eapply R2; eauto|discriminate]).
    unfold upd. destruct (Nat.eqb_spec i i0) as [->|N]; [tauto|]. split; [intros X; exfalso; eapply R2; eauto|congruence].
  - simpl in *. rewrite in_app_iff. simpl. tauto.
Qed.
Lemma slok_ext : forall l w w', slok l w -> (forall i, w' i = WSleep <-> w i = WSleep) -> slok l w'.
Proof. intros l w w' S E. destruct S. split; auto. intros i. rewrite E. auto. Qed.
Lemma rok_ext : forall l w w', rok l w -> (forall i, w' i = WRemote <-> w i = WRemote) -> rok l w'.
Proof. intros l w w' S E. destruct S. split; auto. intros i. rewrite E. auto. Qed.

Record core (s : st) (l : list nat) : Prop := { c_q : qok (rq s) (counter s) (run s) (ws s); c_s : slok (sleeps s) (ws s); c_r : rok l (ws s) }.
Lemma sorted_filter : forall p (l : list (nat * nat)), StronglySorted (fun a b => fst a <= fst b) l -> StronglySorted (fun a b => fst a <= fst b) (filter p l).
Proof.
  intros p l H. induction H as [|a l H IH F]; simpl; [constructor|]. destruct (p a); auto. constructor; auto.
  rewrite Forall_forall in *. intros x X. apply filter_In in X. apply F. tauto.
Qed.
Lemma nodup_filter : forall p (l : list (nat * nat)), NoDup (map snd l) -> NoDup (map snd (filter p l)).
Proof.
  intros p l H. induction l as [|a l IH]; simpl in *; [constructor|]. inversion H; subst. destruct (p a); simpl; auto. constructor; auto.
  intros X. apply H2. apply in_map_iff in X as (y & E & X). apply filter_In in X. apply in_map_iff. exists y. tauto.
Qed.
Lemma in_filter_snd : forall i j (l : list (nat * nat)), In j (map snd (filter (fun p => negb (snd p =? i)) l)) <-> In j (map snd l) /\ j <> i.
Proof.
  intros i j l. rewrite !in_map_iff. split.
  - intros (p & E & X). apply filter_In in X as [X Y]. destruct (Nat.eqb_spec (snd p) i); [discriminate|]. split; [eauto|congruence].
  - intros ((p & E & X) & N). exists p. split; auto. apply filter_In. split; auto. destruct (Nat.eqb_spec (snd p) i); auto. congruence.
Qed.
Lemma schedule_q : forall s i, qok (rq s) (counter s) (run s) (ws s) -> slok (sleeps s) (ws s) -> ws s i <> WReady -> ws s i <> WRun ->
  qok (rq (schedule s i)) (counter (schedule s i)) (run (schedule s i)) (ws (schedule s i)) /\ slok (sleeps (schedule s i)) (ws (schedule s i)).
Proof.
  intros s i Q S N1 N2. unfold schedule. cbn [awakened set_q set_w set_s rq counter run ws sleeps]. split.
  - apply (qok_app _ _ _ (ws s) (Wk i)); auto.
    + intros [X|X]; [apply (q_run _ _ _ _ Q) in X; auto|apply (q_ready _ _ _ _ Q) in X; auto].
    + intros j. unfold upd. destruct (Nat.eqb_spec j i) as [->|D]; [tauto|]. intuition congruence.
    + intros j. unfold upd. destruct (Nat.eqb_spec j i) as [->|D]; [|tauto]. split; [discriminate|tauto].
  - destruct S. split.
    + apply nodup_filter; auto.
    + intros j. rewrite in_filter_snd, <- sl_sleep0. unfold upd. destruct (Nat.eqb_spec j i) as [->|D]; [|tauto]. split; [discriminate|tauto].
    + apply sorted_filter; auto.
Qed.
Lemma schedule_core : forall s i l, core s l -> ws s i <> WReady -> ws s i <> WRun -> ws s i <> WRemote -> core (schedule s i) l.
Proof.
  intros s i l [Q S R] N1 N2 N3. destruct (schedule_q s i Q S N1 N2). split; auto. apply rok_ext with (ws s); auto.
  intros j. unfold schedule. simpl. unfold upd. destruct (Nat.eqb_spec j i) as [->|D]; [|tauto]. split; [discriminate|tauto].
Qed.
Lemma schedule_core2 : forall s i l, core s (i :: l) -> core (schedule s i) l.
Proof.
  intros s i l [Q S R]. assert (W : ws s i = WRemote) by (apply (r_rem _ _ R); simpl; auto).
  destruct (schedule_q s i Q S ltac:(congruence) ltac:(congruence)). split; auto.
  destruct R. inversion r_nodup0; subst. split; auto. intros j. unfold schedule. simpl. unfold upd. destruct (Nat.eqb_spec j i) as [->|D].
  - split; [discriminate|tauto].
  - rewrite r_rem0. simpl. intuition congruence.
Qed.
(** What waking workers leaves alone. *)
Record frame (s s' : st) : Prop := {
  f_rq : exists e, rq s' = rq s ++ map Wk e;
  f_run : run s' = run s; f_dsus : dsus s' = dsus s; f_lpc : lpc s' = lpc s; f_remote : remote s' = remote s; f_owed : owed s' = owed s;
  f_hq : hq s' = hq s; f_pend : pend s' = pend s; f_expiry : expiry s' = expiry s; f_now : now s' = now s; f_log : log s' = log s
}.
Lemma frame_refl : forall s, frame s s.
Proof. intros s. split; auto. exists []. rewrite app_nil_r. auto. Qed.
Lemma frame_trans : forall a b c, frame a b -> frame b c -> frame a c.
Proof.
  intros a b c H K. destruct H, K. split; try congruence. destruct f_rq0 as [e E], f_rq1 as [e' E']. exists (e ++ e'). rewrite E', E, map_app, app_assoc. auto.
Qed.
Lemma frame_schedule : forall s i, frame s (schedule s i).
Proof. intros s i. split; auto. exists [i]. auto. Qed.
Lemma drain_core : forall l s, core s l -> core (drain s l) [] /\ frame s (drain s l).
Proof.
  induction l as [|i l IH]; intros s C; simpl; [split; auto using frame_refl|].
  destruct (IH _ (schedule_core2 _ _ _ C)). split; auto. eauto using frame_trans, frame_schedule.
Qed.
Lemma wake_core : forall l s r, core s r -> (forall p, In p l -> In p (sleeps s)) -> NoDup (map snd l) -> core (wake_due s l) r /\ frame s (wake_due s l).
Proof.
  induction l as [|[d i] l IH]; intros s r C I N; simpl; [split; auto using frame_refl|].
  destruct (d <=? now s); [|split; auto using frame_refl].
  assert (W : ws s i = WSleep). { apply (sl_sleep _ _ (c_s _ _ C)). apply in_map_iff. exists (d, i). split; auto. apply I. simpl. auto. }
  inversion N; subst.
  destruct (IH (schedule s i) r) as [A B].
  - apply schedule_core; auto; congruence.
  - intros p P. simpl. apply filter_In. split; [apply I; simpl; auto|]. destruct (Nat.eqb_spec (snd p) i) as [E|E]; auto. exfalso. apply H1. rewrite <- E. apply in_map. auto.
  - auto.
  - split; auto. eauto using frame_trans, frame_schedule.
Qed.

Lemma dfirst_app : forall q e, dfirst q -> dfirst (q ++ e).
Proof. intros q e (a & b & -> & N). exists a, (b ++ e). rewrite <- app_assoc. auto. Qed.
Lemma dfirst_in : forall q, In Disp q -> ~ In Svc q -> dfirst q.
Proof. intros q H N. apply in_split in H as (a & b & ->). exists a, b. split; auto. intros X. apply N. apply in_app_iff. auto. Qed.
Lemma dfirst_cons : forall x q, dfirst (x :: q) -> x = Disp \/ (x <> Svc /\ dfirst q).
Proof.
  intros x q (a & b & E & N). destruct a as [|y a]; simpl in E; inversion E; subst; auto. right. split.
  - intros ->. apply N. simpl. auto.
  - exists a, b. split; auto. intros X. apply N. simpl. auto.
Qed.
Lemma inv_worker_leaves : forall s i w1 l s', inv s -> run s = Wk i -> (forall j, w1 j = WReady <-> ws s j = WReady) -> (forall j, w1 j <> WRun) ->
  (forall j, w1 j = WRemote <-> ws s j = WRemote) -> slok l w1 -> switch (set_s (set_w s w1) l) = Some s' -> inv s'.
Proof.
  intros s i w1 l s' I R W1 W2 W3 SL H. apply switch_spec in H as (x & q & E & ->). simpl in E. destruct I. rewrite E, R in *.
  pose proof (qok_leave _ _ _ _ _ w1 g_q0 ltac:(discriminate) W1 W2) as Q.
  assert (X : x <> Disp -> x <> Svc -> exists j, x = Wk j) by (destruct x; intros; try congruence; eauto).
  split; cbn [set_w set_q set_s rq counter run dsus lpc ws sleeps remote owed hq pend expiry now log].
  - exact Q.
  - apply slok_ext with w1; auto. intros j. unfold on. destruct x; try tauto. unfold upd. destruct (Nat.eqb_spec j i0) as [->|D]; [|tauto].
    assert (Z : w1 i0 = WReady) by (apply W1; apply (q_ready _ _ _ _ g_q0); simpl; auto). rewrite Z. split; discriminate.
  - apply rok_ext with (ws s); auto. intros j. unfold on. destruct x; auto. unfold upd. destruct (Nat.eqb_spec j i0) as [->|D]; [|auto].
    assert (Z : ws s i0 = WReady) by (apply (q_ready _ _ _ _ g_q0); simpl; auto). rewrite Z. split; discriminate.
  - rewrite <- g_svc0. simpl. split; intros [Y|Y]; auto; try discriminate.
  - intros Y. destruct (g_dsus0 Y). discriminate.
  - intros Y Z. destruct (g_hnd0 ltac:(discriminate)). congruence.
  - intros Y. apply g_hnd0. discriminate.
  - intros Y. destruct (g_rem0 Y) as [A|[A|[[A _]|[_ [A|A]]]]]; auto; try discriminate.
    apply dfirst_cons in A as [->|[A B]]; right; right; right; split; auto; discriminate.
Qed.
Lemma inv_yield : forall s p s' r w1, inv s -> run s = r -> r <> Disp -> (r = Svc -> away p = false /\ p <> LRunOne /\ forall k, p <> LHnd HTimer k) -> (r <> Svc -> p = lpc s) ->
  (forall i, w1 i = WReady <-> ws s i = WReady \/ r = Wk i) -> (forall j, w1 j <> WRun) -> (forall j, w1 j = WRemote <-> ws s j = WRemote) -> (forall j, w1 j = WSleep <-> ws s j = WSleep) ->
  switch_ready (set_l (set_w s w1) p) r = Some s' -> inv s'.
Proof.
  intros s p s' r w1 I R ND P1 P2 W1 W2 W3 W4 H. unfold switch_ready in H. destruct (switch _) as [s1|] eqn:SW; [|discriminate]. inversion H; subst s'; clear H.
  apply switch_spec in SW as (x & q & E & ->). simpl in E. destruct I. rewrite E, R in *.
  pose proof (qok_yield _ _ _ _ _ w1 g_q0 W1 W2) as Q.
  assert (RX : x <> r). { pose proof (q_nodup _ _ _ _ g_q0) as N. inversion N; subst. simpl in *. intuition. }
  split; cbn [awakened set_w set_q set_s set_l rq counter run dsus lpc ws sleeps remote owed hq pend expiry now log].
  - destruct r; try congruence; exact Q.
  - apply slok_ext with (ws s); auto. intros j. unfold on. destruct x; auto. unfold upd. destruct (Nat.eqb_spec j i) as [->|D]; [|auto].
    assert (Z : ws s i = WReady) by (apply (q_ready _ _ _ _ g_q0); simpl; auto). rewrite Z. split; discriminate.
  - apply rok_ext with (ws s); auto. intros j. unfold on. destruct x; auto. unfold upd. destruct (Nat.eqb_spec j i) as [->|D]; [|auto].
    assert (Z : ws s i = WReady) by (apply (q_ready _ _ _ _ g_q0); simpl; auto). rewrite Z. split; discriminate.
  - simpl. rewrite in_app_iff. simpl. destruct (ctx_eq r Svc) as [->|N].
    + destruct (P1 eq_refl) as [-> _]. tauto.
    + rewrite (P2 N), <- g_svc0. simpl. tauto.
  - intros Y. destruct (g_dsus0 Y). congruence.
  - intros Y Z. destruct (ctx_eq r Svc) as [->|N]; [congruence|]. rewrite (P2 N) in Z. destruct (g_hnd0 N). congruence.
  - intros Y. destruct (ctx_eq r Svc) as [->|N]; [apply P1; auto|]. rewrite (P2 N). auto.
  - intros Y. destruct (ctx_eq r Svc) as [->|N].
    + right. right. right. split; auto. destruct (ctx_eq x Disp) as [->|NX]; auto. right. apply dfirst_app. apply dfirst_in.
      * destruct (q_disp _ _ _ _ g_q0) as [Z|[Z|Z]]; congruence || auto.
      * pose proof (q_nodup _ _ _ _ g_q0) as ND2. inversion ND2; subst. simpl in *. intuition.
    + destruct (g_rem0 Y) as [A|[A|[[A _]|[_ [A|A]]]]]; auto; try congruence.
      apply dfirst_cons in A as [->|[A B]]; right; right; right; split; auto; try discriminate. right. apply dfirst_app. auto.
Qed.
Lemma inv_svc_leaves : forall s p s', inv s -> run s = Svc -> away p = true -> (remote s <> [] -> owed s > 0 \/ In HTimer (hq s)) -> switch (set_l s p) = Some s' -> inv s'.
Proof.
  intros s p s' I R AW RM H. apply switch_spec in H as (x & q & E & ->). simpl in E. destruct I. rewrite E, R in *.
  assert (NR : forall j, ws s j <> WRun). { intros j Z. apply (q_run _ _ _ _ g_q0) in Z. discriminate. }
  pose proof (qok_leave _ _ _ _ _ (ws s) g_q0 ltac:(discriminate) ltac:(tauto) NR) as Q.
  split; cbn [awakened set_w set_q set_s set_l rq counter run dsus lpc ws sleeps remote owed hq pend expiry now log].
  - exact Q.
  - apply slok_ext with (ws s); auto. intros j. unfold on. destruct x; try tauto. unfold upd. destruct (Nat.eqb_spec j i) as [->|D]; [|tauto].
    assert (Z : ws s i = WReady) by (apply (q_ready _ _ _ _ g_q0); simpl; auto). rewrite Z. split; discriminate.
  - apply rok_ext with (ws s); auto. intros j. unfold on. destruct x; try tauto. unfold upd. destruct (Nat.eqb_spec j i) as [->|D]; [|tauto].
    assert (Z : ws s i = WReady) by (apply (q_ready _ _ _ _ g_q0); simpl; auto). rewrite Z. split; discriminate.
  - rewrite AW. split; [|discriminate]. pose proof (q_nodup _ _ _ _ g_q0) as N. inversion N; subst. tauto.
  - intros Y. destruct (g_dsus0 Y). discriminate.
  - intros Y Z. subst p. discriminate.
  - intros Y. split; [intros ->; discriminate|]. intros k ->. discriminate.
  - intros Y. destruct (RM Y); auto.
Qed.
(** Steps that do not touch fibers. *)
Lemma inv_other : forall s h p e n g lg, inv s -> (In HTimer (hq s) -> In HTimer h \/ (exists k, g = LHnd HTimer k)) -> (g = lpc s \/ (run s = Svc /\ away g = false /\ (g = LRunOne -> counter s = 0) /\ forall k, lpc s <> LHnd HTimer k)) ->
  inv (mkSt (rq s) (counter s) (run s) (dsus s) g (ws s) (sleeps s) (remote s) (owed s) h p e n lg).
Proof.
  intros s h p e n g lg I HT G. destruct I. split; simpl; auto.
  - destruct G as [->|(R & A & _)]; auto. rewrite A. split; auto.
  - intros R X. destruct G as [->|(_ & A & B & _)]; auto.
  - intros R. destruct G as [->|(R' & _)]; auto; congruence.
  - intros X. destruct (g_rem0 X) as [A|[A|[(A & k & K)|A]]]; auto.
    + destruct (HT A) as [Y|(k & ->)]; auto. destruct G as [G|(R & _ & _ & _)].
      * destruct (ctx_eq (run s) Svc) as [E|E]; [right; right; left; eauto|]. destruct (g_hnd0 E) as [_ Z]. exfalso. apply (Z k). auto.
      * right. right. left. eauto.
    + destruct G as [->|(_ & _ & _ & Z)]; [right; right; left; eauto|]. exfalso. apply (Z k). auto.
Qed.

Lemma core_inv : forall s, inv s -> core s (remote s).
Proof. intros s I. destruct I. split; auto. Qed.
(** Waking workers while another context runs. *)
Lemma inv_frame : forall s s', inv s -> core s' (remote s) -> frame s s' -> (run s = Svc -> lpc s <> LRunOne) -> run s <> Disp -> inv s'.
Proof.
  intros s s' I C F L D. destruct I, C, F. destruct f_rq0 as [e E]. assert (NS : forall x, In Svc (x ++ map Wk e) <-> In Svc x).
  { intros x. rewrite in_app_iff. split; auto. intros [X|X]; auto. apply in_map_iff in X as (j & X & _). discriminate. }
  split; rewrite ?f_run0, ?f_lpc0, ?f_remote0, ?f_owed0, ?f_hq0, ?f_dsus0; auto.
  - rewrite <- f_run0. auto.
  - rewrite E. change (run s :: rq s ++ map Wk e) with ((run s :: rq s) ++ map Wk e). rewrite NS. auto.
  - intros X. destruct (g_dsus0 X). congruence.
  - intros X Y. exfalso. apply L; auto.
  - intros X. rewrite E. assert (Z := dfirst_app (rq s) (map Wk e)). tauto.
Qed.
Lemma inv_wake : forall s j s', inv s -> wake s j = Some s' -> (run s = Svc -> lpc s <> LRunOne) -> run s <> Disp -> inv s'.
Proof.
  intros s j s' I H L D. unfold wake in H. assert (ws s j = WBlocked \/ ws s j = WSleep) as W by (destruct (ws s j); try discriminate; auto).
  assert (s' = schedule s j) as -> by (destruct W as [W|W]; rewrite W in H; inversion H; auto).
  apply (inv_frame s); auto using frame_schedule. apply schedule_core; [apply core_inv; auto|..]; destruct W; congruence.
Qed.
Lemma inv_spawn : forall s j, inv s -> ws s j = WNone -> (run s = Svc -> lpc s <> LRunOne) -> run s <> Disp -> inv (schedule s j).
Proof. intros s j I W L D. apply (inv_frame s); auto using frame_schedule. apply schedule_core; [apply core_inv; auto|..]; congruence. Qed.
Lemma insert_in : forall d i l x, In x (insert d i l) <-> x = (d, i) \/ In x l.
Proof.
  intros d i l x. induction l as [|[e j] l IH]; simpl; [intuition|]. destruct (d <? e); simpl; [intuition|]. rewrite IH. intuition.
Qed.
Lemma insert_snd : forall d i l j, In j (map snd (insert d i l)) <-> j = i \/ In j (map snd l).
Proof.
  intros d i l j. induction l as [|[e k] l IH]; simpl; [intuition|]. destruct (d <? e); simpl; [intuition|]. rewrite IH. intuition.
Qed.
Lemma insert_nodup : forall d i l, NoDup (map snd l) -> ~ In i (map snd l) -> NoDup (map snd (insert d i l)).
Proof.
  intros d i l N H. induction l as [|[e j] l IH]; simpl in *; [repeat constructor; auto|]. destruct (d <? e); simpl; [constructor; auto|].
  inversion N; subst. constructor; [|apply IH; tauto]. rewrite insert_snd. intuition.
Qed.
Lemma insert_sorted : forall d i l, StronglySorted (fun a b => fst a <= fst b) l -> StronglySorted (fun a b => fst a <= fst b) (insert d i l).
Proof.
  intros d i l H. induction H as [|[e j] l H IH F]; simpl; [repeat constructor|]. rewrite Forall_forall in F. destruct (Nat.ltb_spec d e).
  - constructor; [constructor; auto; apply Forall_forall; auto|]. apply Forall_forall. intros x [<-|X]; simpl; [lia|]. specialize (F x X). simpl in F. lia.
  - constructor; auto. apply Forall_forall. intros x X. apply insert_in in X as [->|X]; simpl; [lia|]. exact (F x X).
Qed.
Lemma worker_running : forall s i, inv s -> run s = Wk i -> ws s i = WRun /\ forall j, j <> i -> ws s j <> WRun.
Proof.
  intros s i I R. pose proof (q_run _ _ _ _ (g_q s I)) as Q. split; [apply Q; auto|]. intros j N X. apply Q in X. congruence.
Qed.
Ltac wst i := intros j; unfold upd; destruct (Nat.eqb_spec j i) as [->|?D]; [|auto; try tauto].

Lemma inv_w : forall s a s', inv s -> wstep s a = Some s' -> inv s'.
Proof.
  intros s a s' I H. unfold wstep in H. destruct (run s) as [| |i] eqn:R; try discriminate.
  destruct (worker_running s i I R) as [WR WO]. pose proof (g_s s I) as SL. destruct a.
  - apply (inv_yield s (lpc s) s' (Wk i) (upd (ws s) i WReady)); auto; try discriminate.
    + wst i; [tauto|]. intuition congruence.
    + wst i. discriminate.
    + wst i. rewrite WR. split; discriminate.
    + wst i. rewrite WR. split; discriminate.
  - eapply (inv_worker_leaves s i (upd (ws s) i WSleep) (insert d i (sleeps s))); eauto.
    + wst i. rewrite WR. split; discriminate.
    + wst i. discriminate.
    + wst i. rewrite WR. split; discriminate.
    + assert (N : ~ In i (map snd (sleeps s))). { intros X. apply (sl_sleep _ _ SL) in X. congruence. }
      destruct SL. split; auto using insert_nodup, insert_sorted. intros j. rewrite insert_snd, <- sl_sleep0. unfold upd. destruct (Nat.eqb_spec j i) as [->|D]; intuition.
  - eapply (inv_worker_leaves s i (upd (ws s) i WBlocked) (sleeps s)); eauto.
    + wst i. rewrite WR. split; discriminate.
    + wst i. discriminate.
    + wst i. rewrite WR. split; discriminate.
    + apply slok_ext with (ws s); auto. wst i. rewrite WR. split; discriminate.
  - eapply (inv_worker_leaves s i (upd (ws s) i WDead) (sleeps s)); eauto.
    + wst i. rewrite WR. split; discriminate.
    + wst i. discriminate.
    + wst i. rewrite WR. split; discriminate.
    + apply slok_ext with (ws s); auto. wst i. rewrite WR. split; discriminate.
  - eapply inv_wake; eauto; congruence.
  - destruct (ws s j) eqn:WJ; inversion H. apply inv_spawn; auto; congruence.
Qed.

Lemma svc_ws : forall s, inv s -> run s = Svc -> forall j, ws s j <> WRun.
Proof. intros s I R j X. apply (q_run _ _ _ _ (g_q s I)) in X. congruence. Qed.
Lemma inv_svc_yields : forall s p s', inv s -> run s = Svc -> away p = false -> p <> LRunOne -> (forall k, p <> LHnd HTimer k) -> switch_ready (set_l s p) Svc = Some s' -> inv s'.
Proof.
  intros s p s' I R A P1 P2 H. apply (inv_yield s p s' Svc (ws s)); auto; try discriminate; try tauto; try (apply svc_ws; auto).
  intros i. split; auto. intros [X|X]; auto. discriminate.
Qed.
Lemma set_l_same : forall s, set_l s (lpc s) = s.
Proof. destruct s. reflexivity. Qed.
Lemma inv_u : forall s l s', inv s -> ustep s l = Some s' -> inv s'.
Proof.
  intros s l s' I H. unfold ustep in H. destruct (run s) eqn:R; try discriminate. destruct (lpc s) as [| | |[] k| |] eqn:L; try discriminate.
  destruct l; try discriminate.
  - destruct (ws s j) eqn:W; try (eapply inv_wake; eauto; congruence). inversion H. apply inv_spawn; auto; congruence.
  - rewrite <- (set_l_same s), L in H. apply (inv_svc_yields s (LHnd HUser k) s'); auto; discriminate.
  - apply (inv_svc_leaves s (LBlocked k) s'); auto. intros X. destruct (g_rem s I X) as [A|[A|[(A & q & B)|(A & B)]]]; auto; congruence.
  - inversion H. apply (inv_other s); auto. right. destruct k; splits; auto; try discriminate; intros q; rewrite L; discriminate.
Qed.
Lemma inv_s : forall s s', inv s -> sstep s = Some s' -> inv s'.
Proof.
  intros s s' I H. unfold sstep in H. destruct (run s) eqn:R; try discriminate.
  destruct (lpc s) as [| | |[] k| |] eqn:L; try discriminate.
  - inversion H. destruct (Nat.ltb_spec 0 (counter s)).
    + apply (inv_other s); simpl; auto. right. splits; auto; try discriminate. intros q. rewrite L. discriminate.
    + apply (inv_other s); simpl; auto. right. splits; auto; try lia. intros q. rewrite L. discriminate.
  - destruct (hq s) as [|h t] eqn:HQ.
    + apply (inv_svc_leaves s LWaiting s'); auto. intros X. rewrite HQ. destruct (g_rem s I X) as [A|[A|[(A & q & B)|(A & B)]]]; auto; try congruence. rewrite HQ in A. auto.
    + inversion H. apply (inv_other s); auto.
      * rewrite HQ. intros [<-|X]; eauto.
      * right. splits; auto; try discriminate. intros q. rewrite L. discriminate.
  - destruct (hq s) as [|h t] eqn:HQ; [discriminate|]. inversion H. apply (inv_other s); auto.
    + rewrite HQ. intros [<-|X]; eauto.
    + right. splits; auto; try discriminate. intros q. rewrite L. discriminate.
  - apply (inv_svc_yields s (after k) s'); auto; destruct k; auto; discriminate.
Qed.
Lemma disp_ws : forall s, inv s -> run s = Disp -> forall j, ws s j <> WRun.
Proof. intros s I R j X. apply (q_run _ _ _ _ (g_q s I)) in X. congruence. Qed.
(** The dispatcher wakes workers: the state in which it calls pick_next(). *)
Definition gather (s : st) : st := let s1 := drain (set_r s [] (owed s)) (remote s) in wake_due s1 (sleeps s1).
Lemma gather_spec : forall s, inv s -> core (gather s) [] /\ frame (set_r s [] (owed s)) (gather s).
Proof.
  intros s I. unfold gather. assert (C : core (set_r s [] (owed s)) (remote s)) by (destruct I; split; auto).
  destruct (drain_core _ _ C) as [C1 F1]. destruct (wake_core (sleeps (drain (set_r s [] (owed s)) (remote s))) _ [] C1) as [C2 F2]; auto.
  - exact (sl_nodup _ _ (c_s _ _ C1)).
  - split; auto. eapply frame_trans; eauto.
Qed.
Lemma inv_d : forall s s', inv s -> dstep s = Some s' -> inv s'.
Proof.
  intros s s' I H. unfold dstep in H. destruct (run s) eqn:R; try discriminate. destruct (dsus s) eqn:DS.
  - (* suspend_until *)
    destruct (g_dsus s I DS) as [_ RQ]. inversion H; subst s'; clear H.
    set (s1 := match sleeps s with [] => s | (d, _) :: _ => async_wait (expires_at s d) end).
    assert (I1 : inv s1 /\ run s1 = Disp /\ rq s1 = [] /\ lpc s1 = lpc s).
    { subst s1. destruct (sleeps s) as [|[d i] t]; auto. splits; auto. apply (inv_other s); auto. intros X. left. apply in_app_iff. auto. }
    unfold suspend_until. fold s1. clearbody s1. destruct I1 as (I1 & R1 & Q1 & L1). destruct I1.
    unfold notify_one. destruct (lpc s1) eqn:LL; try (split; simpl; rewrite ?R1, ?Q1, ?LL in *; auto; try discriminate; tauto).
    + split; simpl; rewrite ?R1, ?Q1, ?LL in *; auto; try discriminate; try tauto; try (intros _; split; [discriminate|intros k; discriminate]); try (intros X; right; right; right; split; auto; discriminate).
      * apply (qok_app [] (counter s1) Disp (ws s1) Svc); auto; [intros [X|[]]; discriminate| |tauto]. intros i. intuition discriminate.
      * simpl. tauto.
  - change (match rq (gather s) with [] => Some (set_d (gather s) true) | _ => switch_ready (gather s) Disp end = Some s') in H.
    destruct (gather_spec s I) as [[CQ CS CR] F]. destruct F. simpl in *. destruct f_rq0 as [e E].
    assert (NS : forall x, In Svc (x ++ map Wk e) <-> In Svc x).
    { intros x. rewrite in_app_iff. split; auto. intros [X|X]; auto. apply in_map_iff in X as (j & X & _). discriminate. }
    assert (NR : forall j, ws (gather s) j <> WRun). { intros j X. apply (q_run _ _ _ _ CQ) in X. congruence. }
    pose proof (g_hnd s I ltac:(congruence)) as HN. pose proof (g_svc s I) as GS. rewrite R in GS.
    destruct (rq (gather s)) as [|x q] eqn:GQ.
    + inversion H; subst s'; clear H. symmetry in E. apply app_eq_nil in E as [E1 E2]. rewrite E1 in GS.
      split; simpl; rewrite ?f_run0, ?R, ?GQ, ?f_lpc0, ?f_remote0; auto; try discriminate; try congruence.
    + unfold switch_ready in H. destruct (switch (gather s)) as [s1|] eqn:SW; [|discriminate]. inversion H; subst s'; clear H.
      apply switch_spec in SW as (x' & q' & E' & ->). rewrite GQ in E'. inversion E'; subst x' q'.
      rewrite f_run0, R in CQ.
      assert (Q := qok_yield _ _ _ _ _ (ws (gather s)) CQ ltac:(intros i; intuition discriminate) NR).
      assert (XD : x <> Disp). { pose proof (q_nodup _ _ _ _ CQ) as N. inversion N; subst. simpl in *. intuition. }
      split; cbn [awakened set_w set_q set_s set_l rq counter run dsus lpc ws sleeps remote owed hq pend expiry now log].
      * exact Q.
      * apply slok_ext with (ws (gather s)); auto. intros j. unfold on. destruct x; try tauto. unfold upd. destruct (Nat.eqb_spec j i) as [->|D]; [|tauto].
        assert (Z : ws (gather s) i = WReady) by (apply (q_ready _ _ _ _ CQ); simpl; auto). rewrite Z. split; discriminate.
      * rewrite f_remote0. apply rok_ext with (ws (gather s)); auto. intros j. unfold on. destruct x; try tauto. unfold upd. destruct (Nat.eqb_spec j i) as [->|D]; [|tauto].
        assert (Z : ws (gather s) i = WReady) by (apply (q_ready _ _ _ _ CQ); simpl; auto). rewrite Z. split; discriminate.
      * rewrite f_lpc0, <- GS. change (x :: q ++ [Disp]) with ((x :: q) ++ [Disp]). rewrite E, !in_app_iff. specialize (NS (rq s)). rewrite in_app_iff in NS. simpl. intuition discriminate.
      * rewrite f_dsus0, DS. discriminate.
      * intros _ X. rewrite f_lpc0 in X. tauto.
      * rewrite f_lpc0. auto.
      * rewrite f_remote0. congruence.
Qed.
Lemma inv_step : forall s l s', inv s -> step s l = Some s' -> inv s'.
Proof.
  intros s l s' I H. destruct l; cbn [step] in H; eauto using inv_w, inv_s, inv_u, inv_d.
  - inversion H. apply (inv_other s); auto. intros X. left. apply in_app_iff. auto.
  - destruct (pend s) eqn:P; [discriminate|]. destruct (expiry s <=? now s); [|discriminate]. inversion H. apply (inv_other s); auto. intros X. left. apply in_app_iff. auto.
  - inversion H. apply (inv_other s); auto.
  - destruct (ws s i) eqn:W; inversion H. destruct I. assert (NR : run s <> Wk i). { intros X. apply (q_run _ _ _ _ g_q0) in X. congruence. }
    split; simpl; auto.
    + destruct g_q0. split; auto.
      * wst i. rewrite <- q_ready0, W. split; discriminate.
      * wst i. rewrite <- q_run0, W. split; discriminate.
    + apply slok_ext with (ws s); auto. wst i. rewrite W. split; discriminate.
    + destruct g_r0. split.
      * apply nodup_last; auto. rewrite <- r_rem0, W. discriminate.
      * intros j. rewrite in_app_iff. simpl. unfold upd. destruct (Nat.eqb_spec j i) as [->|D]; [tauto|]. rewrite r_rem0. split; auto. intros [X|[X|[]]]; auto. congruence.
    + intros _. left. lia.
  - destruct (owed s); inversion H. destruct I. split; simpl; auto.
    intros _. right. left. apply in_app_iff. simpl. auto.
  - destruct (run s) eqn:R; try discriminate. destruct (lpc s) eqn:L; try discriminate. inversion H. destruct I. rewrite ?R, ?L in *. simpl in g_svc0.
    assert (NS : ~ In Svc (Wk i :: rq s)) by (intros X; apply g_svc0 in X; discriminate).
    split; simpl; rewrite ?R; auto; try discriminate.
    + apply (qok_app (rq s) (counter s) (Wk i) (ws s) Svc); auto; [|tauto]. intros j. intuition discriminate.
    + rewrite in_app_iff. simpl. tauto.
    + intros X. destruct (g_dsus0 X). discriminate.
    + intros _. split; [|intros q]; discriminate.
    + intros X. assert (Z := dfirst_app (rq s) [Svc]). destruct (g_rem0 X) as [A|[A|[(A & q & B)|(A & B)]]]; try discriminate; tauto.
Qed.
Theorem reach_inv : forall n s, reachable step (init_state n) s -> inv s.
Proof. intros n s R. eapply reachable_inv; eauto using inv_init, inv_step. Qed.
