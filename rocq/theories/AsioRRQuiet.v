(** Invariant for AsioRR without other threads and without handlers that suspend the service fiber: the timer is set when the thread blocks. *)
From Coq Require Import List Arith Bool Lia Sorted.
From Verif Require Import Base AsioRR AsioRRSpec AsioRRFacts.
Import ListNotations.

Definition due (s : st) : Prop := exists d i t, sleeps s = (d, i) :: t /\ d <= now s.
Definition cov (s : st) (T : Prop) : Prop := sleeps s = [] \/ (pend s > 0 /\ exists d i t, sleeps s = (d, i) :: t /\ expiry s = d) \/ (T /\ due s).
Record qinv (s : st) : Prop := {
  k_inv : inv s;
  k_rem : remote s = [];
  k_one : run s = Svc -> lpc s = LRunOne -> cov s (In HTimer (hq s));
  k_top : run s = Svc -> lpc s = LTop \/ lpc s = LHnd HUser false -> counter s > 0 \/ cov s (In HTimer (hq s));
  k_tim : run s = Svc -> lpc s = LHnd HTimer false -> counter s = 0 /\ cov s True;
  k_disp : run s = Disp -> lpc s = LTop -> rq s = [Svc] /\ cov s True;
  k_off : run s <> Svc -> lpc s = LPoll \/ lpc s = LWaiting \/ (run s = Disp /\ lpc s = LTop)
}.
Lemma qinv_init : forall n, qinv (init_state n).
Proof. intros n. split; simpl; auto using inv_init; try discriminate; try congruence. right. left. auto. Qed.
Lemma cov_weak : forall s (A B : Prop), (A -> B) -> cov s A -> cov s B.
Proof. unfold cov. tauto. Qed.
(** Only time, handlers and timer change. *)
Lemma qinv_env : forall s h p e n, qinv s -> (In HTimer (hq s) -> In HTimer h) -> now s <= n -> (pend s > 0 -> p > 0 /\ e = expiry s \/ (In HTimer h /\ expiry s <= n)) ->
  qinv (mkSt (rq s) (counter s) (run s) (dsus s) (lpc s) (ws s) (sleeps s) (remote s) (owed s) h p e n (log s)).
Proof.
  intros s h p e n Q H N P. destruct Q.
  assert (C : forall T T' : Prop, (T -> T') -> (In HTimer h -> T') -> cov s T -> cov (mkSt (rq s) (counter s) (run s) (dsus s) (lpc s) (ws s) (sleeps s) (remote s) (owed s) h p e n (log s)) T').
  { intros T T' HT HT' [X|[(X & d & i & t & E & F)|(X & d & i & t & E & F)]]; unfold cov, due; simpl.
    - auto.
    - right. destruct (P X) as [(Y & Z)|(Y & Z)].
      + left. split; auto. exists d, i, t. split; congruence.
      + right. split; auto. exists d, i, t. split; auto. lia.
    - right. right. split; auto. exists d, i, t. split; auto. lia. }
  split; simpl; auto.
  - apply (inv_other s); auto.
  - intros R L. apply C with (In HTimer (hq s)); auto.
  - intros R L. destruct (k_top0 R L) as [X|X]; auto. right. apply C with (In HTimer (hq s)); auto.
  - intros R L. destruct (k_tim0 R L) as [X Y]. split; auto. apply C with True; auto.
  - intros R L. destruct (k_disp0 R L) as [X Y]. split; auto. apply C with True; auto.
Qed.
Lemma wake_frame : forall l s, frame s (wake_due s l).
Proof.
  induction l as [|[d i] l IH]; intros s; simpl; auto using frame_refl. destruct (d <=? now s); auto using frame_refl.
  eapply frame_trans; [apply frame_schedule|apply IH].
Qed.
Lemma wake_due_head : forall s d i t, sleeps s = (d, i) :: t -> d <= now s -> In (Wk i) (rq (wake_due s (sleeps s))).
Proof.
  intros s d i t E D. rewrite E. simpl. destruct (Nat.leb_spec d (now s)); [|lia]. destruct (wake_frame t (schedule s i)). destruct f_rq as [e X]. rewrite X. simpl.
  rewrite !in_app_iff. simpl. auto.
Qed.
Lemma wake_not_due : forall s, ~ due s -> wake_due s (sleeps s) = s.
Proof.
  intros s N. destruct (sleeps s) as [|[d i] t] eqn:E; auto. simpl. destruct (Nat.leb_spec d (now s)); auto. exfalso. apply N. exists d, i, t. auto.
Qed.
Lemma nd_pos : forall q c, In c q -> c <> Disp -> length (filter nd q) > 0.
Proof.
  intros q c H N. induction q as [|x q IH]; simpl in *; [tauto|]. destruct H as [->|H]; [destruct c; simpl; lia || congruence|]. destruct (nd x); simpl; auto. lia.
Qed.
(** Workers run only while the service fiber polls or waits. *)
Lemma qinv_switched : forall s', inv s' -> remote s' = [] -> lpc s' = LPoll \/ lpc s' = LWaiting -> qinv s'.
Proof. intros s' I R L. split; auto; try (intros; destruct L; congruence). intros X [Y|Y]; destruct L; congruence. intros _. tauto. Qed.
Lemma switch_keeps : forall s s', switch s = Some s' -> lpc s' = lpc s /\ remote s' = remote s /\ sleeps s' = sleeps s /\ pend s' = pend s /\ expiry s' = expiry s /\ now s' = now s /\ hq s' = hq s.
Proof. intros s s' H. apply switch_spec in H as (x & q & E & ->). simpl. tauto. Qed.
Lemma switch_ready_keeps : forall s c s', switch_ready s c = Some s' -> lpc s' = lpc s /\ remote s' = remote s /\ sleeps s' = sleeps s /\ pend s' = pend s /\ expiry s' = expiry s /\ now s' = now s /\ hq s' = hq s.
Proof. intros s c s' H. unfold switch_ready in H. destruct (switch s) as [s1|] eqn:E; [|discriminate]. inversion H; subst. apply switch_keeps in E. simpl. auto. Qed.
Lemma w_keeps : forall s a s', wstep s a = Some s' -> lpc s' = lpc s /\ remote s' = remote s.
Proof.
  intros s a s' H. unfold wstep in H. destruct (run s); try discriminate. destruct a.
  - apply switch_ready_keeps in H. simpl in H. tauto.
  - apply switch_keeps in H. simpl in H. tauto.
  - apply switch_keeps in H. simpl in H. tauto.
  - apply switch_keeps in H. simpl in H. tauto.
  - unfold wake in H. destruct (ws s j); inversion H; auto.
  - destruct (ws s j); inversion H; auto.
Qed.
Lemma only_disp : forall s, inv s -> run s = Svc -> counter s = 0 -> rq s = [Disp].
Proof.
  intros s I R C. destruct (g_q s I). rewrite C in q_cnt. rewrite R in *.
  assert (A : forall c, In c (rq s) -> c = Disp). { intros c X. destruct (ctx_eq c Disp); auto. exfalso. pose proof (nd_pos _ _ X n). lia. }
  destruct q_disp as [X|X]; [discriminate|]. inversion q_nodup; subst. destruct (rq s) as [|a [|b q]]; [destruct X| |].
  - rewrite (A a); simpl; auto.
  - inversion H2; subst. exfalso. apply H3. rewrite (A a), (A b); simpl; auto.
Qed.
Lemma qinv_step : forall s l s', qinv s -> restrict plain s l = Some s' -> qinv s'.
Proof.
  intros s l s' Q H. unfold restrict in H. destruct (plain l) eqn:PL; [|discriminate].
  pose proof (inv_step s l s' (k_inv s Q) H) as I'. pose proof (k_inv s Q) as I.
  destruct l; try discriminate PL; cbn [step] in H.
  - (* worker *)
    pose proof (w_keeps _ _ _ H) as [L R]. unfold wstep in H. destruct (run s) as [| |i] eqn:RS; try discriminate.
    apply qinv_switched; auto; [rewrite R; apply Q|]. rewrite L. destruct (k_off s Q) as [X|[X|[X _]]]; auto; congruence.
  - (* service fiber *)
    unfold sstep in H. destruct (run s) eqn:RS; try discriminate. pose proof (k_rem s Q) as KR.
    destruct (lpc s) as [| | |[] k| |] eqn:L; try discriminate.
    + inversion H; subst s'; clear H. destruct (k_top s Q RS (or_introl L)) as [C|C].
      * assert (LT : 0 <? counter s = true) by (apply Nat.ltb_lt; auto). rewrite LT in *. apply qinv_switched; simpl; auto.
      * destruct (Nat.ltb_spec 0 (counter s)); [apply qinv_switched; simpl; auto|].
        split; simpl; rewrite ?RS; auto; try discriminate; try congruence; intros _ [X|X]; discriminate.
    + destruct (hq s) as [|h t] eqn:HQ.
      * apply switch_keeps in H as (A & B & _). apply qinv_switched; [auto|rewrite B; auto|rewrite A; auto].
      * inversion H; subst s'; clear H. split; simpl; rewrite ?RS; auto; try discriminate; try congruence; intros _ [X|X]; discriminate.
    + pose proof (k_one s Q RS L) as C. pose proof (g_one s I RS L) as C0. destruct (hq s) as [|h t] eqn:HQ; [discriminate|]. inversion H; subst s'; clear H.
      split; simpl; rewrite ?RS; auto; try discriminate; try congruence.
      * intros _ [X|X]; inversion X; subst. right. eapply cov_weak; [|exact C]. simpl. intros [Y|Y]; [discriminate|auto].
      * intros _ X. inversion X; subst. split; auto. eapply cov_weak; [|exact C]. auto.
    + (* timer handler *)
      destruct k.
      * apply switch_ready_keeps in H as (A & B & _). apply qinv_switched; [auto|rewrite B; auto|rewrite A; auto].
      * destruct (k_tim s Q RS L) as [C0 C]. pose proof (only_disp s I RS C0) as RQ.
        unfold switch_ready, switch in H. simpl in H. rewrite RQ in H. inversion H; subst s'; clear H.
        split; simpl; auto; try discriminate.
  - (* SWake *)
    unfold ustep in H. destruct (run s) eqn:RS; try discriminate. destruct (lpc s) as [| | |[] k| |] eqn:L; try discriminate.
    assert (s' = schedule s j) as ->. { unfold wake in H. destruct (ws s j); inversion H; auto. }
    split; simpl; rewrite ?RS, ?L; auto; try discriminate; try congruence; [apply Q|]. intros _ _. left. lia.
  - (* SEnd *)
    unfold ustep in H. destruct (run s) eqn:RS; try discriminate. destruct (lpc s) as [| | |[] k| |] eqn:L; try discriminate.
    inversion H; subst s'; clear H. destruct k; [apply qinv_switched; simpl; auto; apply Q|].
    split; simpl; rewrite ?RS; auto; try discriminate; try congruence; [apply Q|]. intros _ _. apply (k_top s Q RS). auto.
  - (* dispatcher *)
    unfold dstep in H. destruct (run s) eqn:RS; try discriminate. pose proof (k_rem s Q) as KR. destruct (dsus s) eqn:DS.
    + destruct (g_dsus s I DS) as [_ RQ].
      assert (LW : lpc s = LWaiting).
      { pose proof (g_svc s I) as G. rewrite RS, RQ in G. destruct (k_off s Q) as [X|[X|[_ X]]]; auto; try congruence; rewrite X in G; simpl in G; destruct G as [_ G]; destruct (G eq_refl) as [Y|[]]; discriminate. }
      inversion H; subst s'; clear H. destruct (sleeps s) as [|[d i] t] eqn:SL.
      * unfold suspend_until in *. rewrite SL in *. unfold notify_one in *. rewrite LW in *. split; simpl; rewrite ?RS; auto; try discriminate; try congruence.
        intros _ _. rewrite RQ. split; auto. left. auto.
      * unfold suspend_until in *. rewrite SL in *. unfold notify_one in *. cbn [async_wait expires_at set_t lpc] in *. rewrite LW in *. split; simpl; rewrite ?RS; auto; try discriminate; try congruence.
        intros _ _. rewrite RQ. split; auto. right. left. split; [simpl; lia|]. exists d, i, t. auto.
    + change (match rq (gather s) with [] => Some (set_d (gather s) true) | _ => switch_ready (gather s) Disp end = Some s') in H.
      destruct (k_off s Q) as [X|[X|[_ X]]]; [congruence| | |].
      * assert (lpc s' = LPoll /\ remote s' = []) as [A B].
        { destruct (gather_spec s I) as [_ F]. destruct F. simpl in *. destruct (rq (gather s)); [inversion H; subst; simpl; split; congruence|]. apply switch_ready_keeps in H as (A & B & _). split; congruence. }
        apply qinv_switched; auto.
      * assert (lpc s' = LWaiting /\ remote s' = []) as [A B].
        { destruct (gather_spec s I) as [_ F]. destruct F. simpl in *. destruct (rq (gather s)); [inversion H; subst; simpl; split; congruence|]. apply switch_ready_keeps in H as (A & B & _). split; congruence. }
        apply qinv_switched; auto.
      * destruct (k_disp s Q RS X) as [RQ C].
        set (s0 := set_r s [] (owed s)) in *. assert (GE : gather s = wake_due s0 (sleeps s0)) by (unfold gather; rewrite KR; auto).
        pose proof (wake_frame (sleeps s0) s0) as F. rewrite <- GE in F. destruct F as [[e E] F1 F2 F3 F4 F5 F6 F7 F8 F9 F10]. simpl in *. rewrite RQ in E. simpl in E. rewrite E in H.
        unfold switch_ready, switch in H. rewrite E in H. inversion H; subst s'; clear H.
        split; simpl; auto; try discriminate; try congruence.
        -- intros _ _. destruct e as [|i e].
           ++ right. assert (ND : ~ due s0). { intros (d & i & t & A & B). pose proof (wake_due_head s0 d i t A B) as Z. simpl in Z. rewrite <- GE, E in Z. destruct Z as [Z|[]]. discriminate. }
              assert (GN : gather s = s0) by (rewrite GE; exact (wake_not_due s0 ND)). rewrite GN. destruct C as [C|[C|[_ C]]]; [left; auto|right; left; auto|]. exfalso. apply ND. exact C.
           ++ left. destruct (g_q _ I') as [QC _ _ _ _]. cbn [awakened set_q rq counter] in QC. rewrite QC. apply nd_pos with (Wk i); [|discriminate]. apply in_app_iff. simpl. auto.
  - (* Post *) inversion H; subst s'. apply qinv_env; auto. intros X. apply in_app_iff. auto.
  - (* Expire *) destruct (pend s) eqn:P; [discriminate|]. destruct (Nat.leb_spec (expiry s) (now s)); [|discriminate]. inversion H; subst s'. apply qinv_env; auto.
    + intros X. apply in_app_iff. auto.
    + intros _. right. split; auto. apply in_app_iff. simpl. auto.
  - (* Tick *) inversion H; subst s'. apply qinv_env; auto.
Qed.
Theorem reach_qinv : forall n s, reachable (restrict plain) (init_state n) s -> qinv s.
Proof. intros n s R. eapply reachable_inv; eauto using qinv_init, qinv_step. Qed.
