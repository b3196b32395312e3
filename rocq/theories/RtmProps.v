(** C85, C86: spinlocks with lock elision. *)
From Coq Require Import List Arith Bool Lia.
From Verif Require Import Base Rtm RtmSpec RtmProofs.
Import ListNotations.

(** Two threads are in critical sections of lock 0 at the same time, both in transactions, on different data; both commit. *)
Definition two_elided : list label :=
  [Lock 0 0; Go 0; Go 0; Lock 1 0; Go 1; Go 1; Write 0 5 7; Read 1 6; Unlock 0 0; Write 1 6 8; Go 0; Unlock 1 0; Go 1].
(** Thread 0 takes lock 0 really after an abort, inside it elides lock 1 and releases lock 0 first; meanwhile thread 1 is aborted by thread 0 and spins. *)
Definition mixed : list label :=
  [Lock 1 0; Go 1; Go 1; Read 1 5; Lock 0 0; Go 0; Abort 0 (mkStatus false false false false); Go 0; Go 0;
   Lock 0 1; Go 0; Go 0; Write 0 5 7; Unlock 0 0; Go 0; Go 1; Go 1; Go 1; Go 1; Unlock 0 1; Go 0; Go 1; Go 1; Go 1; Read 1 5; Unlock 1 0; Go 1].

(** C85: what the threads have done is a history of ordinary locks (a lock is acquired only while nobody has it, released by its owner, every read returns what was written last), and memory is what this history leaves. *)
Theorem C85_serial RT s : 1 <= RT -> reachable (step RT) init_state s ->
  exists d o, plain_run plain_init (log s) = Some (d, o) /\ forall a, d a = mem s (D a).
Proof.
  intros R H. destruct (I_g _ _ (inv_reachable RT R s H)) as (d & o & G1 & G2 & _). eauto.
Qed.
(** C85: this includes what a running transaction has seen and done so far, even if it is aborted later. *)
Theorem C85_opaque RT s t x : 1 <= RT -> reachable (step RT) init_state s -> tx (th s t) = Some x -> legal (tlog x ++ log s).
Proof.
  intros R H Ex. pose proof (inv_reachable RT R s H) as I. destruct (I_g _ _ I) as (d & o & G1 & G2 & G3 & G4 & G5).
  pose proof (I_t _ _ I t) as T. unfold TI in T. rewrite Ex in T. destruct T as (eli & T).
  destruct (X_rep _ _ _ _ _ _ T d o) as (d' & o' & R1 & _).
  - intros a v Hi. rewrite G2. now apply (X_rs _ _ _ _ _ _ T).
  - intros l Hi. apply (X_rs _ _ _ _ _ _ T) in Hi. destruct (o l) eqn:E; auto. apply G4 in E. lia.
  - intros l Hl. apply G3. unfold rheld. now rewrite Ex.
  - unfold legal. rewrite plain_run_app, G1, R1. discriminate.
Qed.
(** The history as thread t sees it. *)
Definition view (s : st) (t : nat) : list event := match tx (th s t) with Some x => tlog x | None => [] end ++ log s.
(** C85: in this history thread t owns exactly the locks its program has acquired and not released. *)
Theorem C85_owner RT s t : 1 <= RT -> reachable (step RT) init_state s ->
  exists d o, plain_run plain_init (view s t) = Some (d, o) /\ forall l, In l (held (th s t)) <-> o l = Some t.
Proof.
  intros R H. pose proof (inv_reachable RT R s H) as I. destruct (I_g _ _ I) as (d & o & G1 & G2 & G3 & G4 & G5).
  pose proof (I_t _ _ I t) as T. unfold TI in T. unfold view. destruct (tx (th s t)) as [x|] eqn:Ex.
  - destruct T as (eli & T). assert (Rh : rheld (th s t) = h0 x) by (unfold rheld; now rewrite Ex).
    destruct (X_rep _ _ _ _ _ _ T d o) as (d' & o' & R1 & _ & R3).
    + intros a v Hi. rewrite G2. now apply (X_rs _ _ _ _ _ _ T).
    + intros l Hi. apply (X_rs _ _ _ _ _ _ T) in Hi. destruct (o l) eqn:E; auto. apply G4 in E. lia.
    + intros l Hl. apply G3. now rewrite Rh.
    + exists d', o'. split; [rewrite plain_run_app, G1; exact R1|]. intros l. rewrite R3. unfold expect.
      destruct (existsb (Nat.eqb l) (held (th s t))) eqn:E1; [apply mem_in in E1; tauto|]. apply mem_nin in E1. split; [contradiction|].
      destruct (existsb (Nat.eqb l) (h0 x)) eqn:E2; [discriminate|]. apply mem_nin in E2. intros Ho. apply G4 in Ho as [Ho _]. rewrite Rh in Ho. contradiction.
  - exists d, o. split; auto. intros l. assert (Rh : rheld (th s t) = held (th s t)) by (unfold rheld; now rewrite Ex).
    rewrite <- Rh. split; [apply G3|apply G4].
Qed.
(** C85: rtm_end() and the explicit abort are executed only in a transaction, splk_.lock() only outside. *)
Theorem C85_no_fault RT s : 1 <= RT -> reachable (step RT) init_state s -> bad s = false.
Proof. intros R H. apply (I_bad _ _ (inv_reachable RT R s H)). Qed.
(** C85: one call of lock() starts at most BOOST_FIBERS_RETRY_THRESHOLD transactions. *)
Theorem C85_tries RT s t : 1 <= RT -> reachable (step RT) init_state s -> tries (th s t) <= RT.
Proof.
  intros R H. pose proof (I_t _ _ (inv_reachable RT R s H) t) as T. unfold TI in T. destruct (tx (th s t)) as [x|].
  - destruct T as (eli & T). pose proof (X_org _ _ _ _ _ _ T) as O. destruct (org x); lia.
  - destruct T as [_ T]. destruct (pc (th s t)); try contradiction; lia.
Qed.

(** The lock that a call of lock() or try_lock() is about. *)
Definition wants (p : pc_t) (l : nat) : Prop :=
  match p with Begin k _ | Chk k _ | Failed k _ _ | Spin k _ | Fall k | TBegin k | TChk k => k = l | _ => False end.
(** n steps of thread t. *)
Definition own (RT : nat) (s : st) (t n : nat) : option st := exec (step RT) s (repeat (Go t) n).

Lemma acquired_held s t l : let s' := acquired s t l in pc (th s' t) = Idle /\ In l (held (th s' t)).
Proof.
  unfold acquired, record, set_th. simpl. rewrite upd_same. simpl.
  destruct (tx (th s t)); simpl; rewrite upd_same; simpl; auto.
Qed.
Lemma chk_gets RT s t l : 1 <= RT -> reachable (step RT) init_state s -> ((exists r, pc (th s t) = Chk l r) \/ pc (th s t) = TChk l) -> mem s (W l) = 0 ->
  exists s', step RT s (Go t) = Some s' /\ pc (th s' t) = Idle /\ In l (held (th s' t)).
Proof.
  intros R H Hp Hm. pose proof (I_t _ _ (inv_reachable RT R s H) t) as T. unfold TI in T.
  assert (L : exists y, load s (th s t) (W l) = (0, y)).
  { unfold load. destruct (tx (th s t)) as [x|]; [|rewrite Hm; eauto]. destruct T as (eli & T).
    destruct (look (ws x) (W l)) as [v|] eqn:E; [|rewrite Hm; eauto]. apply (X_ws _ _ _ _ _ _ T) in E as [-> _]. eauto. }
  destruct L as [y L]. exists (acquired (set_th s t y) t l). simpl. unfold go.
  destruct Hp as [[r E]|E]; rewrite E, L; simpl; (split; [reflexivity|apply acquired_held]).
Qed.
Lemma step_own RT s t s1 n s2 : step RT s (Go t) = Some s1 -> own RT s1 t n = Some s2 -> own RT s t (S n) = Some s2.
Proof. intros A B. unfold own. cbn [repeat exec]. now rewrite A. Qed.
Lemma begin_gets RT s t l : 1 <= RT -> reachable (step RT) init_state s -> ((exists r, pc (th s t) = Begin l r) \/ pc (th s t) = TBegin l) -> mem s (W l) = 0 ->
  exists n s', own RT s t n = Some s' /\ pc (th s' t) = Idle /\ In l (held (th s' t)).
Proof.
  intros R H Hp Hm.
  assert (K : exists s1, step RT s (Go t) = Some s1 /\ mem s1 (W l) = 0 /\ ((exists r, pc (th s1 t) = Chk l r) \/ pc (th s1 t) = TChk l \/ pc (th s1 t) = Fall l /\ tx (th s1 t) = None)).
  { simpl. unfold go. destruct Hp as [[r E]|E]; rewrite E; eexists; (split; [reflexivity|]); split; auto; unfold set_th; simpl; rewrite upd_same.
    - destruct (Nat.ltb_spec r RT) as [Hr|Hr].
      + left. exists r. unfold rtm_begin. destruct (tx (th s t)); reflexivity.
      + right. right. split; auto. simpl. pose proof (I_t _ _ (inv_reachable RT R s H) t) as T. unfold TI in T. destruct (tx (th s t)) as [x|]; auto.
        destruct T as (eli & T). pose proof (X_pc _ _ _ _ _ _ T) as P. rewrite E in P. lia.
    - right. left. unfold rtm_begin. destruct (tx (th s t)); reflexivity. }
  destruct K as (s1 & S1 & M1 & K). assert (H1 : reachable (step RT) init_state s1) by (eapply reachable_step; eauto).
  destruct K as [K|[K|[K K2]]].
  - destruct (chk_gets RT s1 t l R H1) as (s2 & S2 & P2); auto. exists 2, s2. split; auto. eapply step_own; [exact S1|]. eapply step_own; [exact S2|reflexivity].
  - destruct (chk_gets RT s1 t l R H1) as (s2 & S2 & P2); auto. exists 2, s2. split; auto. eapply step_own; [exact S1|]. eapply step_own; [exact S2|reflexivity].
  - exists 2, (acquired (store s1 t (th s1 t) (W l) 1) t l). split; [|apply acquired_held]. eapply step_own; [exact S1|].
    eapply step_own; [|reflexivity]. simpl. unfold go. now rewrite K, K2, M1.
Qed.

(** C85: a call of lock() on a free lock returns after finitely many steps of its thread, if the thread is not disturbed; try_lock() then returns true. *)
Theorem C85_progress RT s t l : 1 <= RT -> reachable (step RT) init_state s -> wants (pc (th s t)) l -> mem s (W l) = 0 ->
  exists n s', own RT s t n = Some s' /\ pc (th s' t) = Idle /\ In l (held (th s' t)).
Proof.
  intros R H Hw Hm. destruct (pc (th s t)) as [|k r|k r|k r c|k r|k|k|k|k|k v] eqn:Hp; simpl in Hw; try contradiction; subst k.
  - eapply begin_gets; eauto.
  - destruct (chk_gets RT s t l R H) as (s2 & S2 & P2); eauto. exists 1, s2. split; auto. eapply step_own; [exact S2|reflexivity].
  - pose proof (I_t _ _ (inv_reachable RT R s H) t) as T. unfold TI in T. destruct (tx (th s t)) as [x|] eqn:Ex.
    { destruct T as (eli & T). pose proof (X_pc _ _ _ _ _ _ T) as P. rewrite Hp in P. contradiction. }
    assert (S1 : exists s1, step RT s (Go t) = Some s1 /\ s1 = set_th s t (with_pc (th s t) (if may_retry c || memory_conflict c then Begin l (S r) else if explicit_abort c && negb (nested_abort c) then Spin l r else Fall l))).
    { eexists. split; [|reflexivity]. simpl. unfold go. now rewrite Hp. }
    destruct S1 as (s1 & S1 & D1). assert (H1 : reachable (step RT) init_state s1) by (eapply reachable_step; eauto).
    assert (M1 : mem s1 (W l) = 0) by now rewrite D1.
    assert (P1 : pc (th s1 t) = (if may_retry c || memory_conflict c then Begin l (S r) else if explicit_abort c && negb (nested_abort c) then Spin l r else Fall l) /\ tx (th s1 t) = None).
    { rewrite D1. simpl. rewrite upd_same. simpl. auto. }
    destruct P1 as [P1 X1]. clear D1. destruct (may_retry c || memory_conflict c).
    + destruct (begin_gets RT s1 t l R H1) as (n & s2 & S2 & P2); eauto. exists (S n), s2. split; auto. eapply step_own; eauto.
    + destruct (explicit_abort c && negb (nested_abort c)).
      * assert (S2 : exists s2, step RT s1 (Go t) = Some s2 /\ s2 = set_th s1 t (with_pc (th s1 t) (Begin l (S r)))).
        { eexists. split; [|reflexivity]. simpl. unfold go. now rewrite P1, M1. }
        destruct S2 as (s2 & S2 & D2). destruct (begin_gets RT s2 t l R) as (n & s3 & S3 & P3).
        -- eapply reachable_step; eauto.
        -- left. exists (S r). rewrite D2. simpl. now rewrite upd_same.
        -- now rewrite D2.
        -- exists (S (S n)), s3. split; auto. eapply step_own; eauto. eapply step_own; eauto.
      * exists 2, (acquired (store s1 t (th s1 t) (W l) 1) t l). split; [|apply acquired_held]. eapply step_own; [exact S1|].
        eapply step_own; [|reflexivity]. simpl. unfold go. now rewrite P1, X1, M1.
  - assert (S2 : exists s2, step RT s (Go t) = Some s2 /\ s2 = set_th s t (with_pc (th s t) (Begin l (S r)))).
    { eexists. split; [|reflexivity]. simpl. unfold go. now rewrite Hp, Hm. }
    destruct S2 as (s2 & S2 & D2). destruct (begin_gets RT s2 t l R) as (n & s3 & S3 & P3).
    + eapply reachable_step; eauto.
    + left. exists (S r). rewrite D2. simpl. now rewrite upd_same.
    + now rewrite D2.
    + exists (S n), s3. split; auto. eapply step_own; eauto.
  - pose proof (I_t _ _ (inv_reachable RT R s H) t) as T. unfold TI in T. destruct (tx (th s t)) as [x|] eqn:Ex.
    { destruct T as (eli & T). pose proof (X_pc _ _ _ _ _ _ T) as P. rewrite Hp in P. contradiction. }
    exists 1, (acquired (store s t (th s t) (W l) 1) t l). split; [|apply acquired_held].
    eapply step_own; [|reflexivity]. simpl. unfold go. now rewrite Hp, Ex, Hm.
  - eapply begin_gets; eauto.
  - destruct (chk_gets RT s t l R H) as (s2 & S2 & P2); eauto. exists 1, s2. split; auto. eapply step_own; [exact S2|reflexivity].
Qed.

Example C85_nonvacuous : exists s, reachable (step 64) init_state s /\ log s = [ERel 1 0; EWrite 1 6 8; ERead 1 6 0; EAcq 1 0; ERel 0 0; EWrite 0 5 7; EAcq 0 0].
Proof. apply reach_by with (ls := two_elided). vm_compute. reflexivity. Qed.
Example C85_nonvacuous_mixed : exists s, reachable (step 64) init_state s /\ log s = [ERel 1 0; ERead 1 5 7; EAcq 1 0; ERel 0 1; ERel 0 0; EWrite 0 5 7; EAcq 0 1; EAcq 0 0].
Proof. apply reach_by with (ls := mixed). vm_compute. reflexivity. Qed.
(** Both threads are in the critical section at the same time. *)
Example C85_nonvacuous_tx : exists s x y, reachable (step 64) init_state s /\ tx (th s 0) = Some x /\ tx (th s 1) = Some y /\ tlog x <> [] /\ tlog y <> [].
Proof.
  destruct (reach_by (step 64) init_state [Lock 0 0; Go 0; Go 0; Lock 1 0; Go 1; Go 1] (fun s => exists x y, tx (th s 0) = Some x /\ tx (th s 1) = Some y /\ tlog x <> [] /\ tlog y <> [])) as (s & R & x & y & K).
  - vm_compute. do 2 eexists. splits; try reflexivity; discriminate.
  - exists s, x, y. tauto.
Qed.
Example C85_nonvacuous_wants : exists s, reachable (step 64) init_state s /\ wants (pc (th s 1)) 0 /\ (exists r, pc (th s 1) = Spin 0 r) /\ mem s (W 0) = 0.
Proof.
  apply reach_by with (ls := [Lock 0 0; Go 0; Abort 0 (mkStatus false false false false); Go 0; Go 0; Lock 1 0; Go 1; Go 1; Go 1; Unlock 0 0; Go 0]).
  vm_compute. splits; eauto.
Qed.

(** C86: try_lock() fails only if the lock is not free. False: any abort of the transaction makes it fail, here of a lock nobody has ever had. *)
Theorem C86_refuted : exists s, reachable (step 64) init_state s /\ log s = [ETryFail 0 0] /\ (forall t, held (th s t) = []) /\ mem s (W 0) = 0.
Proof.
  apply reach_by with (ls := [TryLock 0 0; Go 0; Abort 0 (mkStatus false false false false); Go 0]). vm_compute. splits; auto.
  intros [|t]; reflexivity.
Qed.
(** C86, what holds: without an abort try_lock() on a free lock returns true. *)
Theorem C86_free_partial RT s t l : 1 <= RT -> reachable (step RT) init_state s -> pc (th s t) = TBegin l -> mem s (W l) = 0 ->
  exists s', exec (step RT) s [Go t; Go t] = Some s' /\ pc (th s' t) = Idle /\ In l (held (th s' t)).
Proof.
  intros R H Hp Hm. assert (S1 : exists s1, step RT s (Go t) = Some s1 /\ s1 = set_th s t (rtm_begin (th s t) (InTry l) (TChk l))).
  { eexists. split; [|reflexivity]. simpl. unfold go. now rewrite Hp. }
  destruct S1 as (s1 & S1 & D1). destruct (chk_gets RT s1 t l R) as (s2 & S2 & P2).
  - eapply reachable_step; eauto.
  - right. rewrite D1. simpl. rewrite upd_same. unfold rtm_begin. destruct (tx (th s t)); reflexivity.
  - now rewrite D1.
  - exists s2. split; auto. cbn [exec]. now rewrite S1, S2.
Qed.
Example C86_nonvacuous : exists s, reachable (step 64) init_state s /\ pc (th s 0) = TBegin 3 /\ mem s (W 3) = 0.
Proof. apply reach_by with (ls := [TryLock 0 3]). vm_compute. auto. Qed.

Print Assumptions C85_serial.
Print Assumptions C85_opaque.
Print Assumptions C85_owner.
Print Assumptions C85_no_fault.
Print Assumptions C85_tries.
Print Assumptions C85_progress.
Print Assumptions C86_refuted.
Print Assumptions C86_free_partial.
