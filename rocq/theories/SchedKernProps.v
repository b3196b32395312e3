(** C89: the scheduler does what the models of the synchronization objects assume (Kernel.v). *)
From Coq Require Import List Arith Bool Lia.
From Verif Require Import Base Sched SchedSpec SchedFacts SchedFacts2 SchedFacts3 SchedFacts4 SchedFacts9 SchedFacts10 SchedFacts11 SchedKern SchedKernFacts SchedKernFacts2 SchedKernFacts3 SchedKernFacts4.
From Verif Require Kernel.
Import ListNotations.

(** Every execution of the scheduler without error, on any number of threads, is an execution of Kernel.v: each step is a sequence of actions that are possible there, and the
    states agree about the epochs, which fiber runs where, which fibers are on their way to run, the sleep entries and the clock. In particular no assertion of Kernel.v fails. *)
Theorem C89_refines T ls s : NoDup T -> (forall l t, In l ls -> thread_of l = Some t -> In t T) -> exec step init ls = Some s -> errs s = [] ->
  exists k, paired T ls s k /\ agree T s k.
Proof.
  intros D HT H E. destruct (RR_exec T D ls s HT H E) as (k & K1 & K2). exists k. split; [constructor; auto|]. now apply RR_agree.
Qed.

Lemma paired_RR T ls s k : paired T ls s k -> RR T s k /\ G12 s.
Proof.
  intros [P1 P2 P3 P4 P5]. destruct (RR_exec T P1 ls s P2 P3 P4) as (k' & K1 & K2). split; [congruence|]. apply reach_ok; auto. now exists ls.
Qed.

(** Blocked in Kernel.v: waiting for a wake-up, or terminated. *)
Theorem C89_blocked T ls s k c : paired T ls s k -> fiber_of T c ->
  Kernel.blocked k (code c) <-> waiting s c \/ (terminated s c /\ ~ running s (home (cx s c)) c).
Proof.
  intros P Fc. destruct (paired_RR _ _ _ _ P) as [R G]. rewrite (RR_blocked T s k R c Fc). unfold terminated. rewrite <- (ex_in (isleft c) (ELeft c) (log s) (isleft_i c)), (g_left _ (l_8 _ (m_11 _ G)) c).
  assert (X : pcc (cx s c) = PDead <-> hasleft (pcc (cx s c)) = true /\ ~ running s (home (cx s c)) c).
  { destruct R as (L & I & R). rewrite <- (rn_running s L c I). pose proof (a_pc _ _ _ I c) as Q. unfold pcok in Q. unfold rn. simpl in *. split.
    - intros H. rewrite H in *. rewrite Q. split; auto. simpl. discriminate.
    - intros [H N]. destruct (pcc (cx s c)); try discriminate H; auto. rewrite Q in N. now destruct N. }
  tauto.
Qed.

(** A wake-up succeeds exactly when it does in Kernel.v. *)
Theorem C89_wake T ls s k t g e s' : paired T ls s k -> fiber_of T g -> step s (LOp t (OWake g e)) = Some s' ->
  snd (Kernel.wake k (code g, e)) = true <-> exists l, log s' = l ++ EWake g e :: log s.
Proof.
  intros P Fg H. destruct (paired_RR _ _ _ _ P) as [R _]. pose proof (RR_agree T s k R) as A. unfold Kernel.wake. rewrite (ag_epoch _ _ _ A g Fg).
  unfold step in H. rewrite (pr_ok _ _ _ _ P) in H. destruct (pcc (cx s (act (th s t)))); try discriminate H. unfold start in H.
  destruct (existsb (Nat.eqb e) (iss (cx s g)) && negb (freed (cx s g))); [|discriminate H]. injection H as <-. unfold do_wake.
  assert (Hc : forall b x, log (check b x) = log x) by (intros [] x; auto).
  destruct (Nat.eqb_spec (ep (cx s g)) e) as [E|E]; cbn [snd].
  - split; auto. intros _. destruct (Nat.eqb (home (cx s g)) t).
    + exists [EAwake t g]. unfold schedule. simpl. rewrite !Hc. simpl. now rewrite Hc.
    + exists []. simpl. now rewrite Hc.
  - split; [discriminate|]. intros [l X]. simpl in X. apply (f_equal (@length _)) in X. rewrite app_length in X. simpl in X. lia.
Qed.

(** A timed wait returns what it does in Kernel.v. *)
Theorem C89_timed T ls s k l s' c0 tp0 n0 r0 : paired T ls s k -> step s l = Some s' -> errs s' = [] -> log s' = EWaitRet c0 tp0 n0 r0 :: log s ->
  r0 = Kernel.wait_until_result k tp0.
Proof.
  intros P H E Hl. destruct (paired_RR _ _ _ _ P) as [R _]. pose proof (RR_agree T s k R) as A. unfold Kernel.wait_until_result. rewrite (ag_now _ _ _ A).
  destruct (step_ltr s l s' H E) as [_ Z]. clear A R P H E.
  assert (X : forall ev, log s' = ev ++ log s -> ev = [EWaitRet c0 tp0 n0 r0]) by (intros ev Q; rewrite Q in Hl; change (EWaitRet c0 tp0 n0 r0 :: log s) with ([EWaitRet c0 tp0 n0 r0] ++ log s) in Hl; now apply app_inv_tail in Hl).
  assert (Xn : log s' <> log s) by (rewrite Hl; intros Q; apply (f_equal (@length _)) in Q; simpl in Q; lia).
  assert (Pr : forall d z z' ev, prel s d z z' ev -> ev = [] \/ ev = [EFree d]) by (intros d z z' ev Q; destruct Q; auto).
  ltrd Z; try contradiction.
  all: try (rewrite Ql in Hl; discriminate Hl).
  all: try (destruct (Pr _ _ _ _ Pz) as [-> | ->]; rewrite Ql in Hl; discriminate Hl).
  all: try (apply X in Ql).
  - subst ev. destruct Ev as [[_ [Ev|Ev]]|[_ Ev]]; discriminate Ev.
  - subst ev. inversion M; subst; auto; discriminate.
  - destruct rdy; rewrite Ql in Hl; discriminate Hl.
  - destruct Pw; discriminate Ql.
  - rewrite Ev in Ql. destruct (shut (th s u)); discriminate Ql.
  - destruct (Pr _ _ _ _ Pz) as [-> | ->]; discriminate Ql.
Qed.

(** What holds in every execution of Kernel.v holds, with the state of the scheduler in place of the one of Kernel.v, in every execution of the scheduler. *)
Theorem C89_transfer (Q : Kernel.kern -> Prop) : Q Kernel.kinit -> (forall k x k', Q k -> kdo k x = Some k' -> Q k') ->
  forall T ls s, NoDup T -> (forall l t, In l ls -> thread_of l = Some t -> In t T) -> exec step init ls = Some s -> errs s = [] -> exists k, Q k /\ agree T s k.
Proof.
  intros Q0 QS T ls s D HT H E. destruct (C89_refines T ls s D HT H E) as (k & P & A). exists k. split; auto.
  exact (exec_inv kdo Q QS _ _ _ Q0 (pr_kern _ _ _ _ P)).
Qed.

(** ** Examples *)
(** A fiber waits with a deadline, the main fiber joins it, thread 1 wakes it in time, it terminates. *)
Definition run89 := [LOp 0 (OLaunch Dispatch 0 0); LRun 0; LOp 0 (OWait 5)] ++ repeat (LRun 0) 8 ++ [LOp 0 (OJoin 0); LRun 0; LOp 1 (OWake (Wk 0) 1)].
Definition run89b := run89 ++ [LRun 1; LRun 1; LTick 3] ++ repeat (LRun 0) 8.
Definition run89c := run89b ++ [LRun 0; LOp 0 OExit] ++ repeat (LRun 0) 5.
Lemma run89_threads ls : ls = run89 \/ ls = run89b \/ ls = run89c -> forall l t, In l ls -> thread_of l = Some t -> In t [0; 1].
Proof.
  intros H. assert (X : forallb (fun l => match thread_of l with Some t => Nat.leb t 1 | None => true end) ls = true) by (destruct H as [-> |[-> | ->]]; reflexivity).
  rewrite forallb_forall in X. intros l t Hl Ht. specialize (X l Hl). rewrite Ht in X. apply Nat.leb_le in X. simpl. lia.
Qed.
Lemma nd01 : NoDup [0; 1].
Proof. constructor; [intros [X|[]]; discriminate X|]. constructor; [intros []|constructor]. Qed.

Example C89_ex_hyp : NoDup [0; 1] /\ (forall l t, In l run89c -> thread_of l = Some t -> In t [0; 1]) /\ exists s, exec step init run89c = Some s /\ errs s = [].
Proof. splits; [exact nd01|apply run89_threads; auto|]. eexists. split; [vm_compute; reflexivity|reflexivity]. Qed.
Example C89_ex_acts : all_acts init run89c =
  [AYield 0; ASys (Kernel.Pick 1 0); AWait 1 5; ASys (Kernel.Pick 0 0); AArm 0; ASusp 0; AWake 2 1 1; ASys (Kernel.Tick 3); ASys (Kernel.Pick 1 0); AWake 1 0 1; ASusp 1].
Proof. vm_compute. reflexivity. Qed.
Lemma paired_by ls : ls = run89 \/ ls = run89b \/ ls = run89c -> match exec step init ls with Some s => errs s = [] | None => False end ->
  exists s k, paired [0; 1] ls s k /\ exec step init ls = Some s.
Proof.
  intros H X. destruct (exec step init ls) as [s|] eqn:E; [|contradiction]. destruct (C89_refines [0; 1] ls s nd01 (run89_threads ls H) E X) as (k & P & _). eauto.
Qed.
Example C89_ex_blocked : exists s k, paired [0; 1] run89c s k /\ fiber_of [0; 1] (Wk 0) /\ terminated s (Wk 0) /\ ~ running s (home (cx s (Wk 0))) (Wk 0).
Proof.
  destruct (paired_by run89c) as (s & k & P & E); [auto|vm_compute; auto|]. exists s, k. vm_compute in E. injection E as E. rewrite <- E. splits; auto; [now rewrite E|simpl; auto|vm_compute; auto|vm_compute; discriminate].
Qed.
Example C89_ex_waiting : exists s k, paired [0; 1] run89 s k /\ fiber_of [0; 1] (Mn 0) /\ waiting s (Mn 0).
Proof.
  destruct (paired_by run89) as (s & k & P & E); [auto|vm_compute; auto|]. exists s, k. vm_compute in E. injection E as E. splits; auto; [simpl; auto|]. rewrite <- E. vm_compute. eauto.
Qed.
(** The waker of [run89] has been used: a second use fails. The one of the main fiber's next wait is not. *)
Example C89_ex_wake : exists s k s', paired [0; 1] run89b s k /\ fiber_of [0; 1] (Wk 0) /\ step s (LOp 1 (OWake (Wk 0) 1)) = Some s' /\ snd (Kernel.wake k (code (Wk 0), 1)) = false.
Proof.
  destruct (paired_by run89b) as (s & k & P & E); [auto|vm_compute; auto|]. pose proof (pr_kern _ _ _ _ P) as K. vm_compute in K. injection K as K. vm_compute in E. injection E as E.
  exists s, k. eexists. splits; auto; [simpl; auto|rewrite <- E; vm_compute; reflexivity|rewrite <- K; vm_compute; reflexivity].
Qed.
Example C89_ex_timed : exists s k s', paired [0; 1] run89b s k /\ step s (LRun 0) = Some s' /\ errs s' = [] /\ log s' = EWaitRet (Wk 0) 5 4 true :: log s.
Proof.
  destruct (paired_by run89b) as (s & k & P & E); [auto|vm_compute; auto|]. vm_compute in E. injection E as E.
  exists s, k. eexists. splits; auto; [rewrite <- E; vm_compute; reflexivity|reflexivity|rewrite <- E; vm_compute; reflexivity].
Qed.
(** Something that holds in every execution of Kernel.v: a running fiber is the one that its thread executes. *)
Example C89_ex_transfer : let Q k := forall f, Kernel.running (Kernel.fib k f) = true -> Kernel.thr k (Kernel.home (Kernel.fib k f)) = Some f in
  Q Kernel.kinit /\ forall k x k', Q k -> kdo k x = Some k' -> Q k'.
Proof.
  intros Q. split; [intros f X; discriminate X|].
  assert (QW : forall k w, Q k -> Q (fst (Kernel.wake k w))).
  { intros k [g e] H f. unfold Kernel.wake. destruct (Nat.eqb (Kernel.epoch (Kernel.fib k g)) e); simpl; [|apply H]. destruct (Nat.eq_dec f g) as [->|N]; [rewrite upd_same|rewrite upd_other by auto]; apply H. }
  assert (QA : forall k f e q sl, Q k -> Q (Kernel.set_fib k f (Kernel.mkFiber e (Kernel.running (Kernel.fib k f)) q (Kernel.home (Kernel.fib k f)) sl))).
  { intros k g e q sl H f. simpl. destruct (Nat.eq_dec f g) as [->|N]; [rewrite upd_same|rewrite upd_other by auto]; apply H. }
  assert (QS : forall k f q er e sl, Q k -> Kernel.running (Kernel.fib k f) = true ->
    Q (Kernel.mkKern (upd (Kernel.fib k) f (Kernel.mkFiber e false q (Kernel.home (Kernel.fib k f)) sl)) (upd (Kernel.thr k) (Kernel.home (Kernel.fib k f)) None) (Kernel.now k) er)).
  { intros k g q er e sl H R f. simpl. destruct (Nat.eq_dec f g) as [->|N]; [rewrite upd_same; discriminate|rewrite upd_other by auto]. intros Rf. pose proof (H f Rf) as X. pose proof (H g R) as Y.
    rewrite upd_other; auto. intros E. rewrite E in X. congruence. }
  intros k x k' H E. destruct x as [f|f|f|f tp|f g e|l]; simpl in E.
  1-5: destruct (Kernel.running (Kernel.fib k f)) eqn:R; [|discriminate E]; injection E as <-.
  - pose proof (QA k f (S (Kernel.epoch (Kernel.fib k f))) (Kernel.queued (Kernel.fib k f)) (Kernel.sleep (Kernel.fib k f)) H) as X. now rewrite R in X.
  - now apply QS.
  - now apply QS.
  - unfold Kernel.wait_until_begin, Kernel.suspend. simpl. rewrite !upd_same. simpl. intros h. simpl. pose proof (QS k f (Kernel.queued (Kernel.fib k f)) (Kernel.err k) (S (Kernel.epoch (Kernel.fib k f))) (Some (tp, S (Kernel.epoch (Kernel.fib k f)))) H R h) as X. simpl in X.
    destruct (Nat.eq_dec h f) as [->|N]; [rewrite !upd_same in *; auto|rewrite !(upd_other _ f) in * by auto; auto].
  - exact (QW k (g, e) H).
  - destruct l as [f t|f|d]; simpl in E.
    + destruct (Kernel.thr k t) eqn:Et; [discriminate E|]. destruct (Kernel.queued (Kernel.fib k f) && negb (Kernel.running (Kernel.fib k f))); [|discriminate E]. injection E as <-. intros h. simpl.
      destruct (Nat.eq_dec h f) as [->|N]; [intros _; rewrite upd_same; simpl; now rewrite upd_same|rewrite (upd_other _ f) by auto]. intros Rh. pose proof (H h Rh) as X. rewrite upd_other; auto. congruence.
    + destruct (Kernel.thr k (Kernel.home (Kernel.fib k f))); [discriminate E|]. destruct (Kernel.sleep (Kernel.fib k f)) as [[tp e]|]; [|discriminate E]. destruct (Nat.leb tp (Kernel.now k)); [|discriminate E]. injection E as <-. exact (QW _ (f, e) (QA k f _ _ None H)).
    + injection E as <-. exact H.
Qed.

Print Assumptions C89_refines.
Print Assumptions C89_blocked.
Print Assumptions C89_wake.
Print Assumptions C89_timed.
Print Assumptions C89_transfer.
