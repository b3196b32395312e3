(** Theorems about the scheduler and the life of fibers (properties C36-C44, C64, C65).
    [holds], [fifo], [picks], [pending], [running], [ready], ... are defined in SchedSpec.v. *)
From Coq Require Import List Arith Bool Lia Permutation.
From Verif Require Import Base Sched SchedSpec SchedFacts SchedFacts2 SchedFacts3 SchedFacts4 SchedFacts5 SchedFacts6 SchedFacts7 SchedFacts8 SchedFacts9 SchedFacts10 SchedFacts11 SchedFacts12.
Import ListNotations.

Definition reach (s : state) : Prop := reachable step init s.

(** ** C36 join and detach *)

(** The outcome of every join is determined by the fiber object at that moment: no fiber: invalid_argument; the calling fiber itself:
    resource_deadlock_would_occur; another fiber: the function of that fiber has finished. *)
Theorem C36_join_result s l1 l2 a h o r : reach s -> log s = l1 ++ EJoinRet a h o r :: l2 ->
  o = holds h l2 /\ (r = JInvalid <-> holds h l2 = None) /\ (r = JDeadlock <-> holds h l2 = Some a) /\
  (r = JOk -> exists c, holds h l2 = Some c /\ c <> a /\ In (EFin c) l2).
Proof.
  intros R E. pose proof (hist_at s l1 _ l2 R E) as K. simpl in K. destruct o as [c|], r; try contradiction.
  - destruct K as (K1 & K2 & K3 & _). apply (ex_in _ _ _ (isfin_i c)) in K3. rewrite K1. splits; auto; [split; discriminate|split; [discriminate|congruence]|]. eauto.
  - destruct K as (K1 & -> & _). rewrite K1. splits; auto; try (split; discriminate); [split; auto|discriminate].
  - destruct K as (K1 & _). rewrite K1. splits; auto; try (split; auto); discriminate.
Qed.
(** The fiber object (impl_, which joinable() tests) is what the record says: set by a launch, emptied by a join or detach without error, moved by a move. *)
Theorem C36_object s h : reach s -> hn s h = holds h (log s).
Proof. intros R. destruct (reach_G12 s R) as (s0 & _ & _ & G & Q1 & Q2 & Q3 & Q4 & _). rewrite <- Q1, <- Q4. apply (g_hn _ (l_10 _ (m_11 _ G))). Qed.
(** After join() has returned without error the fiber object is not joinable. *)
Theorem C36_not_joinable_after s a h o l1 l2 : reach s -> log s = l1 ++ EJoinRet a h o JOk :: l2 -> (forall c p d, ~ In (ELaunch c p h d) l1) -> (forall h', ~ In (EMove h' h) l1) -> hn s h = None.
Proof.
  intros R E N M. rewrite (C36_object s h R), E. clear - N M. induction l1 as [|e l IH]; simpl; [now rewrite Nat.eqb_refl|].
  assert (IH' : holds h (l ++ EJoinRet a h o JOk :: l2) = None) by (apply IH; [intros c p d X; apply (N c p d); now right|intros h' X; apply (M h'); now right]).
  destruct e; auto.
  - destruct (Nat.eqb_spec h h0) as [<-|]; auto. exfalso. apply (N a0 p c). now left.
  - destruct r; auto. destruct (Nat.eqb h h0); auto.
  - destruct r; auto. destruct (Nat.eqb h h0); auto.
  - destruct (Nat.eqb h h1); auto. destruct (Nat.eqb_spec h h2) as [<-|]; auto. exfalso. apply (M h1). now left.
Qed.
(** detach() *)
Theorem C36_detach_result s l1 l2 a h o r : reach s -> log s = l1 ++ EDetach a h o r :: l2 ->
  o = holds h l2 /\ (r = JInvalid <-> holds h l2 = None) /\ (r = JOk <-> holds h l2 <> None) /\ (r = JOk -> holds h (EDetach a h o r :: l2) = None).
Proof.
  intros R E. pose proof (hist_at s l1 _ l2 R E) as K. simpl in K. destruct o as [c|], r; try contradiction; rewrite K; splits; auto; try (split; auto; discriminate); try discriminate; try (split; [discriminate|congruence]).
  intros _. simpl. now rewrite Nat.eqb_refl.
Qed.
(** A join that is an error fails at once. *)
Theorem C36_errors_at_once s t h : reach s -> errs s = [] -> pcc (cx s (act (th s t))) = PIdle -> hb s h = false ->
  let a := act (th s t) in
  (holds h (log s) = None -> exists s', step s (LOp t (OJoin h)) = Some s' /\ log s' = EJoinRet a h None JInvalid :: EJoin a h :: log s /\ running s' t a) /\
  (holds h (log s) = Some a -> exists s', step s (LOp t (OJoin h)) = Some s' /\ log s' = EJoinRet a h (Some a) JDeadlock :: EJoin a h :: log s /\ running s' t a).
Proof.
  intros R E P B a. pose proof (g_hn _ (l_10 _ (m_11 _ (reach_ok s R E))) h) as G. unfold step. rewrite E, P. simpl. rewrite B. split; intros H; rewrite <- G in H; rewrite H.
  - eexists. splits; reflexivity.
  - fold a. rewrite ctx_eqb_refl. eexists. splits; reflexivity.
Qed.
(** Once a fiber has terminated no fiber is suspended in a join on it; one that was is running, ready, or on its way to a ready queue. *)
Theorem C36_joiners_released s g c : reach s -> terminated s c -> ~ joining s g c.
Proof.
  intros R H (e & h & J1 & J2). destruct (reach_G12 s R) as (s0 & _ & _ & G & Q1 & Q2 & _). rewrite <- Q2 in *. unfold terminated in H. rewrite <- Q1 in H.
  apply (ex_in _ _ _ (isleft_i c)) in H. rewrite (g_left _ (l_8 _ (m_11 _ G))) in H. pose proof (l_inv _ (m_11 _ G)) as I. destruct (j_ok _ (i_3 _ I) c) as (_ & _ & W). specialize (W H).
  assert (X : In (g, e) (wtq (cx s0 c))) by (apply (j_in _ (i_3 _ I)); exists h; unfold jw; rewrite J1, J2, Nat.eqb_refl; auto). rewrite W in X. destruct X.
Qed.
Theorem C36_joiner_on_its_way s g c : reach s -> terminated s c -> (exists e h, pcc (cx s g) = PSusp e (WJoin h c)) ->
  let t := home (cx s g) in running s t g \/ ready s t g \/ remote s t g \/ being_pushed s g.
Proof.
  intros R H (e & h & J) t. pose proof (C36_joiners_released s g c R H) as N. destruct (reach_G12 s R) as (s0 & _ & _ & G & Q1 & Q2 & Q3 & _).
  assert (X : exists_ (pcc (cx s0 g)) = true) by (rewrite Q2, J; reflexivity). pose proof (place s0 g (l_inv _ (m_11 _ G)) X) as P. unfold running, ready, remote, being_pushed, waiting in *. rewrite Q2, Q3 in *. fold t in P.
  destruct P as [P|[P|[P|[P|[P|[P|[P|P]]]]]]]; auto; try congruence. exfalso. apply N. destruct P as (e' & w & P1 & P2). rewrite J in P1. injection P1 as <- <-. exists e, h. auto.
Qed.

(** Helper for the examples: an execution with a given last part of the record. *)
Definition logs (ls : list label) (l : list event) : Prop := after step init ls (fun s => errs s = [] /\ firstn (length l) (log s) = l).
Lemma by_logs ls l : logs ls l -> exists s, reach s /\ errs s = [] /\ exists l2, log s = l ++ l2.
Proof.
  intros H. destruct (reach_by step init ls _ H) as (s & R & E & F). exists s. splits; auto. exists (skipn (length l) (log s)). rewrite <- F at 1. now rewrite firstn_skipn.
Qed.
(** Main launches a fiber and joins it: it blocks, the fiber runs and terminates, main goes on. Then it joins the now empty object. *)
Definition run_join := [LOp 0 (OLaunch Post 0 0); LOp 0 (OJoin 0)] ++ repeat (LRun 0) 9 ++ [LOp 0 OExit] ++ repeat (LRun 0) 14.
Example C36_ex_join : exists s, reach s /\ errs s = [] /\ exists l2, log s = [EFree (Wk 0)] ++ EJoinRet (Mn 0) 0 (Some (Wk 0)) JOk :: l2.
Proof. destruct (by_logs run_join [EFree (Wk 0); EJoinRet (Mn 0) 0 (Some (Wk 0)) JOk]) as (s & R & E & l2 & Q); [vm_compute; auto|]. exists s. splits; auto. now exists l2. Qed.
Example C36_ex_invalid : exists s, reach s /\ errs s = [] /\ exists l2, log s = [EJoinRet (Mn 0) 0 None JInvalid] ++ EJoin (Mn 0) 0 :: l2.
Proof. destruct (by_logs (run_join ++ [LOp 0 (OJoin 0)]) [EJoinRet (Mn 0) 0 None JInvalid; EJoin (Mn 0) 0]) as (s & R & E & l2 & Q); [vm_compute; auto|]. exists s. splits; auto. now exists l2. Qed.
Example C36_ex_deadlock : exists s, reach s /\ errs s = [] /\ exists l2, log s = EJoinRet (Wk 0) 0 (Some (Wk 0)) JDeadlock :: l2.
Proof. apply (by_logs ([LOp 0 (OLaunch Post 0 0); LOp 0 OYield] ++ repeat (LRun 0) 8 ++ [LOp 0 (OJoin 0)]) [EJoinRet (Wk 0) 0 (Some (Wk 0)) JDeadlock]). vm_compute; auto. Qed.
Example C36_ex_detach : exists s, reach s /\ errs s = [] /\ exists l2, log s = EDetach (Mn 0) 0 None JInvalid :: EDetach (Mn 0) 0 (Some (Wk 0)) JOk :: l2.
Proof. apply (by_logs [LOp 0 (OLaunch Post 0 0); LOp 0 (ODetach 0); LOp 0 (ODetach 0)] [EDetach (Mn 0) 0 None JInvalid; EDetach (Mn 0) 0 (Some (Wk 0)) JOk]). vm_compute; auto. Qed.
(** Main is suspended in join; later the fiber has terminated and main is in the ready queue. *)
Example C36_ex_blocked : exists s, reach s /\ joining s (Mn 0) (Wk 0).
Proof.
  apply (reach_by step init ([LOp 0 (OLaunch Post 0 0); LOp 0 (OJoin 0)] ++ repeat (LRun 0) 9)). vm_compute. exists 1, 0. auto.
Qed.
Example C36_ex_released : exists s, reach s /\ terminated s (Wk 0) /\ (exists e h, pcc (cx s (Mn 0)) = PSusp e (WJoin h (Wk 0))) /\ ready s 0 (Mn 0).
Proof.
  apply (reach_by step init ([LOp 0 (OLaunch Post 0 0); LOp 0 (OJoin 0)] ++ repeat (LRun 0) 9 ++ [LOp 0 OExit] ++ repeat (LRun 0) 4)). vm_compute. splits; [tauto|exists 1, 0; auto|tauto].
Qed.

(** ** C37 the memory of a fiber *)

(** A fiber is destroyed once, after it has terminated, and only when no fiber object refers to it. *)
Theorem C37_free_once_not_early s l1 l2 n : reach s -> log s = l1 ++ EFree (Wk n) :: l2 ->
  ~ In (EFree (Wk n)) l2 /\ In (EFin (Wk n)) l2 /\ In (ELeft (Wk n)) l2 /\ (forall h, holds h l2 <> Some (Wk n)).
Proof.
  intros R E. pose proof (hist_at s l1 _ l2 R E) as K. simpl in K. destruct K as [K1 K2]. destruct (K2 eq_refl) as [K3 K4]. apply (ex_nin _ _ _ (isfree_i _)) in K1. apply (ex_in _ _ _ (isleft_i _)) in K3. splits; auto.
  apply in_split in K3. destruct K3 as (l3 & l4 & ->). assert (E2 : log s = (l1 ++ EFree (Wk n) :: l3) ++ ELeft (Wk n) :: l4) by (rewrite E; rewrite <- app_assoc; reflexivity).
  pose proof (hist_at s _ _ _ R E2) as J. simpl in J. destruct J as (_ & J & _). apply (ex_in _ _ _ (isfin_i _)) in J. apply in_or_app. right. now right.
Qed.
(** A destroyed fiber is nowhere: not running, not in any queue, not about to be put into one, not waiting, not waited for, not referred to. *)
Theorem C37_freed_is_nowhere s n : reach s -> In (EFree (Wk n)) (log s) ->
  let c := Wk n in
  (forall t, ~ running s t c /\ ~ ready s t c /\ ~ remote s t c) /\ ~ being_pushed s c /\ ~ waiting s c /\ (forall g, ~ joining s g c) /\ (forall h, holds h (log s) <> Some c) /\
  (forall t x, In x (slp (th s t)) -> snd (fst x) <> c) /\ (forall t, ~ In c (wkr (th s t)) /\ ~ In c (trm (th s t))).
Proof.
  intros R H c. destruct (reach_G12 s R) as (s0 & R0 & E0 & G & Q1 & Q2 & Q3 & Q4 & _). pose proof (l_inv _ (m_11 _ G)) as I. rewrite <- Q1 in H. assert (H' := H). apply (ex_in _ _ _ (isfree_i _)) in H. rewrite (g_free _ (l_9 _ (m_11 _ G))) in H. simpl in H. rewrite andb_true_r in H.
  assert (HL : In (ELeft c) (log s0)). { apply in_split in H'. destruct H' as (l1 & l2 & H'). rewrite Q1 in H'. destruct (C37_free_once_not_early s l1 l2 n R H') as (_ & _ & X & _). rewrite Q1, H'. apply in_or_app. right. now right. }
  assert (HLs : terminated s c) by (unfold terminated; now rewrite <- Q1).
  apply (ex_in _ _ _ (isleft_i _)) in HL. rewrite (g_left _ (l_8 _ (m_11 _ G))) in HL. assert (NN : pcc (cx s0 c) <> PNone) by (intros X; rewrite X in HL; discriminate HL).
  assert (C0 : cnt (cx s0 c) = 0) by (apply (r_fr _ (i_5 _ I) c); auto). pose proof (r_cnt _ (i_5 _ I) c eq_refl NN) as K. rewrite C0 in K. inversion K as [| | |NO NH]; subst.
  assert (PD : pcc (cx s0 c) = PDead). { destruct (pcc (cx s0 c)) eqn:Ep; try discriminate HL; auto. exfalso. apply NO. right. apply (k_lv _ (i_4 _ I)). now rewrite Ep. }
  destruct (i_a _ I) as [L A]. pose proof (a_pc _ _ _ A c) as P. unfold pcok in P. simpl in P. rewrite PD in P.
  unfold running, ready, remote, being_pushed, waiting. rewrite <- Q2, <- Q3. splits.
  - intros t. splits.
    + intros X. destruct (running_act s0 c t L A X) as [Y|[e Y]]; congruence.
    + intros X. apply (a_rq _ _ _ A) in X. destruct X. congruence.
    + intros [X|X]; [apply (a_rrq _ _ _ A) in X|apply (a_tmp _ _ _ A) in X]; destruct X; congruence.
  - intros X. destruct (pushed_fly s0 c L A X) as [b Y]. congruence.
  - intros (e & w & X & _). congruence.
  - intros g. now apply C36_joiners_released.
  - intros h X. rewrite <- Q1, <- (g_hn _ (l_10 _ (m_11 _ G))) in X. apply NH. now exists h.
  - intros t [[tp d] e] X Y. simpl in Y. subst d. destruct (b_slp _ (i_1 _ I) _ _ _ _ X) as (_ & (y & Y & _) & _). congruence.
  - intros t. split; intros X; [apply (k_wkr _ (i_4 _ I)) in X; rewrite PD in X; destruct X as (_ & _ & X); discriminate X|].
    apply NO. right. destruct (k_trm _ (i_4 _ I) _ _ X) as (_ & Y & _). now rewrite Y.
Qed.
(** No step uses a destroyed context. *)
Theorem C37_no_use_after_free s c : reach s -> ~ In (EFreed c) (errs s).
Proof. intros R H. destruct (reach_inv s R) as [E|[u E]]; rewrite E in H; simpl in H; [contradiction|destruct H as [H|[]]; discriminate H]. Qed.
(** A terminated fiber that no fiber object refers to has been destroyed, or is in the terminated queue of its thread, which the dispatcher empties. *)
Theorem C37_freed_if_unreferenced s n : reach s -> terminated s (Wk n) -> (forall h, holds h (log s) <> Some (Wk n)) ->
  In (EFree (Wk n)) (log s) \/ In (Wk n) (trm (th s (home (cx s (Wk n))))).
Proof.
  intros R H N. destruct (reach_G12 s R) as (s0 & R0 & E0 & G & Q1 & Q2 & Q3 & Q4 & _). pose proof (l_inv _ (m_11 _ G)) as I. unfold terminated in H. rewrite <- Q1, <- Q2, <- Q3 in *.
  apply (ex_in _ _ _ (isleft_i _)) in H. rewrite (g_left _ (l_8 _ (m_11 _ G))) in H. assert (NN : pcc (cx s0 (Wk n)) <> PNone) by (intros X; rewrite X in H; discriminate H).
  assert (NH : ~ handled s0 (Wk n)) by (intros [h X]; apply (N h); now rewrite <- (g_hn _ (l_10 _ (m_11 _ G)))).
  pose proof (r_cnt _ (i_5 _ I) (Wk n) eq_refl NN) as K. inversion K as [? Y|O Y Z|? Y|NO Y Z]; try contradiction.
  - right. destruct O as [O|O]; auto. destruct (pcc (cx s0 (Wk n))); try discriminate H; discriminate O.
  - left. apply (ex_in _ _ _ (isfree_i _)). rewrite (g_free _ (l_9 _ (m_11 _ G))). simpl. rewrite andb_true_r. now apply (r_fr _ (i_5 _ I) (Wk n)).
Qed.
(** Joined: freed by the joiner (the example C36_ex_join). Detached: freed by the dispatcher. *)
Definition run_detach := [LOp 0 (OLaunch Post 0 0); LOp 0 (ODetach 0); LOp 0 OYield] ++ repeat (LRun 0) 8 ++ [LOp 0 OExit] ++ repeat (LRun 0) 4 ++ [LOp 0 OYield] ++ repeat (LRun 0) 3.
Example C37_ex : exists s, reach s /\ errs s = [] /\ exists l2, log s = [] ++ EFree (Wk 0) :: l2.
Proof. apply (by_logs run_detach [EFree (Wk 0)]). vm_compute. auto. Qed.
Example C37_ex_unreferenced : exists s, reach s /\ terminated s (Wk 0) /\ (forall h, holds h (log s) <> Some (Wk 0)) /\ In (Wk 0) (trm (th s 0)).
Proof.
  apply (reach_by step init (firstn 16 run_detach)). vm_compute. splits; auto. intros [|h]; discriminate.
Qed.

(** ** C38 launch policies *)

(** launch::post: the caller goes on, the new fiber is last in the ready queue of the thread. launch::dispatch: the new fiber runs, the caller is last. *)
Theorem C38_launch s t n h p : reach s -> errs s = [] -> let a := act (th s t) in
  pcc (cx s a) = PIdle -> ~ launched s (Wk n) -> holds h (log s) = None ->
  exists s', step s (LOp t (OLaunch p n h)) = Some s' /\ errs s' = [] /\ holds h (log s') = Some (Wk n) /\
    match p with
    | Post => running s' t a /\ rq (th s' t) = rq (th s t) ++ [Wk n]
    | Dispatch => running s' t (Wk n) /\ rq (th s' t) = rq (th s t) ++ [a]
    end.
Proof.
  intros R E a P N H. pose proof (reach_ok s R E) as G. pose proof (l_inv _ (m_11 _ G)) as I.
  assert (PN : pcc (cx s (Wk n)) = PNone).
  { destruct (existsb (islaunch (Wk n)) (log s)) eqn:X; [apply islaunch_i in X; contradiction|]. rewrite (g_launch _ (l_8 _ (m_11 _ G))) in X. simpl in X. destruct (pcc (cx s (Wk n))); try discriminate X; auto. }
  rewrite <- (g_hn _ (l_10 _ (m_11 _ G))) in H.
  assert (HB : hb s h = false).
  { destruct (hb s h) eqn:B; auto. destruct (h_hb _ (i_2 _ I) h B) as (g & c & J). apply (h_ref _ (i_2 _ I)) in J. destruct J; congruence. }
  assert (X : exists s', step s (LOp t (OLaunch p n h)) = Some s').
  { unfold step. rewrite E. fold a. rewrite P. simpl. rewrite PN, H, HB. destruct p; eexists; reflexivity. }
  destruct X as [s' X]. exists s'. destruct (step_errs s _ s' I X) as [Es|(t0 & u & k & Y & _)]; [|discriminate Y]. splits; auto.
  all: clear Es; unfold step in X; rewrite E in X; fold a in X; rewrite P in X; simpl in X; rewrite PN, H, HB in X; destruct p; injection X as <-.
  all: unfold schedule, check; repeat match goal with |- context [if ?b then _ else _] => match b with Nat.eqb _ _ => fail 1 | _ => destruct b end end.
  all: simpl; rewrite ?upd_same; simpl; rewrite ?Nat.eqb_refl; auto.
  all: unfold running; simpl; rewrite ?upd_same; simpl; auto.
Qed.
(** Every fiber is launched once, starts once after it was launched, its function returns once after it started, and it terminates once after that. *)
Theorem C38_life_order s l1 l2 c : reach s ->
  (forall a p h, log s = l1 ++ ELaunch a p h c :: l2 -> worker c /\ (forall a' p' h', ~ In (ELaunch a' p' h' c) l2)) /\
  (log s = l1 ++ EStart c :: l2 -> worker c /\ (exists a p h, In (ELaunch a p h c) l2) /\ ~ In (EStart c) l2) /\
  (log s = l1 ++ EFin c :: l2 -> worker c /\ In (EStart c) l2 /\ ~ In (EFin c) l2) /\
  (log s = l1 ++ ELeft c :: l2 -> worker c /\ In (EFin c) l2 /\ ~ In (ELeft c) l2).
Proof.
  intros R. assert (WK : isw c = true -> worker c) by (destruct c; try discriminate; eexists; reflexivity). splits.
  - intros a p h E. pose proof (hist_at s l1 _ l2 R E) as K. simpl in K. destruct K as (K1 & K2 & _). split; auto. intros a' p' h' X. assert (Y : existsb (islaunch c) l2 = true) by (apply islaunch_i; eauto). congruence.
  - intros E. pose proof (hist_at s l1 _ l2 R E) as K. simpl in K. destruct K as (K1 & K2 & K3). apply islaunch_i in K2. apply (ex_nin _ _ _ (isstart_i _)) in K3. auto.
  - intros E. pose proof (hist_at s l1 _ l2 R E) as K. simpl in K. destruct K as (K1 & K2 & K3). apply (ex_in _ _ _ (isstart_i _)) in K2. apply (ex_nin _ _ _ (isfin_i _)) in K3. auto.
  - intros E. pose proof (hist_at s l1 _ l2 R E) as K. simpl in K. destruct K as (K1 & K2 & K3). apply (ex_in _ _ _ (isfin_i _)) in K2. apply (ex_nin _ _ _ (isleft_i _)) in K3. auto.
Qed.
(** A thread with one fiber in its ready queue launches another. *)
Example C38_ex : exists s, reach s /\ (errs s = [] /\ pcc (cx s (act (th s 0))) = PIdle /\ ~ launched s (Wk 1) /\ holds 1 (log s) = None /\ rq (th s 0) = [Dp 0; Wk 0]).
Proof.
  apply (reach_by step init [LOp 0 (OLaunch Post 0 0)]). vm_compute. splits; auto. intros (a & p & h & [X|[X|[]]]); discriminate X.
Qed.
Example C38_ex_life : exists s, reach s /\ errs s = [] /\ exists l2, log s = [] ++ ELeft (Wk 0) :: l2.
Proof. apply (by_logs (firstn 14 run_detach) [ELeft (Wk 0)]). vm_compute. auto. Qed.

(** ** C39 places *)

(** No context runs on two threads, no queue contains a context twice, no context is in two places. One exception: a fiber that has registered itself with
    a synchronization object and is about to suspend may already have been woken by another thread. *)
Theorem C39_one_place s : reach s ->
  (forall t u c, running s t c -> running s u c -> t = u) /\
  (forall t, NoDup (rq (th s t)) /\ NoDup (rrq (th s t) ++ tmp (th s t))) /\
  (forall t u c, ready s t c -> ready s u c -> t = u) /\
  (forall t u c, remote s t c -> remote s u c -> t = u) /\
  (forall a b k j c, pcc (cx s a) = PPush c k -> pcc (cx s b) = PPush c j -> a = b) /\
  (forall t u c, ready s t c -> ~ running s u c /\ ~ remote s u c /\ ~ being_pushed s c /\ ~ waiting s c) /\
  (forall t c, remote s t c -> ~ being_pushed s c /\ ~ waiting s c) /\
  (forall c, being_pushed s c -> ~ waiting s c) /\
  (forall t c, running s t c -> ~ waiting s c) /\
  (forall t u c, running s t c -> remote s u c \/ being_pushed s c -> exists e, pcc (cx s c) = PArmed e).
Proof.
  intros R. destruct (reach_G12 s R) as (s0 & _ & _ & G & _ & Q2 & Q3 & _). pose proof (l_inv _ (m_11 _ G)) as I. destruct (i_a _ I) as [L A].
  unfold running, ready, remote, being_pushed, waiting. rewrite <- Q2, <- Q3.
  assert (XR : forall t c, In c (rq (th s0 t)) -> L c = LRdy /\ home (cx s0 c) = t) by (intros t c; apply (a_rq _ _ _ A)).
  assert (XM : forall t c, In c (rrq (th s0 t)) -> L c = LRem /\ home (cx s0 c) = t) by (intros t c; apply (a_rrq _ _ _ A)).
  assert (XT : forall t c, In c (tmp (th s0 t)) -> L c = LTmp /\ home (cx s0 c) = t) by (intros t c; apply (a_tmp _ _ _ A)).
  assert (XF : forall c, being_pushed s0 c -> exists a, L c = LFly a) by (intros c; apply (pushed_fly s0 c L A)).
  assert (XW : forall c, waiting s0 c -> L c = LNo) by (intros c; apply (waiting_no s0 c L A)).
  assert (XA : forall t c, running s0 t c -> L c = LAct \/ exists e, pcc (cx s0 c) = PArmed e) by (intros t c; apply (running_act s0 c t L A)).
  assert (XP : forall c e, pcc (cx s0 c) = PArmed e -> L c = LAct \/ L c = LRem \/ exists a, L c = LFly a) by (intros c e; apply (armed_place s0 c e L A)).
  assert (XX : forall t c, In c (rrq (th s0 t)) \/ In c (tmp (th s0 t)) -> (L c = LRem \/ L c = LTmp) /\ home (cx s0 c) = t) by (intros t c [X|X]; [apply XM in X|apply XT in X]; intuition).
  fold (being_pushed s0). fold (waiting s0). splits.
  - intros t u c H1 H2. exact (running_one s0 t u c I H1 H2).
  - intros t. destruct (a_nd _ _ _ A t) as (N1 & N2 & N3). simpl in *. split; auto.
    assert (D : forall c, In c (rrq (th s0 t)) -> ~ In c (tmp (th s0 t))) by (intros c X Y; apply XM in X; apply XT in Y; destruct X, Y; congruence).
    clear - D N2 N3. induction (rrq (th s0 t)) as [|x l IH]; simpl; auto. inversion N2; subst. constructor.
    + rewrite in_app_iff. intros [X|X]; [contradiction|]. apply (D x); auto. now left.
    + apply IH; auto. intros c X. apply D. now right.
  - intros t u c H1 H2. apply XR in H1. apply XR in H2. destruct H1, H2. congruence.
  - intros t u c H1 H2. apply XX in H1. apply XX in H2. destruct H1, H2. congruence.
  - intros a b k j c H1 H2. assert (X : L c = LFly a) by (apply (a_fly _ _ _ A); simpl; now rewrite H1). assert (Y : L c = LFly b) by (apply (a_fly _ _ _ A); simpl; now rewrite H2). congruence.
  - intros t u c H. apply XR in H. destruct H as [H _]. splits.
    + intros X. destruct (XA _ _ X) as [Y|[e Y]]; [congruence|]. destruct (XP _ _ Y) as [Z|[Z|[a Z]]]; congruence.
    + intros X. apply XX in X. destruct X as [[X|X] _]; congruence.
    + intros X. destruct (XF _ X). congruence.
    + intros X. apply XW in X. congruence.
  - intros t c H. apply XX in H. destruct H as [H _]. split; intros X; [destruct (XF _ X)|apply XW in X]; destruct H; congruence.
  - intros c H X. destruct (XF _ H). apply XW in X. congruence.
  - intros t c H X. destruct X as (e & w & X1 & X2). destruct (XA _ _ H) as [Y|[e' Y]]; [|congruence]. assert (Z : L c = LNo) by (apply XW; exists e, w; auto). congruence.
  - intros t u c H [X|X]; destruct (XA _ _ H) as [Y|Y]; auto; exfalso; [apply XX in X; destruct X as [[X|X] _]; congruence|]. destruct (XF _ X). congruence.
Qed.
(** A fiber that has been launched and has not terminated is somewhere. *)
Theorem C39_somewhere s c : reach s -> launched s c -> ~ terminated s c ->
  let t := home (cx s c) in running s t c \/ ready s t c \/ remote s t c \/ being_pushed s c \/ waiting s c.
Proof.
  intros R H N t. destruct (reach_G12 s R) as (s0 & _ & _ & G & Q1 & Q2 & Q3 & _). pose proof (l_inv _ (m_11 _ G)) as I. apply islaunch_i in H. rewrite <- Q1, (g_launch _ (l_8 _ (m_11 _ G))) in H. apply andb_prop in H. destruct H as [W H].
  pose proof (place s0 c I H) as P. pose proof (kinds s0 I c) as K. unfold terminated in N. rewrite <- Q1 in N. unfold running, ready, remote, being_pushed, waiting in *. rewrite Q2, Q3 in *. fold t in P.
  destruct P as [P|[P|[P|[P|[P|[P|[P|P]]]]]]]; auto; exfalso.
  - apply N. apply (ex_in _ _ _ (isleft_i _)). now rewrite (g_left _ (l_8 _ (m_11 _ G))), Q2, P.
  - rewrite P in K. destruct c; simpl in K; try contradiction; discriminate W.
  - rewrite P in K. destruct c; simpl in K; try contradiction; discriminate W.
Qed.
(** A fiber was woken by another thread before it was switched out; one is in a ready queue, one sleeps. *)
Example C39_ex : exists s, reach s /\ (errs s = [] /\ running s 0 (Wk 0) /\ remote s 0 (Wk 0) /\ ready s 0 (Mn 0) /\ ready s 0 (Dp 0)).
Proof.
  apply (reach_by step init [LOp 0 (OLaunch Dispatch 0 0); LRun 0; LOp 0 OArm; LOp 1 (OWake (Wk 0) 1); LRun 1]). vm_compute. splits; auto.
Qed.
Example C39_ex_somewhere : exists s, reach s /\ (launched s (Wk 0) /\ ~ terminated s (Wk 0) /\ waiting s (Wk 0)).
Proof.
  apply (reach_by step init [LOp 0 (OLaunch Dispatch 0 0); LRun 0; LOp 0 (OSleep 5)]). vm_compute. splits.
  - exists (Mn 0), Dispatch, 0. tauto.
  - intros X. repeat destruct X as [X|X]; try discriminate X. destruct X.
  - exists 1, (WSleep 5). auto.
Qed.

(** ** C40 there is always something to run *)

(** No pick_next() that must return a context returns nullptr, and no assertion of the modelled code other than the one of C65 fails. *)
Theorem C40_never_null s : reach s -> ~ In ENull (errs s) /\ ~ In EAssert (errs s).
Proof. intros R. destruct (reach_inv s R) as [E|[u E]]; rewrite E; simpl; split; intros H; try contradiction; destruct H as [H|[]]; discriminate H. Qed.
(** A thread stops only when user code is to run on it, when it has shut down, when its dispatcher sleeps (its wake-up flag is not set and no deadline has passed), or for the
    short time that a joined fiber holds its lock in terminate() on another thread. *)
Theorem C40_thread_goes_on s t : reach s -> errs s = [] -> step s (LRun t) = None ->
  let a := act (th s t) in
  pcc (cx s a) = PIdle \/ In (EDown t) (log s) \/
  (a = Dp t /\ rq (th s t) = [] /\ flg (th s t) = false /\ forall c tp, sleeping s c tp -> home (cx s c) = t -> clk s < tp) \/
  (exists h c, pcc (cx s a) = PJoin h c /\ home (cx s c) <> t /\ running s (home (cx s c)) c /\ In (EFin c) (log s) /\ ~ terminated s c).
Proof.
  intros R E H a. pose proof (reach_ok s R E) as G. pose proof (l_inv _ (m_11 _ G)) as I. pose proof (stuck s t I E H) as S. cbv zeta in S. fold a in S. destruct S as [S|[[S1 S2]|[(S1 & o & S2 & S3 & S4)|(h & c & S1 & S2 & S3 & S4)]]]; auto.
  - right. left. apply (ex_in _ _ _ (isdown_i _)). rewrite (g_down _ (l_9 _ (m_11 _ G))), (m_gone _ (i_6 _ I)). rewrite S1 in S2. now rewrite S2.
  - right. right. left. split; auto. rewrite S1 in S2. splits; [exact (idle_empty s R E t o S2)|auto|]. intros c tp X Y. pose proof (sleeping_in s c tp I X) as Z. rewrite Y in Z. pose proof (f_o _ (i_7 _ I) t o S2) as F. pose proof (b_sort _ (i_1 _ I) t) as B. destruct (slp (th s t)) as [|[[tp0 c0] e0] q]; [destruct Z|]. simpl in F. specialize (S4 tp0 F). destruct Z as [Z|Z]; [injection Z; intros; subst; auto|]. destruct B as [B _]. apply B in Z. simpl in Z. lia.
  - right. right. right. exists h, c. splits; auto.
    + apply (ex_in _ _ _ (isfin_i _)). rewrite (g_fin _ (l_8 _ (m_11 _ G))). destruct (pcc (cx s c)); try discriminate S2; exact S2 || reflexivity.
    + intros X. apply (ex_in _ _ _ (isleft_i _)) in X. rewrite (g_left _ (l_8 _ (m_11 _ G))) in X. destruct (pcc (cx s c)); try discriminate S2; discriminate X.
Qed.
Lemma fifo_nodup t l : hist okev l -> NoDup (fifo t l).
Proof.
  induction l as [|e l IH]; simpl; intros H; [repeat constructor; auto|]. destruct H as [He H]. specialize (IH H). destruct e; auto; simpl in *; destruct (Nat.eqb_spec t t0) as [<-|]; auto.
  - apply (Permutation_NoDup (l := c :: fifo t l)); [apply Permutation_cons_append|]. constructor; tauto.
  - destruct He as [r He]. rewrite He in *. now inversion IH.
Qed.
(** When a thread resumes its dispatcher through the ready queue, no other context was ahead of it. *)
Theorem C40_dispatcher_last s l1 l2 t : reach s -> log s = l1 ++ EPick t (Dp t) :: l2 -> exists r, fifo t l2 = Dp t :: r /\ ~ In (Dp t) r.
Proof.
  intros R E. pose proof (hist_at s l1 _ l2 R E) as K. simpl in K. destruct K as [r K]. exists r. split; auto. intros X.
  assert (N : NoDup (fifo t l2)) by (apply (fifo_nodup t l2); pose proof (reach_hist s R) as J; rewrite E in J; clear - J; induction l1; simpl in J; tauto).
  rewrite K in N. inversion N. contradiction.
Qed.
(** The dispatcher of a thread sleeps with a fiber waiting and main sleeping until 7. *)
Definition run_idle := [LOp 0 (OLaunch Dispatch 0 0); LRun 0; LOp 0 (ODetach 0); LOp 0 OArm; LRun 0] ++ repeat (LRun 0) 8 ++ [LOp 0 (OSleep 7)] ++ repeat (LRun 0) 7.
Example C40_ex : exists s, reach s /\ (errs s = [] /\ step s (LRun 0) = None /\ pcc (cx s (act (th s 0))) = DIdle (Some 7) /\ sleeping s (Mn 0) 7 /\ waiting s (Wk 0)).
Proof.
  apply (reach_by step init run_idle). vm_compute. splits; auto.
  - exists 1, (WSleep 7). auto.
  - exists 1, WBlock. auto.
Qed.

(** ** C41 round robin *)

(** The ready queue of a thread is a first-in first-out queue of what was awakened: pick_next() takes the first, and a context is never put into it twice. *)
Theorem C41_fifo s : reach s -> (forall t, rq (th s t) = fifo t (log s)) /\
  (forall l1 t c l2, log s = l1 ++ EPick t c :: l2 -> exists r, fifo t l2 = c :: r) /\
  (forall l1 t c l2, log s = l1 ++ EAwake t c :: l2 -> ~ In c (fifo t l2)).
Proof.
  intros R. splits.
  - intros t. destruct (reach_G12 s R) as (s0 & _ & _ & G & Q1 & Q2 & Q3 & _). rewrite <- Q1, <- Q3. apply (g_rq _ (l_10 _ (m_11 _ G))).
  - intros l1 t c l2 E. exact (hist_at s l1 _ l2 R E).
  - intros l1 t c l2 E. exact (proj1 (hist_at s l1 _ l2 R E)).
Qed.
(** A context with [k] contexts ahead of it is picked at the latest by the [k+1]st pick, whatever the others do; until then the number ahead of it is [k] minus the number of picks. *)
Theorem C41_no_starvation s l1 l2 t c k : reach s -> log s = l1 ++ l2 -> nth_error (fifo t l2) k = Some c ->
  In (EPick t c) l1 \/ (picks t l1 <= k /\ nth_error (fifo t (log s)) (k - picks t l1) = Some c).
Proof. intros R E H. pose proof (reach_hist s R) as K. rewrite E in *. now apply fifo_bound. Qed.
(** Each pick is followed by resuming that context. *)
Example C41_ex : exists s, reach s /\ errs s = [] /\ exists l2, log s = [EAwake 0 (Mn 0); ERun 0 (Dp 0); EPick 0 (Dp 0)] ++ l2 /\ fifo 0 l2 = [Dp 0; Wk 0; Wk 1] /\ nth_error (fifo 0 l2) 2 = Some (Wk 1).
Proof.
  destruct (reach_by step init [LOp 0 (OLaunch Post 0 0); LOp 0 (OLaunch Post 1 1); LOp 0 OYield]
    (fun s => errs s = [] /\ log s = [EAwake 0 (Mn 0); ERun 0 (Dp 0); EPick 0 (Dp 0); EAwake 0 (Wk 1); ELaunch (Mn 0) Post 1 (Wk 1); EAwake 0 (Wk 0); ELaunch (Mn 0) Post 0 (Wk 0)])) as (s & R & E & F); [vm_compute; auto|].
  exists s. splits; auto. exists (skipn 3 (log s)). rewrite F. splits; reflexivity.
Qed.

(** ** C42 timers *)

(** sleep_until returns no earlier than its deadline; a wait with deadline reports "not timed out" exactly when it returns before its deadline; the dispatcher wakes by timer only contexts in such a call
    and only when the time it has read has reached the deadline. *)
Theorem C42_never_early s : reach s ->
  (forall l1 c tp now l2, log s = l1 ++ ESleepRet c tp now :: l2 -> tp <= now /\ pending c l2 = Some (CSleep tp)) /\
  (forall l1 c tp now r l2, log s = l1 ++ EWaitRet c tp now r :: l2 -> r = Nat.ltb now tp /\ pending c l2 = Some (CWait tp)) /\
  (forall l1 t c tp now l2, log s = l1 ++ ETimer t c tp now :: l2 -> tp <= now /\ (pending c l2 = Some (CSleep tp) \/ pending c l2 = Some (CWait tp))).
Proof. intros R. splits; intros; exact (hist_at s _ _ _ R H). Qed.
(** The contexts of a thread are woken by timer in the order of their deadlines, at a time that has been reached. *)
Theorem C42_deadline_order s l s' l1 t c tp now : reach s -> errs s = [] -> step s l = Some s' -> log s' = l1 ++ ETimer t c tp now :: log s ->
  now <= clk s /\ forall c' tp', sleeping s c' tp' -> home (cx s c') = t -> tp <= tp'.
Proof.
  intros R E St H. pose proof (reach_ok s R E) as G. pose proof (l_inv _ (m_11 _ G)) as I. destruct (step_errs s l s' I St) as [E'|(t0 & u & k & _ & _ & _ & ->)].
  - destruct (step_tr _ _ _ St E') as [_ T]. destruct (tr_timer _ _ _ _ _ _ _ T H) as (P & e & r & Sl & _). split.
    + apply (l_now _ (m_11 _ G) (act (th s t))). now rewrite P.
    + intros c' tp' X Y. pose proof (sleeping_in s c' tp' I X) as Z. rewrite Y, Sl in Z. destruct Z as [Z|Z]; [injection Z; intros; subst; auto|]. pose proof (b_sort _ (i_1 _ I) t) as B. rewrite Sl in B. destruct B as [B _]. exact (B _ Z).
  - exfalso. simpl in H. apply (f_equal (@length event)) in H. rewrite app_length in H. simpl in H. lia.
Qed.
(** The dispatcher leaves the loop over the sleepers only when the deadline of every one that still sleeps is later than the time it has read. *)
Theorem C42_pass_complete s t nw s' : reach s -> errs s = [] -> pcc (cx s (Dp t)) = DSleep nw -> step s (LRun t) = Some s' -> pcc (cx s' (Dp t)) = DPick ->
  forall c tp, sleeping s c tp -> home (cx s c) = t -> nw < tp.
Proof.
  intros R E P St N c tp X Y. pose proof (reach_ok s R E) as G. pose proof (l_inv _ (m_11 _ G)) as I. pose proof (sleeping_in s c tp I X) as Z. rewrite Y in Z. pose proof (b_sort _ (i_1 _ I) t) as B.
  assert (A : act (th s t) = Dp t) by (apply disp_act; auto; now rewrite P). rewrite run_disp in St by (auto; now rewrite P). unfold dstep in St. rewrite P in St.
  destruct (slp (th s t)) as [|[[tp0 c0] e0] r]; [destruct Z|]. assert (L : tp0 <= tp) by (destruct Z as [Z|Z]; [injection Z; intros; subst; auto|destruct B as [B _]; apply (B _ Z)]).
  destruct (Nat.leb_spec tp0 nw) as [L2|L2]; [|lia]. exfalso. injection St as <-. revert N. unfold do_wake. destruct (Nat.eqb _ _); [destruct (Nat.eqb _ _)|]; unfold setpc, setc; simpl; unfold cupd; rewrite ctx_eqb_refl; discriminate.
Qed.

(** A thread whose dispatcher sleeps does so no longer than to the earliest deadline, and without limit only if none of its contexts has one. *)
Theorem C42_idle_bound s t o : reach s -> errs s = [] -> pcc (cx s (Dp t)) = DIdle o ->
  forall c tp, sleeping s c tp -> home (cx s c) = t -> exists d, o = Some d /\ d <= tp.
Proof.
  intros R E P c tp X Y. pose proof (reach_ok s R E) as G. pose proof (l_inv _ (m_11 _ G)) as I. pose proof (sleeping_in s c tp I X) as Z. rewrite Y in Z. pose proof (b_sort _ (i_1 _ I) t) as B.
  pose proof (f_o _ (i_7 _ I) t o P) as F. destruct (slp (th s t)) as [|[[tp0 c0] e0] r]; [destruct Z|]. exists tp0. split; auto. destruct Z as [Z|Z]; [injection Z; intros; subst; auto|]. destruct B as [B _]. exact (B _ Z).
Qed.
(** When the deadline of a context has passed its sleeping thread makes it ready, in finitely many steps of its own and whatever else is in its queues. *)
Theorem C42_due_is_woken s t o c tp : reach s -> errs s = [] -> pcc (cx s (Dp t)) = DIdle o -> sleeping s c tp -> home (cx s c) = t -> tp <= clk s ->
  exists n s', exec step s (repeat (LRun t) n) = Some s' /\ ready s' t c.
Proof. intros R E P H1 H2 H3. exact (due_idle s t o c tp (l_inv _ (m_11 _ (reach_ok s R E))) E P H1 H2 H3). Qed.
(** main sleeps until 7, a fiber until 5; then the clock is 9. *)
Definition run_sleep := [LOp 0 (OLaunch Dispatch 0 0); LRun 0; LOp 0 (OSleep 5)] ++ repeat (LRun 0) 8 ++ [LOp 0 (OSleep 7)] ++ repeat (LRun 0) 7.
Example C42_ex_sleep : exists s, reach s /\ (errs s = [] /\ pcc (cx s (Dp 0)) = DIdle (Some 5) /\ sleeping s (Mn 0) 7 /\ sleeping s (Wk 0) 5 /\ clk s = 9).
Proof.
  apply (reach_by step init (run_sleep ++ [LTick 8])). vm_compute. splits; auto.
  - exists 1, (WSleep 7). auto.
  - exists 1, (WSleep 5). auto.
Qed.
(** Then the dispatcher has woken both, the one with the earlier deadline first; and the two calls have returned. *)
Example C42_ex_order : exists s, reach s /\ errs s = [] /\ exists l2, log s = [EAwake 0 (Mn 0); EWake (Mn 0) 1] ++ ETimer 0 (Mn 0) 7 9 :: EAwake 0 (Wk 0) :: EWake (Wk 0) 1 :: ETimer 0 (Wk 0) 5 9 :: l2.
Proof.
  apply (by_logs (run_sleep ++ LTick 8 :: repeat (LRun 0) 7) [EAwake 0 (Mn 0); EWake (Mn 0) 1; ETimer 0 (Mn 0) 7 9; EAwake 0 (Wk 0); EWake (Wk 0) 1; ETimer 0 (Wk 0) 5 9]). vm_compute. auto.
Qed.
Example C42_ex_return : exists s, reach s /\ errs s = [] /\ exists l2, log s = [] ++ ESleepRet (Wk 0) 5 9 :: l2.
Proof. apply (by_logs (run_sleep ++ LTick 8 :: repeat (LRun 0) 10) [ESleepRet (Wk 0) 5 9]). vm_compute. auto. Qed.
(** The dispatcher is at the end of a pass with a sleeper left. *)
Example C42_ex_pass : exists s, reach s /\ (errs s = [] /\ pcc (cx s (Dp 0)) = DSleep 6 /\ sleeping s (Mn 0) 7 /\ exists s', step s (LRun 0) = Some s' /\ pcc (cx s' (Dp 0)) = DPick).
Proof.
  apply (reach_by step init (run_sleep ++ LTick 5 :: repeat (LRun 0) 6)). vm_compute. splits; auto.
  - exists 1, (WSleep 7). auto.
  - eexists. split; reflexivity.
Qed.

(** ** C43 wake-ups from other threads *)

(** A thread whose dispatcher sleeps while a fiber is in its remote-ready queue has its wake-up flag set, or a thread is about to set it. *)
Theorem C43_not_lost s t o g : reach s -> errs s = [] -> pcc (cx s (Dp t)) = DIdle o -> In g (rrq (th s t)) ->
  flg (th s t) = true \/ exists a k, pcc (cx s a) = PNote t k.
Proof.
  intros R E P H. apply (f_rr _ (i_7 _ (l_inv _ (m_11 _ (reach_ok s R E))))); [intros X; rewrite X in H; destruct H|now rewrite P].
Qed.
(** With the flag set the thread takes the fiber over into its ready queue, in finitely many steps of its own. *)
Theorem C43_delivered s t o g : reach s -> errs s = [] -> pcc (cx s (Dp t)) = DIdle o -> flg (th s t) = true -> In g (rrq (th s t)) ->
  exists n s', exec step s (repeat (LRun t) n) = Some s' /\ ready s' t g.
Proof. intros R E P F H. exact (deliver_idle s t o g (l_inv _ (m_11 _ (reach_ok s R E))) E P F H). Qed.
(** The temporary list of remote_ready2ready_ is not empty only while the dispatcher is working on it. *)
Theorem C43_drained s t : reach s -> tmp (th s t) <> [] -> running s t (Dp t) /\ pcc (cx s (Dp t)) = DDrain.
Proof.
  intros R H. destruct (reach_G12 s R) as (s0 & _ & _ & G & _ & Q2 & Q3 & _). pose proof (l_inv _ (m_11 _ G)) as I. unfold running. rewrite <- Q2, <- Q3 in *. destruct (i_a _ I) as [L A]. pose proof (a_tmpd _ _ _ A t H) as X. simpl in X. split; auto. apply disp_act; auto. now rewrite X.
Qed.
Example C43_ex : exists s, reach s /\ (errs s = [] /\ pcc (cx s (Dp 0)) = DIdle (Some 7) /\ rrq (th s 0) = [Wk 0] /\ flg (th s 0) = false /\ pcc (cx s (Mn 1)) = PNote 0 KUser).
Proof. apply (reach_by step init (run_idle ++ [LOp 1 (OWake (Wk 0) 1); LRun 1])). vm_compute. auto. Qed.
Example C43_ex_flag : exists s, reach s /\ (errs s = [] /\ pcc (cx s (Dp 0)) = DIdle (Some 7) /\ rrq (th s 0) = [Wk 0] /\ flg (th s 0) = true).
Proof. apply (reach_by step init (run_idle ++ [LOp 1 (OWake (Wk 0) 1); LRun 1; LRun 1])). vm_compute. auto. Qed.

(** ** C44 shutdown *)

(** When the destructor of the scheduler of a thread returns, every fiber that ever ran or became ready on that thread has terminated, and has been destroyed unless a fiber object still refers to it. *)
Theorem C44_all_done s l1 l2 t c : reach s -> log s = l1 ++ EDown t :: l2 -> worker c -> In (EAwake t c) l2 \/ In (ERun t c) l2 ->
  In (ELeft c) l2 /\ ((exists h, holds h l2 = Some c) \/ In (EFree c) l2).
Proof.
  intros R E [n ->] H. pose proof (hist_at s l1 _ l2 R E) as K. simpl in K. destruct K as [_ K]. apply isat_i in H. destruct (K (Wk n) eq_refl H) as [K1 K2]. apply (ex_in _ _ _ (isleft_i _)) in K1. split; auto. destruct K2 as [K2|K2]; auto. right. now apply (ex_in _ _ _ (isfree_i _)).
Qed.
(** It happens once and nothing runs on the thread afterwards. *)
Theorem C44_nothing_after s l1 l2 t : reach s -> log s = l1 ++ EDown t :: l2 -> ~ In (EDown t) l2 /\ forall c, ~ In (ERun t c) l1.
Proof.
  intros R E. split.
  - pose proof (hist_at s l1 _ l2 R E) as K. simpl in K. destruct K as [K _]. now apply (ex_nin _ _ _ (isdown_i _)) in K.
  - intros c H. apply in_split in H. destruct H as (l3 & l4 & ->). assert (E2 : log s = l3 ++ ERun t c :: (l4 ++ EDown t :: l2)) by (rewrite E, <- app_assoc; reflexivity).
    pose proof (hist_at s _ _ _ R E2) as K. simpl in K. destruct K as [K _]. apply (ex_nin _ _ _ (isdown_i _)) in K. apply K. apply in_or_app. right. now left.
Qed.
(** main launches and detaches a fiber and ends at once: the destructor waits for the fiber. *)
Definition run_down := [LOp 0 (OLaunch Post 0 0); LOp 0 (ODetach 0); LOp 0 OShut] ++ repeat (LRun 0) 9 ++ [LOp 0 OExit] ++ repeat (LRun 0) 8.
Example C44_ex : exists s, reach s /\ errs s = [] /\ exists l2, log s = [] ++ EDown 0 :: EFree (Dp 0) :: l2.
Proof. apply (by_logs run_down [EDown 0; EFree (Dp 0)]). vm_compute. auto. Qed.

(** ** C64 the notification of another thread *)

(** schedule_from_remote() calls algo_->notify() after it has released the lock of the remote-ready queue. By then the fiber may have run and terminated and the scheduler may be deleted:
    the property "a scheduler is not used after it has been deleted" does not hold. *)
Definition run_gone := [LOp 0 (OLaunch Dispatch 0 0); LRun 0; LOp 0 (ODetach 0); LOp 0 OArm; LRun 0] ++ repeat (LRun 0) 8 ++ [LOp 1 (OWake (Wk 0) 1); LRun 1] ++
  [LOp 0 OYield] ++ repeat (LRun 0) 9 ++ [LOp 0 OYield; LRun 0; LOp 0 OExit] ++ repeat (LRun 0) 12 ++ [LOp 0 OShut] ++ repeat (LRun 0) 5.
Theorem C64_refuted : exists s, reach s /\ In (EGone 0) (errs s) /\ exists l2, log s = EDown 0 :: l2.
Proof.
  destruct (reach_by step init (run_gone ++ [LRun 1]) (fun s => errs s = [EGone 0] /\ firstn 1 (log s) = [EDown 0])) as (s & R & E & F); [vm_compute; auto|].
  exists s. splits; auto; [rewrite E; now left|]. exists (skipn 1 (log s)). pose proof (firstn_skipn 1 (log s)) as X. rewrite F in X. now symmetry.
Qed.
(** That is the only error that can occur, and it occurs only there: in the call of notify() on the scheduler of another thread whose destructor has returned. *)
Theorem C64_partial s l s' : reach s -> errs s = [] -> step s l = Some s' -> errs s' <> [] ->
  exists t u k, l = LRun t /\ pcc (cx s (act (th s t))) = PNote u k /\ In (EDown u) (log s) /\ errs s' = [EGone u].
Proof.
  intros R E St N. pose proof (reach_ok s R E) as G. destruct (step_errs s l s' (l_inv _ (m_11 _ G)) St) as [X|(t & u & k & X1 & X2 & X3 & ->)]; [contradiction|]. exists t, u, k. splits; auto.
  - apply (ex_in _ _ _ (isdown_i _)). now rewrite (g_down _ (l_9 _ (m_11 _ G))).
  - simpl. now rewrite E.
Qed.
Example C64_ex : exists s, reach s /\ (errs s = [] /\ exists s', step s (LRun 1) = Some s' /\ errs s' <> []).
Proof. apply (reach_by step init run_gone). vm_compute. split; auto. eexists. split; [reflexivity|discriminate]. Qed.

(** ** C65 wake-ups during shutdown *)

(** BOOST_ASSERT( ! shutdown_) of schedule_from_remote() does not hold: a fiber may be woken by another thread while the destructor of the scheduler waits for it. *)
Theorem C65_refuted : exists s, reach s /\ errs s = [] /\ exists l2, log s = EShutAssert 0 :: l2.
Proof.
  apply (by_logs ([LOp 0 (OLaunch Dispatch 0 0); LRun 0; LOp 0 (ODetach 0); LOp 0 OArm; LRun 0] ++ repeat (LRun 0) 8 ++ [LOp 0 OShut; LRun 0; LOp 1 (OWake (Wk 0) 1); LRun 1]) [EShutAssert 0]). vm_compute. auto.
Qed.
(** Without assertions that wake-up is not lost: the fiber is delivered as any other (C43_delivered does not depend on shutdown), the destructor has not returned. *)
Theorem C65_partial s t g : reach s -> errs s = [] -> In g (rrq (th s t)) -> ~ In (EDown t) (log s) /\ ~ terminated s g.
Proof.
  intros R E H. pose proof (reach_ok s R E) as G. pose proof (l_inv _ (m_11 _ G)) as I. destruct (i_a _ I) as [L A]. apply (a_rrq _ _ _ A) in H. destruct H as [H Hh]. simpl in H, Hh. pose proof (a_pc _ _ _ A g) as P. unfold pcok in P. simpl in P. pose proof (kinds s I g) as K. split.
  - intros X. apply (ex_in _ _ _ (isdown_i _)) in X. rewrite (g_down _ (l_9 _ (m_11 _ G))) in X. destruct (gone_disp s I t X) as [X1 X2]. destruct g as [u|u|n].
    + pose proof (a_home _ _ _ A u) as [_ Z]. simpl in Z. assert (u = t) by congruence. subst u. rewrite X2 in P. congruence.
    + destruct (pcc (cx s (Dp u))); simpl in K; try contradiction; try congruence. destruct P; congruence.
    + assert (Y : In (Wk n) (wkr (th s t))); [|rewrite (m_fin _ (i_6 _ I) t) in Y; [destruct Y|rewrite X1; simpl; lia]]. apply (k_wkr _ (i_4 _ I)). splits; auto. destruct (pcc (cx s (Wk n))); auto; congruence.
  - intros X. apply (ex_in _ _ _ (isleft_i _)) in X. rewrite (g_left _ (l_8 _ (m_11 _ G))) in X. destruct (pcc (cx s g)); try discriminate X; congruence.
Qed.
Example C65_ex : exists s, reach s /\ (errs s = [] /\ rrq (th s 0) = [Wk 0] /\ shut (th s 0) = true).
Proof.
  apply (reach_by step init ([LOp 0 (OLaunch Dispatch 0 0); LRun 0; LOp 0 (ODetach 0); LOp 0 OArm; LRun 0] ++ repeat (LRun 0) 8 ++ [LOp 0 OShut; LRun 0; LOp 1 (OWake (Wk 0) 1); LRun 1])). vm_compute. auto.
Qed.

Print Assumptions C36_join_result.
Print Assumptions C36_object.
Print Assumptions C36_not_joinable_after.
Print Assumptions C36_detach_result.
Print Assumptions C36_errors_at_once.
Print Assumptions C36_joiners_released.
Print Assumptions C36_joiner_on_its_way.
Print Assumptions C37_free_once_not_early.
Print Assumptions C37_freed_is_nowhere.
Print Assumptions C37_no_use_after_free.
Print Assumptions C37_freed_if_unreferenced.
Print Assumptions C38_launch.
Print Assumptions C38_life_order.
Print Assumptions C39_one_place.
Print Assumptions C39_somewhere.
Print Assumptions C40_never_null.
Print Assumptions C40_thread_goes_on.
Print Assumptions C40_dispatcher_last.
Print Assumptions C41_fifo.
Print Assumptions C41_no_starvation.
Print Assumptions C42_never_early.
Print Assumptions C42_deadline_order.
Print Assumptions C42_pass_complete.
Print Assumptions C42_idle_bound.
Print Assumptions C42_due_is_woken.
Print Assumptions C43_not_lost.
Print Assumptions C43_delivered.
Print Assumptions C43_drained.
Print Assumptions C44_all_done.
Print Assumptions C44_nothing_after.
Print Assumptions C64_refuted.
Print Assumptions C64_partial.
Print Assumptions C65_refuted.
Print Assumptions C65_partial.
