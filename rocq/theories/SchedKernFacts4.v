(** Proofs about the scheduler: the relation to Kernel.v over whole executions, and what it says about the states. *)
From Coq Require Import List Arith Bool Lia.
From Verif Require Import Base Sched SchedSpec SchedFacts SchedFacts2 SchedFacts3 SchedFacts4 SchedFacts5 SchedFacts6 SchedFacts7 SchedFacts8 SchedFacts9 SchedFacts10 SchedFacts11 SchedKern SchedKernFacts SchedKernFacts2 SchedKernFacts3.
From Verif Require Kernel.
Import ListNotations.

(** ** The beginning *)
Definition fnew := Kernel.mkFiber 0 false true 0 None.
Record pm (T : list tid) (k : Kernel.kern) : Prop := {
  p_now : Kernel.now k = 0;
  p_err : Kernel.err k = false;
  p_in : forall t, In t T -> Kernel.thr k t = Some (code (Mn t)) /\ Kernel.fib k (code (Mn t)) = Kernel.mkFiber 0 true false t None;
  p_out : forall t, ~ In t T -> Kernel.thr k t = None /\ Kernel.fib k (code (Mn t)) = fnew;
  p_wk : forall n, Kernel.fib k (code (Wk n)) = fnew
}.
Lemma pm_step T k t : pm T k -> ~ In t T -> exists k', kdo k (ASys (Kernel.Pick (code (Mn t)) t)) = Some k' /\ pm (t :: T) k'.
Proof.
  intros [P1 P2 P3 P4 P5] N. destruct (P4 t N) as [X Y]. unfold kdo, Kernel.kstep. rewrite X, Y. cbn [Kernel.queued Kernel.running Kernel.epoch fnew andb negb]. eexists. split; [reflexivity|].
  constructor; cbn [Kernel.now Kernel.err Kernel.thr Kernel.fib]; auto.
  - intros u [<-|Iu]; [now rewrite !upd_same|]. assert (u <> t) by (intros ->; contradiction). rewrite !upd_other by (simpl; lia). auto.
  - intros u Nu. assert (u <> t) by (intros ->; apply Nu; now left). rewrite !upd_other by (simpl; lia). apply P4. intros Iu. apply Nu. now right.
  - intros n. rewrite upd_other by (simpl; lia). auto.
Qed.
Lemma pm_all T : forall T0 k, pm T0 k -> NoDup T -> (forall t, In t T -> ~ In t T0) -> exists k' T', exec kdo k (mains T) = Some k' /\ pm T' k' /\ (forall t, In t T' <-> In t T \/ In t T0).
Proof.
  induction T as [|t T IH]; intros T0 k P D H.
  - exists k, T0. splits; auto. intros t. simpl. tauto.
  - inversion D as [|? ? D1 D2]. subst. destruct (pm_step T0 k t P) as (k1 & X1 & X2); [apply H; now left|].
    destruct (IH (t :: T0) k1 X2 D2) as (k' & T' & Y1 & Y2 & Y3); [intros u Iu [<-|Ju]; [contradiction|]; apply (H u); auto; now right|].
    exists k', T'. splits; auto; [unfold mains in *; cbn [map exec]; now rewrite X1|]. intros u. rewrite Y3. simpl. tauto.
Qed.
Lemma pm_init : pm [] Kernel.kinit.
Proof. constructor; auto; intros t []. Qed.

Lemma RR_init T : NoDup T -> exists k, exec kdo Kernel.kinit (mains T) = Some k /\ RR T init k.
Proof.
  intros D. destruct (pm_all T [] _ pm_init D) as (k & T' & X & [P1 P2 P3 P4 P5] & HT); [auto|]. exists k. split; auto.
  destruct (i_a _ Inv_init) as [L I]. exists L. split; auto.
  assert (Lm : forall t, L (Mn t) = LAct) by (intros t; apply (a_pc _ _ _ I (Mn t))).
  assert (Lw : forall n, L (Wk n) = LNo) by (intros n; apply (a_pc _ _ _ I (Wk n))).
  assert (H1 : forall t, In t T -> In t T') by (intros t It; apply HT; auto).
  assert (H2 : forall t, ~ In t T -> ~ In t T') by (intros t It H; apply HT in H; destruct H; auto).
  constructor; auto.
  - intros t It. apply P3. auto.
  - intros c Fc. destruct c as [t|t|n]; simpl in Fc; [|contradiction|].
    + destruct (P3 t (H1 t Fc)) as [_ Y]. rewrite Y, Lm. constructor; simpl; auto; discriminate.
    + rewrite P5, Lw. constructor; simpl; auto; discriminate.
  - intros u Nu. destruct (P4 u (H2 u Nu)) as [_ Y]. rewrite Y. auto.
Qed.

(** ** Executions *)
Lemma exec_errs ls : forall s s', exec step s ls = Some s' -> errs s' = [] -> errs s = [].
Proof.
  induction ls as [|l ls IH]; simpl; intros s s' H E; [congruence|]. destruct (step s l) as [s1|] eqn:X; [|discriminate H]. pose proof (IH _ _ H E) as E1. apply (step_ltr s l s1 X E1).
Qed.
Lemma all_acts_app ls : forall s s1 l, exec step s ls = Some s1 -> all_acts s (ls ++ [l]) = all_acts s ls ++ acts s1 l.
Proof.
  induction ls as [|l0 ls IH]; intros s s1 l H; cbn [app all_acts exec] in *.
  - injection H as <-. destruct (step s l); now rewrite app_nil_r.
  - destruct (step s l0) as [s2|] eqn:X; [|discriminate H]. rewrite (IH s2 s1 l H). now rewrite app_assoc.
Qed.
Theorem RR_exec T : NoDup T -> forall ls s, (forall l t, In l ls -> thread_of l = Some t -> In t T) -> exec step init ls = Some s -> errs s = [] ->
  exists k, exec kdo Kernel.kinit (mains T ++ all_acts init ls) = Some k /\ RR T s k.
Proof.
  intros D. induction ls as [|l ls IH] using rev_ind; intros s HT H E.
  - injection H as <-. cbn [all_acts]. rewrite app_nil_r. now apply RR_init.
  - apply exec_app in H. destruct H as (s1 & H1 & H2). cbn [exec] in H2. destruct (step s1 l) as [s2|] eqn:X; [|discriminate H2]. injection H2 as ->.
    destruct (step_ltr s1 l s X E) as [E1 Z].
    destruct (IH s1) as (k1 & K1 & K2); auto; [intros l' t Il; apply HT; apply in_or_app; auto|].
    assert (G : G12 s1) by (apply reach_ok; auto; exists ls; auto).
    destruct (sim_step T s1 s k1 (l_inv _ (m_11 _ G)) (l_now _ (m_11 _ G)) K2 _ _ Z) as (k' & K3 & K4).
    + intros t Ht. apply (HT l t); auto. apply in_or_app. right. now left.
    + exists k'. split; auto. rewrite (all_acts_app _ _ _ _ H1), app_assoc. apply exec_app. eauto.
Qed.

(** ** The states *)
Section States.
Variables (T : list tid) (s : state) (k : Kernel.kern).
Hypothesis (RS : RR T s k).

Lemma rn_running L c : IA (V s) (W s) L -> rn (V s c) (L c) = true <-> running s (home (cx s c)) c.
Proof.
  intros I. unfold running. split; intros H.
  - apply (a_run _ _ _ I c). unfold rn in H. destruct (L c); auto.
  - pose proof (a_act _ _ _ I (home (cx s c))) as [_ X]. simpl in X. rewrite H in X. unfold rn. simpl. destruct X as [->| ->]; auto. now destruct (L c).
Qed.
Lemma qd_way L c : IA (V s) (W s) L -> qd (V s c) (L c) = true <-> on_its_way s c \/ pcc (cx s c) = PNone \/ (pcc (cx s c) = PShut2 /\ ~ running s (home (cx s c)) c).
Proof.
  intros I. rewrite <- (rn_running L c I).
  assert (Q1 : ready s (home (cx s c)) c <-> L c = LRdy) by (unfold ready; rewrite (a_rq _ _ _ I (home (cx s c)) c); simpl; tauto).
  assert (Q2 : remote s (home (cx s c)) c <-> L c = LRem \/ L c = LTmp).
  { unfold remote. pose proof (a_rrq _ _ _ I (home (cx s c)) c) as X1. pose proof (a_tmp _ _ _ I (home (cx s c)) c) as X2. simpl in X1, X2. tauto. }
  assert (Q3 : being_pushed s c <-> exists a, L c = LFly a).
  { unfold being_pushed. split; intros [a H].
    - destruct H as [k0 H]. exists a. apply (a_fly _ _ _ I). simpl. now rewrite H.
    - exists a. apply (a_fly _ _ _ I) in H. simpl in H. destruct (pcc (cx s a)); try discriminate H. injection H as ->. eauto. }
  pose proof (a_pc _ _ _ I c) as P. unfold pcok in P. unfold on_its_way. rewrite Q1, Q2, Q3. unfold qd, rn. simpl in *. destruct (L c) eqn:El.
  - split.
    + destruct (pcc (cx s c)) eqn:E; try discriminate; auto. intros _. right. right. split; auto. simpl. discriminate.
    + intros [[H|[[H|H]|[a H]]]|[H|[H _]]]; try discriminate H; now rewrite H.
  - split; [discriminate|]. intros [[H|[[H|H]|[a H]]]|[H|[_ H]]]; try discriminate H; [rewrite H in P; discriminate P|now destruct H].
  - split; auto.
  - split; auto.
  - split; auto.
  - split; eauto.
Qed.
Theorem RR_agree : agree T s k.
Proof.
  destruct RS as (L & I & R). constructor.
  - apply R.
  - apply R.
  - intros t It. rewrite (r_thr _ _ _ _ _ _ R t It). reflexivity.
  - intros c Fc. apply (f_ep _ _ _ (r_fib _ _ _ _ _ _ R c Fc)).
  - intros c Fc. rewrite (f_rn _ _ _ (r_fib _ _ _ _ _ _ R c Fc)). now apply rn_running.
  - intros c Fc. rewrite (f_qd _ _ _ (r_fib _ _ _ _ _ _ R c Fc)). now apply qd_way.
  - intros c Fc H. pose proof (a_pc _ _ _ I c) as P. unfold pcok in P. simpl in P. rewrite <- (rn_running L c I) in H.
    destruct (f_hm _ _ _ (r_fib _ _ _ _ _ _ R c Fc)) as [X|[[X Y]|X]]; [| |exact X]; exfalso; simpl in X; rewrite X in P.
    + rewrite P in H. unfold rn in H. simpl in H. rewrite X in H. destruct H as [H|(e & y & H & _)]; [discriminate H|congruence].
    + rewrite Y in H. unfold rn in H. simpl in H. rewrite X in H. destruct H as [H|(e & y & H & _)]; [discriminate H|congruence].
  - intros c tp Fc (e & y & X & Y & Z). apply (f_sl _ _ _ (r_fib _ _ _ _ _ _ R c Fc) y tp); simpl; [congruence|]. destruct Z as [-> | ->]; reflexivity.
Qed.
Lemma RR_blocked c : fiber_of T c -> Kernel.blocked k (code c) <-> waiting s c \/ pcc (cx s c) = PDead.
Proof.
  intros Fc. destruct RS as (L & I & R). pose proof (r_fib _ _ _ _ _ _ R c Fc) as F. unfold Kernel.blocked, waiting. rewrite (f_rn _ _ _ F), (f_qd _ _ _ F).
  pose proof (a_pc _ _ _ I c) as P. unfold pcok in P. pose proof (a_kind _ _ _ I c) as K. simpl in *. unfold rn, qd. simpl. split.
  - intros [H1 H2]. destruct (L c) eqn:El; try discriminate. destruct (pcc (cx s c)) eqn:E; try discriminate; try (destruct P as [P|P]; discriminate P); auto.
    + left. destruct P as [[P _]|[_ P]]; [eauto|contradiction].
    + exfalso. destruct c; simpl in *; contradiction.
  - intros [(e & y & H & E)|H]; rewrite H in *.
    + destruct P as [[_ P]|[P _]]; [|lia]. rewrite P. auto.
    + rewrite P. auto.
Qed.
End States.
