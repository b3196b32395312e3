(** Proofs about the scheduler: what every recorded event says about the events before it. *)
From Coq Require Import List Arith Bool Lia.
From Verif Require Import Base Sched SchedSpec SchedFacts SchedFacts2 SchedFacts3 SchedFacts4 SchedFacts5 SchedFacts6 SchedFacts7 SchedFacts8 SchedFacts9 SchedFacts10.
Import ListNotations.

Definition callof (p : pc) : option call :=
  match p with
  | PJoin h _ | PRel h _ | PSusp _ (WJoin h _) => Some (CJoin h)
  | PSusp _ (WSleep tp) => Some (CSleep tp) | PSusp _ (WTimed tp) => Some (CWait tp)
  | _ => None
  end.
Definition g_call (s : state) : Prop := forall c, pending c (log s) = callof (pcc (cx s c)).
Theorem g_call_step s s' : Inv s -> g_call s -> tr s s' -> g_call s'.
Proof.
  intros I G T. assert (HR : forall g h c, jref (pcc (cx s g)) = Some (h, c) -> c <> g) by (intros g h c H; apply (h_ref _ (i_2 _ I) g h c H)).
  trd T; try match goal with E : ?c = Wk ?n |- _ => is_var c; subst c end; trd2; 
    try match goal with Ep : pcc (cx s ?a) = PJoin ?h ?d |- _ => pose proof (HR a h d) as Xn; rewrite Ep in Xn; specialize (Xn eq_refl) end;
    try match goal with Ep : pcc (cx s ?a) = PRel ?h ?d |- _ => pose proof (HR a h d) as Xn; rewrite Ep in Xn; specialize (Xn eq_refl) end;
    inner; intros z0; rewrite ?Ql, ?Qc; simpl; rewrite ?G; auto; cupds; simpl; ceq; simpl; auto; pcs s; simpl; auto; try congruence.
  all: destruct (ctx_eqb_spec z0 a); auto; subst z0; now rewrite Ep.
Qed.

Definition okev (e : event) (l : list event) : Prop :=
  match e with
  | EPick t c => exists r, fifo t l = c :: r
  | EAwake t c => ~ In c (fifo t l) /\ existsb (isfree c) l = false /\ existsb (isleft c) l = false
  | ERun t c => existsb (isdown t) l = false /\ existsb (isfree c) l = false /\ existsb (isleft c) l = false /\ (isw c = true -> existsb (islaunch c) l = true)
  | ELaunch _ _ h c => isw c = true /\ existsb (islaunch c) l = false /\ holds h l = None
  | EStart c => isw c = true /\ existsb (islaunch c) l = true /\ existsb (isstart c) l = false
  | EFin c => isw c = true /\ existsb (isstart c) l = true /\ existsb (isfin c) l = false
  | ELeft c => isw c = true /\ existsb (isfin c) l = true /\ existsb (isleft c) l = false
  | EJoinRet a h (Some c) JOk => holds h l = Some c /\ c <> a /\ existsb (isfin c) l = true /\ pending a l = Some (CJoin h)
  | EJoinRet a h (Some c) JDeadlock => holds h l = Some c /\ c = a /\ pending a l = Some (CJoin h)
  | EJoinRet a h None JInvalid => holds h l = None /\ pending a l = Some (CJoin h)
  | EJoinRet _ _ _ _ => False
  | EDetach a h (Some c) JOk => holds h l = Some c
  | EDetach a h None JInvalid => holds h l = None
  | EDetach _ _ _ _ => False
  | ESleepRet c tp now => tp <= now /\ pending c l = Some (CSleep tp)
  | EWaitRet c tp now r => r = Nat.ltb now tp /\ pending c l = Some (CWait tp)
  | ETimer t c tp now => tp <= now /\ (pending c l = Some (CSleep tp) \/ pending c l = Some (CWait tp))
  | EFree c => existsb (isfree c) l = false /\ (isw c = true -> existsb (isleft c) l = true /\ forall h, holds h l <> Some c)
  | EDown t => existsb (isdown t) l = false /\
      forall c, isw c = true -> existsb (isat c t) l = true -> existsb (isleft c) l = true /\ ((exists h, holds h l = Some c) \/ existsb (isfree c) l = true)
  | _ => True
  end.
Record G12 (s : state) : Prop := { m_11 : G11 s; m_call : g_call s; m_hist : hist okev (log s) }.

Section Hist.
Variables (s s' : state).
Hypothesis (G : G11 s) (GC : g_call s) (T : tr s s').
Let I := l_inv _ G.
Lemma not_gone t : pcc (cx s (act (th s t))) <> PGone -> gone (th s t) = false.
Proof.
  intros H. destruct (gone (th s t)) eqn:E; auto. destruct (gone_disp s I t E) as [X1 X2]. destruct (i_a _ I) as [L A]. destruct (a_fin _ _ _ A t X1) as [X3 _]. simpl in X3. congruence.
Qed.
Lemma down_no t : pcc (cx s (act (th s t))) <> PGone -> existsb (isdown t) (log s) = false.
Proof. intros H. rewrite (g_down _ (l_9 _ G)). now apply not_gone. Qed.
Lemma free_no c : freed (cx s c) = false -> existsb (isfree c) (log s) = false.
Proof. intros H. now rewrite (g_free _ (l_9 _ G)), H. Qed.
Lemma left_no c : hasleft (pcc (cx s c)) = false -> existsb (isleft c) (log s) = false.
Proof. intros H. now rewrite (g_left _ (l_8 _ G)). Qed.
Lemma rq_no t c : In c (rq (th s t)) -> existsb (isfree c) (log s) = false /\ existsb (isleft c) (log s) = false /\ (isw c = true -> existsb (islaunch c) (log s) = true).
Proof.
  intros H. destruct (rq_home s t c I H) as [_ X]. destruct (i_a _ I) as [L A]. pose proof H as H'. apply (a_rq _ _ _ A) in H. destruct H as [H _]. simpl in H. splits.
  - apply free_no. eapply live_in; eauto.
  - apply left_no. pose proof (a_pc _ _ _ A c) as P. unfold pcok in P. simpl in P. destruct (pcc (cx s c)); auto; congruence.
  - intros W. now rewrite (g_launch _ (l_8 _ G)), W, X.
Qed.
End Hist.

Lemma nd_last {A} (l : list A) x : NoDup (l ++ [x]) -> ~ In x l.
Proof. intros H. apply (NoDup_remove l [] x) in H. rewrite app_nil_r in H. apply H. Qed.
Lemma live_act s t : Inv s -> pcc (cx s (act (th s t))) <> PGone -> freed (cx s (act (th s t))) = false.
Proof.
  intros I H. pose proof (kinds s I (act (th s t))) as K. destruct (i_a _ I) as [L A]. destruct (a_act _ _ _ A t) as [HH X]. simpl in X, HH. pose proof (a_home _ _ _ A) as AH. simpl in AH. 
  destruct (act (th s t)) as [u|u|n] eqn:E.
  - rewrite (m_fm _ (i_6 _ I)). destruct (pcc (cx s (Mn u))); simpl; congruence.
  - rewrite (m_fd _ (i_6 _ I)). destruct (pcc (cx s (Mn u))) eqn:Eg; auto. exfalso. assert (D : pcc (cx s (Dp u)) = DGone) by (apply (a_shut _ _ _ A u); auto).
    pose proof (a_pc _ _ _ A (Dp u)) as P. unfold pcok in P. simpl in P. rewrite D in P, X. destruct X as [X|X]; [congruence|discriminate X].
  - apply live; auto. pose proof (a_pc _ _ _ A (Wk n)) as P. unfold pcok in P. simpl in P. destruct (pcc (cx s (Wk n))); simpl in *; auto; destruct X as [X|X]; congruence.
Qed.
Lemma live_susp s c e y : Inv s -> pcc (cx s c) = PSusp e y -> freed (cx s c) = false.
Proof.
  intros I H. pose proof (kinds s I c) as K. rewrite H in K. destruct c as [u|u|n]; simpl in K; try contradiction.
  - rewrite (m_fm _ (i_6 _ I)). now rewrite H.
  - apply live; auto. rewrite H. now left.
Qed.
Lemma cnt_last s c : Inv s -> isw c = true -> pcc (cx s c) <> PNone -> cnt (cx s c) = 1 -> handled s c -> hasleft (pcc (cx s c)) = true.
Proof.
  intros I W N C H. pose proof (r_cnt _ (i_5 _ I) c W N) as R. rewrite C in R. inversion R; subst; [tauto|]. 
  destruct (pcc (cx s c)) eqn:E; auto; try congruence; exfalso; match goal with X : ~ owned s c |- _ => apply X; left; now rewrite E end.
Qed.

Theorem hist_step s s' : G12 s -> G11 s' -> tr s s' -> hist okev (log s').
Proof.
  intros [G GC HH] G' T. pose proof (l_inv _ G) as I.
  assert (ND : forall u, NoDup (fifo u (log s'))) by (intros u; rewrite <- (g_rq _ (l_10 _ G')); destruct (i_a _ (l_inv _ G')) as [L A]; apply (a_nd _ _ _ A u)).
  assert (KA : forall c, kind c (pcc (cx s c))) by apply (kinds s I).
  assert (NG : forall u, pcc (cx s (act (th s u))) <> PGone -> gone (th s u) = false) by (intros u; now apply not_gone).
  assert (LA : forall u, pcc (cx s (act (th s u))) <> PGone -> freed (cx s (act (th s u))) = false) by (intros u; now apply live_act).
  assert (RQ : forall u c, In c (rq (th s u)) -> freed (cx s c) = false /\ hasleft (pcc (cx s c)) = false /\ exists_ (pcc (cx s c)) = true).
  { intros u c H. destruct (rq_home s u c I H) as [_ X]. destruct (i_a _ I) as [L A]. pose proof H as H'. apply (a_rq _ _ _ A) in H. destruct H as [H _]. simpl in H. splits; auto.
    - eapply live_in; eauto.
    - pose proof (a_pc _ _ _ A c) as P. unfold pcok in P. simpl in P. destruct (pcc (cx s c)); auto; congruence. }
  assert (FR : forall c, pcc (cx s c) = PNone -> freed (cx s c) = false) by (intros c H; pose proof (g_nf _ (l_9 _ G) c) as X; rewrite H in X; destruct (freed (cx s c)); auto).
  assert (SL : forall u tp c e r, slp (th s u) = (tp, c, e) :: r -> callof (pcc (cx s c)) = Some (CSleep tp) \/ callof (pcc (cx s c)) = Some (CWait tp)).
  { intros u tp c e r H. assert (X : In (tp, c, e) (slp (th s u))) by (rewrite H; now left). destruct (b_slp _ (i_1 _ I) _ _ _ _ X) as (_ & (y & Y1 & Y2) & _). rewrite Y1. destruct y; simpl in Y2; try discriminate Y2; injection Y2 as ->; auto. }
  assert (CL : forall c, isw c = true -> pcc (cx s c) <> PNone -> cnt (cx s c) = 1 -> handled s c -> hasleft (pcc (cx s c)) = true) by (intros; now apply cnt_last).
  assert (HK : forall h c, hn s h = Some c -> (isw c = true /\ pcc (cx s c) <> PNone) /\ forall h', hn s h' = Some c -> h' = h).
  { intros h c H. destruct (h_wk _ (i_2 _ I) _ _ H) as [[n ->] X]. splits; auto. intros h' H'. exact (h_inj _ (i_2 _ I) _ _ _ H' H). }
  assert (DT : forall h c, hn s h = Some c -> cnt (cx s c) = 1 -> hasleft (pcc (cx s c)) = true /\ forall h0, (if h0 =? h then None else holds h0 (log s)) <> Some c).
  { intros h c H C. destruct (HK h c H) as [[X1 X2] X3]. split; [apply CL; auto; now exists h|]. intros h0. destruct (Nat.eqb_spec h0 h); [discriminate|]. rewrite <- (g_hn _ (l_10 _ G)). auto. }
  assert (DN : forall t, wkr (th s t) = [] -> trm (th s t) = [] -> forall c, isw c = true -> existsb (isat c t) (log s) = true -> existsb (isleft c) (log s) = true /\ ((exists h, holds h (log s) = Some c) \/ existsb (isfree c) (log s) = true)).
  { intros t E1 E2 c W At. destruct (l_at _ G c t At) as [X1 X2]. assert (N1 : lc (pcc (cx s c)) <> 1) by (intros L1; assert (Z : In c (wkr (th s t))) by (apply (k_wkr _ (i_4 _ I)); auto); rewrite E1 in Z; destruct Z).
    assert (HL : hasleft (pcc (cx s c)) = true) by (destruct (pcc (cx s c)); simpl in *; auto; congruence).
    rewrite (g_left _ (l_8 _ G)), HL. split; auto. assert (NN : pcc (cx s c) <> PNone) by (intros E; rewrite E in X2; discriminate X2).
    assert (NO : ~ owned s c) by (intros [O|O]; [auto|rewrite X1, E2 in O; destruct O]). pose proof (r_cnt _ (i_5 _ I) c W NN) as R. inversion R as [Y|Y|Y1 Y2 Y3|Y1 Y2 Y3]; subst; try tauto.
    - destruct Y2 as [h Y2]. left. exists h. now rewrite <- (g_hn _ (l_10 _ G)).
    - right. rewrite (g_free _ (l_9 _ G)). assert (F : freed (cx s c) = true) by (apply (r_fr _ (i_5 _ I) c W NN); auto). rewrite F. destruct c; auto; discriminate W. }
  assert (TM : forall t c r, trm (th s t) = c :: r -> cnt (cx s c) = 1 -> hasleft (pcc (cx s c)) = true /\ forall h0, holds h0 (log s) <> Some c).
  { intros t c r E C. assert (Z : In c (trm (th s t))) by (rewrite E; now left). destruct (k_trm _ (i_4 _ I) _ _ Z) as (W & X1 & X2). split; [destruct (pcc (cx s c)); simpl in *; auto; lia|].
    intros h0. rewrite <- (g_hn _ (l_10 _ G)). intros Hh. assert (NN : pcc (cx s c) <> PNone) by (intros Y; rewrite Y in X2; simpl in X2; lia).
    pose proof (r_cnt _ (i_5 _ I) c W NN) as R. rewrite C in R. inversion R as [Y|Y1 Y2|Y1 Y2|Y]; [apply Y2; now exists h0|apply Y1; right; now rewrite X1]. }
  trd T; try match goal with E : ?c = Wk ?n |- _ => is_var c; subst c end; trd2; 
    try match goal with Pw : pwake _ _ _ _ _ _ _ _ _, Ee : ep (cx s _) = _ |- _ => pose proof (wake_waits _ _ _ _ _ _ _ _ _ (i_a _ I) (i_1 _ I) (i_3 _ I) Pw Ee) as WW end;
    inner; rewrite Ql in *; simpl in *; splits; auto; ceq; simpl; auto; rewrite ?Nat.eqb_refl; 
    rewrite <- ?(g_hn _ (l_10 _ G)), <- ?(g_rq _ (l_10 _ G)), ?GC, ?(g_fin _ (l_8 _ G)), ?(g_left _ (l_8 _ G)), ?(g_start _ (l_8 _ G)), ?(g_launch _ (l_8 _ G)), ?(g_free _ (l_9 _ G)), ?(g_down _ (l_9 _ G)); pcs s; simpl; auto.
  all: try solve [subst; apply NG; congruence | eexists; eauto].
  all: try solve [match goal with E : rq (th _ ?t) = ?c :: _ |- _ => destruct (RQ t c) as (X1 & X2 & X3); [rewrite E; now left|]; rewrite ?X1, ?X2, ?X3, ?andb_true_r; auto end].
  all: try solve [rewrite FR by auto; auto | eapply SL; eauto].
  all: try solve [subst; rewrite LA by congruence; auto].
  all: try solve [match goal with |- context [isw ?x] => specialize (KA x); pcs s; simpl in KA; destruct x; simpl; tauto end].
  all: try solve [specialize (ND t); rewrite Nat.eqb_refl in ND; rewrite (g_rq _ (l_10 _ G)); apply nd_last; exact ND].
  all: try solve [destruct WW as [[? [? WW]]|(_ & ? & [[WW|[WW|[? WW]]]|[? WW]])]; try rewrite (live_susp _ _ _ _ I WW); rewrite ?WW; auto; match goal with E : freed (cx _ _) = false |- _ => rewrite E end; auto].
  - assert (X : ep (cx s a) <> e) by (rewrite Ea; eapply act_ep; eauto; rewrite <- Ea; eauto). apply (l_slp _ G a). unfold woke. rewrite H. apply Nat.eqb_neq in X. now rewrite X.
  - now rewrite H0.
  - now rewrite H0.
  - assert (X : In (tp, g, e) (slp (th s t))) by (rewrite H0; now left). destruct (b_slp _ (i_1 _ I) _ _ _ _ X) as (_ & (y & Y1 & Y2) & _). now rewrite (live_susp _ _ _ _ I Y1).
  - apply (h_ref _ (i_2 _ I) a). now rewrite Ep.
  - apply (h_ref _ (i_2 _ I) a h). now rewrite Ep.
  - apply (l_pass _ G a). unfold passed. now rewrite Ep.
  - destruct (h_ref _ (i_2 _ I) a h c) as (X1 & _ & X2); [now rewrite Ep|]. cupds. match goal with E : freed _ = false |- _ => simpl in E; rewrite E; auto end.
  - destruct (h_ref _ (i_2 _ I) a h c) as (X1 & _ & X2); [now rewrite Ep|]. cupds. intros W. apply DT; auto.
  - apply (h_ref _ (i_2 _ I) a). now rewrite Ep.
  - apply (h_ref _ (i_2 _ I) a h). now rewrite Ep.
  - apply (l_pass _ G a). unfold passed. now rewrite Ep.
  - match goal with E : freed (cx s c) = false |- _ => now rewrite E end.
  - apply DN; auto.
  - intros c W At. destruct (DN t E1 E2 c W At) as [X1 X2]. split; auto. destruct X2 as [X2|X2]; auto. right. now rewrite X2, orb_true_r.
  - match goal with E : freed (cx s _) = false |- _ => now rewrite E end.
  - discriminate.
  - match goal with E : freed (cx s c) = false |- _ => now rewrite E end.
  - intros W. eapply TM; eauto.
  - destruct (i_a _ I) as [L A]. assert (X : In c (tmp (th s t))) by (rewrite Et; now left). apply (a_tmp _ _ _ A) in X. destruct X as [X _]. rewrite (live_in s I L c A); auto.
  - destruct (i_a _ I) as [L A]. assert (X : In c (tmp (th s t))) by (rewrite Et; now left). apply (a_tmp _ _ _ A) in X. destruct X as [X _]. pose proof (a_pc _ _ _ A c) as P. unfold pcok in P. simpl in P, X. destruct (pcc (cx s c)); auto; congruence.
  - apply andb_false_r.
  - specialize (KA (Mn t)). destruct (pcc (cx s (Mn t))); auto; contradiction.
Qed.
Lemma init_G12 : G12 init.
Proof.
  constructor; [constructor|..]; try (intros c; reflexivity).
  - apply Inv_init.
  - constructor; intros c; try reflexivity; destruct c; reflexivity.
  - constructor; intros c; try reflexivity; destruct c; reflexivity.
  - constructor; intros c; reflexivity.
  - apply g_at_init.
  - intros y d H. destruct y; discriminate H.
  - intros y d H. destruct y; discriminate H.
  - intros y d H. destruct y; discriminate H.
  - intros c; destruct c; reflexivity.
  - exact Logic.I.
Qed.
Theorem G12_tr s s' : G12 s -> tr s s' -> G12 s'.
Proof.
  intros G T. destruct G as [G GC HH]. pose proof (Inv_tr _ _ (l_inv _ G) T) as I'. pose proof (G11_step _ _ G I' T) as G'. constructor; auto.
  - apply (g_call_step s); auto. apply G.
  - apply (hist_step s); auto. constructor; auto.
Qed.
Theorem reach_G12 s : reachable step init s ->
  exists s0, reachable step init s0 /\ errs s0 = [] /\ G12 s0 /\ log s0 = log s /\ cx s0 = cx s /\ th s0 = th s /\ hn s0 = hn s /\ clk s0 = clk s /\ (errs s = [] -> s0 = s).
Proof.
  intros R. assert (J : (errs s = [] /\ G12 s) \/ (errs s <> [] /\ exists s0, reachable step init s0 /\ errs s0 = [] /\ G12 s0 /\ log s0 = log s /\ cx s0 = cx s /\ th s0 = th s /\ hn s0 = hn s /\ clk s0 = clk s)).
  { revert s R. apply (reachable_inv2 step).
    - left. split; [reflexivity|apply init_G12].
    - intros s1 l s2 R1 [[E G]|[N _]] St.
      + destruct (step_errs _ _ _ (l_inv _ (m_11 _ G)) St) as [E2|(t & u & k & _ & _ & _ & ->)].
        * left. split; auto. destruct (step_tr _ _ _ St E2) as [_ T]. exact (G12_tr _ _ G T).
        * right. split; [discriminate|]. exists s1. splits; auto.
      + exfalso. apply N. unfold step in St. destruct (errs s1); auto. discriminate St. }
  destruct J as [[E G]|[N (s0 & J1 & J2 & J3 & J4 & J5)]].
  - exists s. splits; auto.
  - exists s0. splits; try tauto.
Qed.
Theorem reach_hist s : reachable step init s -> hist okev (log s).
Proof. intros R. destruct (reach_G12 s R) as (s0 & _ & _ & G & E & _). rewrite <- E. apply G. Qed.
Theorem reach_ok s : reachable step init s -> errs s = [] -> G12 s.
Proof. intros R E. destruct (reach_G12 s R) as (s0 & _ & _ & G & _ & _ & _ & _ & _ & Q). now rewrite <- (Q E). Qed.
Lemma hist_at s l1 e l2 : reachable step init s -> log s = l1 ++ e :: l2 -> okev e l2.
Proof. intros R E. apply (hist_split okev l1 e l2). rewrite <- E. now apply reach_hist. Qed.

(** Tests of events as membership. *)
Lemma ex_in (f : event -> bool) e l : (forall x, f x = true <-> x = e) -> existsb f l = true <-> In e l.
Proof.
  intros H. rewrite existsb_exists. split.
  - intros (x & X & Y). apply H in Y. now subst x.
  - intros X. exists e. split; auto. now apply H.
Qed.
Lemma ex_nin (f : event -> bool) e l : (forall x, f x = true <-> x = e) -> existsb f l = false <-> ~ In e l.
Proof. intros H. rewrite <- (ex_in f e l H). destruct (existsb f l); split; congruence. Qed.
Ltac isx := let x := fresh in intros x; destruct x; simpl; try (split; discriminate); 
  match goal with |- context [ctx_eqb ?a ?b] => destruct (ctx_eqb_spec a b); subst; split; try congruence; discriminate | |- context [Nat.eqb ?a ?b] => destruct (Nat.eqb_spec a b); subst; split; try congruence; discriminate end.
Lemma isfin_i c : forall x, isfin c x = true <-> x = EFin c. Proof. isx. Qed.
Lemma isleft_i c : forall x, isleft c x = true <-> x = ELeft c. Proof. isx. Qed.
Lemma isstart_i c : forall x, isstart c x = true <-> x = EStart c. Proof. isx. Qed.
Lemma isfree_i c : forall x, isfree c x = true <-> x = EFree c. Proof. isx. Qed.
Lemma isdown_i c : forall x, isdown c x = true <-> x = EDown c. Proof. isx. Qed.
Lemma islaunch_i c l : existsb (islaunch c) l = true <-> exists a p h, In (ELaunch a p h c) l.
Proof.
  rewrite existsb_exists. split.
  - intros (x & X & Y). destruct x; simpl in Y; try discriminate Y. destruct (ctx_eqb_spec c c0) as [->|]; [eauto|discriminate Y].
  - intros (a & p & h & X). eexists. split; [exact X|]. simpl. apply ctx_eqb_refl.
Qed.
Lemma isat_i c t l : existsb (isat c t) l = true <-> In (EAwake t c) l \/ In (ERun t c) l.
Proof.
  rewrite existsb_exists. split.
  - intros (x & X & Y). destruct x; simpl in Y; try discriminate Y; apply andb_true_iff in Y; destruct Y as [Y1 Y2]; apply Nat.eqb_eq in Y2; destruct (ctx_eqb_spec c c0) as [->|]; try discriminate Y1; subst; auto.
  - intros [X|X]; eexists; (split; [exact X|]); simpl; rewrite ctx_eqb_refl, Nat.eqb_refl; auto.
Qed.
