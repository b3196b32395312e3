(** Proofs about the scheduler: the theorems about the record and about single steps. *)
From Coq Require Import List Arith Bool Lia.
From Verif Require Import Base Sched SchedSpec SchedFacts SchedFacts2 SchedFacts3 SchedFacts4 SchedFacts5 SchedFacts6 SchedFacts7 SchedFacts8 SchedFacts9 SchedFacts10 SchedFacts11.
Import ListNotations.

(** ** The ready queue *)
Lemma fifo_bound t c k l2 : forall l1, hist okev (l1 ++ l2) -> nth_error (fifo t l2) k = Some c ->
  In (EPick t c) l1 \/ (picks t l1 <= k /\ nth_error (fifo t (l1 ++ l2)) (k - picks t l1) = Some c).
Proof.
  induction l1 as [|e l1 IH]; simpl; intros H N.
  - right. split; [lia|]. now rewrite Nat.sub_0_r.
  - destruct H as [He H]. specialize (IH H N). destruct IH as [IH|[IH1 IH2]]; [auto|].
    destruct e; try (right; split; auto; fail).
    + right. split; auto. simpl. destruct (Nat.eqb_spec t t0); auto. rewrite nth_error_app1; auto. apply nth_error_Some. congruence.
    + simpl in *. destruct (Nat.eqb_spec t t0) as [<-|]; [|right; split; auto]. destruct He as [r He]. rewrite He in *. simpl. destruct (k - picks t l1) as [|m] eqn:Ek.
      * simpl in IH2. injection IH2 as ->. auto.
      * right. split; [lia|]. replace (k - S (picks t l1)) with m by lia. exact IH2.
Qed.

(** ** Places *)
Lemma place s c : Inv s -> exists_ (pcc (cx s c)) = true ->
  running s (home (cx s c)) c \/ ready s (home (cx s c)) c \/ remote s (home (cx s c)) c \/ being_pushed s c \/ waiting s c \/
  pcc (cx s c) = PDead \/ pcc (cx s c) = DGone \/ pcc (cx s c) = PShut2.
Proof.
  intros I X. destruct (i_a _ I) as [L A]. pose proof (a_pc _ _ _ A c) as P. unfold pcok in P. simpl in P.
  assert (LA : L c = LAct -> running s (home (cx s c)) c) by (intros E; exact (a_run _ _ _ A c (or_introl E))).
  assert (LR : L c = LRdy -> ready s (home (cx s c)) c) by (intros E; apply (a_rq _ _ _ A); split; auto).
  assert (LM : L c = LRem -> remote s (home (cx s c)) c) by (intros E; left; apply (a_rrq _ _ _ A); split; auto).
  assert (LT : L c = LTmp -> remote s (home (cx s c)) c) by (intros E; right; apply (a_tmp _ _ _ A); split; auto).
  assert (LF : forall a, L c = LFly a -> being_pushed s c).
  { intros a E. apply (a_fly _ _ _ A) in E. simpl in E. destruct (pcc (cx s a)) eqn:Ea; simpl in E; try discriminate E. injection E as ->. exists a, k. exact Ea. }
  destruct (pcc (cx s c)) eqn:Ep; try discriminate X; try tauto.
  - destruct P as [[_ P]|[_ [P|[a P]]]]; [tauto|tauto|]. apply LF in P. tauto.
  - destruct P as [[P1 P2]|[P1 P2]].
    + right. right. right. right. left. exists e, w. auto.
    + destruct (L c) eqn:El; try congruence; try tauto. specialize (LF _ eq_refl). tauto.
Qed.
Lemma running_one s t u c : Inv s -> running s t c -> running s u c -> t = u.
Proof. unfold running. intros I H1 H2. pose proof (act_home s (i_a _ I) t) as X. pose proof (act_home s (i_a _ I) u) as Y. rewrite H1 in X. rewrite H2 in Y. congruence. Qed.
Lemma pushed_fly s c L : IA (V s) (W s) L -> being_pushed s c -> exists a, L c = LFly a.
Proof. intros A (a & k & H). exists a. apply (a_fly _ _ _ A). simpl. now rewrite H. Qed.
Lemma waiting_no s c L : IA (V s) (W s) L -> waiting s c -> L c = LNo.
Proof. intros A (e & w & H1 & H2). pose proof (a_pc _ _ _ A c) as P. unfold pcok in P. simpl in P. rewrite H1 in P. destruct P as [[_ P]|[P _]]; auto. lia. Qed.
Lemma running_act s c t L : IA (V s) (W s) L -> running s t c -> L c = LAct \/ exists e, pcc (cx s c) = PArmed e.
Proof. intros A H. destruct (a_act _ _ _ A t) as [_ X]. simpl in X. unfold running in H. rewrite H in X. destruct X as [X|X]; auto. right. destruct (pcc (cx s c)); try discriminate X; eauto. Qed.
Lemma armed_place s c e L : IA (V s) (W s) L -> pcc (cx s c) = PArmed e -> L c = LAct \/ L c = LRem \/ exists a, L c = LFly a.
Proof. intros A H. pose proof (a_pc _ _ _ A c) as P. unfold pcok in P. simpl in P. rewrite H in P. tauto. Qed.

(** ** A thread that cannot go on *)
Theorem stuck s t : Inv s -> errs s = [] -> step s (LRun t) = None ->
  let a := act (th s t) in
  pcc (cx s a) = PIdle \/ (a = Mn t /\ pcc (cx s a) = PGone) \/
  (a = Dp t /\ exists o, pcc (cx s a) = DIdle o /\ flg (th s t) = false /\ forall tp, o = Some tp -> clk s < tp) \/
  (exists h c, pcc (cx s a) = PJoin h c /\ interm (pcc (cx s c)) = true /\ home (cx s c) <> t /\ running s (home (cx s c)) c).
Proof.
  intros I E H a. pose proof (kinds s I a) as K. destruct (i_a _ I) as [L A]. pose proof (a_pc _ _ _ A a) as P. destruct (a_act _ _ _ A t) as [HH X]. simpl in X, HH. fold a in X, HH. unfold pcok in P. simpl in P.
  assert (HD : forall u, a = Dp u -> u = t) by (intros u Eu; rewrite Eu in HH; pose proof (a_home _ _ _ A u) as [Z _]; simpl in Z; congruence).
  assert (HM : forall u, a = Mn u -> u = t) by (intros u Eu; rewrite Eu in HH; pose proof (a_home _ _ _ A u) as [_ Z]; simpl in Z; congruence).
  unfold step in H. rewrite E in H. unfold run in H. fold a in H. destruct (pcc (cx s a)) eqn:Ep; simpl in K; simpl in X; try discriminate H; auto.
  - destruct X; congruence.
  - destruct w; discriminate H.
  - destruct (gone _); discriminate H.
  - destruct (gone _); discriminate H.
  - right. right. right. exists h, c. split; auto. destruct (freed (cx s c)); [discriminate H|]. destruct (lkd (cx s c)) eqn:El; [|destruct (term (cx s c)); discriminate H].
    destruct (j_ok _ (i_3 _ I) c) as (X1 & _). apply X1 in El. assert (R : running s (home (cx s c)) c).
    { apply (a_run _ _ _ A c). left. pose proof (a_pc _ _ _ A c) as Q. unfold pcok in Q. simpl in Q. destruct (pcc (cx s c)); try discriminate El; exact Q. }
    splits; auto. intros Eh. unfold running in R. rewrite Eh in R. fold a in R. assert (N : c <> a) by (apply (h_ref _ (i_2 _ I) a h c); now rewrite Ep). congruence.
  - destruct (lkd (cx s a)) eqn:El; [|discriminate H]. destruct (j_ok _ (i_3 _ I) a) as (X1 & _). apply X1 in El. rewrite Ep in El. discriminate El.
  - destruct (wtq (cx s a)) as [|[g e] q]; [discriminate H|]. destruct (freed (cx s g)); discriminate H.
  - destruct X; congruence.
  - right. left. split; auto. destruct a as [u| |] eqn:Ea; try contradiction. f_equal. now apply HM.
  - destruct a as [|u|] eqn:Ea; try contradiction. rewrite (HD u eq_refl) in *. simpl in H. rewrite Nat.eqb_refl in H. unfold dstep in H. rewrite Ep in H. destruct (shut _); discriminate H.
  - destruct a as [|u|] eqn:Ea; try contradiction. rewrite (HD u eq_refl) in *. simpl in H. rewrite Nat.eqb_refl in H. unfold dstep in H. rewrite Ep in H. destruct (trm _); discriminate H.
  - destruct a as [|u|] eqn:Ea; try contradiction. rewrite (HD u eq_refl) in *. simpl in H. rewrite Nat.eqb_refl in H. unfold dstep in H. rewrite Ep in H. discriminate H.
  - destruct a as [|u|] eqn:Ea; try contradiction. rewrite (HD u eq_refl) in *. simpl in H. rewrite Nat.eqb_refl in H. unfold dstep in H. rewrite Ep in H. destruct (tmp _); discriminate H.
  - destruct a as [|u|] eqn:Ea; try contradiction. rewrite (HD u eq_refl) in *. simpl in H. rewrite Nat.eqb_refl in H. unfold dstep in H. rewrite Ep in H. destruct (slp _) as [|[[tp c] e] r]; [discriminate H|]. destruct (Nat.leb tp nw); discriminate H.
  - destruct a as [|u|] eqn:Ea; try contradiction. rewrite (HD u eq_refl) in *. simpl in H. rewrite Nat.eqb_refl in H. unfold dstep in H. rewrite Ep in H. destruct (rq _); discriminate H.
  - destruct a as [|u|] eqn:Ea; try contradiction. rewrite (HD u eq_refl) in *. simpl in H. rewrite Nat.eqb_refl in H. unfold dstep in H. rewrite Ep in H. discriminate H.
  - right. right. left. destruct a as [|u|] eqn:Ea; try contradiction. rewrite (HD u eq_refl) in *. simpl in H. rewrite Nat.eqb_refl in H. unfold dstep in H. rewrite Ep in H.
    split; auto. exists o. split; auto. destruct (flg (th s t)); [discriminate H|]. split; auto. intros tp ->. simpl in H. destruct (Nat.leb_spec tp (clk s)); [discriminate H|lia].
  - destruct a as [|u|] eqn:Ea; try contradiction. rewrite (HD u eq_refl) in *. simpl in H. rewrite Nat.eqb_refl in H. unfold dstep in H. rewrite Ep in H. destruct (trm _); discriminate H.
  - destruct X; congruence.
Qed.

(** ** Delivery of a remote wake-up *)
Lemma run_disp s t : errs s = [] -> act (th s t) = Dp t -> (match pcc (cx s (Dp t)) with DTop | DRel | DSwap | DDrain | DSleep _ | DPick | DIdle _ | DFin | DRes => true | _ => false end) = true -> step s (LRun t) = dstep s t.
Proof.
  intros E A P. unfold step. rewrite E. unfold run. rewrite A. simpl. rewrite Nat.eqb_refl. destruct (pcc (cx s (Dp t))) eqn:Ep; try discriminate P; reflexivity.
Qed.
Lemma step_ok s t s' : Inv s -> errs s = [] -> act (th s t) = Dp t -> (forall u k, pcc (cx s (Dp t)) <> PNote u k) -> step s (LRun t) = Some s' -> errs s' = [] /\ Inv s'.
Proof.
  intros I E A N H. destruct (step_errs _ _ _ I H) as [X|(t0 & u & k & Et & X & _)]; [split; auto; eapply Inv_step; eauto|]. injection Et as <-. rewrite A in X. now apply N in X.
Qed.
Lemma exec_S s l n s1 s' : step s l = Some s1 -> exec step s1 (repeat l n) = Some s' -> exec step s (repeat l (S n)) = Some s'.
Proof. intros H1 H2. simpl. now rewrite H1. Qed.
Lemma deliver_drain g t : forall q s, Inv s -> errs s = [] -> act (th s t) = Dp t -> pcc (cx s (Dp t)) = DDrain -> tmp (th s t) = q -> In g q ->
  exists n s', exec step s (repeat (LRun t) n) = Some s' /\ ready s' t g.
Proof.
  induction q as [|c q IH]; intros s I E A P Q Hg; [destruct Hg|].
  destruct (step s (LRun t)) as [s1|] eqn:St.
  - destruct (step_ok s t s1) as [E1 I1]; auto; [congruence|]. rewrite run_disp in St by (auto; now rewrite P). unfold dstep in St. rewrite P, Q in St. injection St as St.
    assert (St' : step s (LRun t) = Some s1) by (rewrite run_disp by (auto; now rewrite P); unfold dstep; rewrite P, Q; now f_equal).
    assert (Hth : th s1 t = t_rq (t_rem (th s t) (rrq (th s t)) q) (rq (th s t) ++ [c]) (sremove c (slp (th s t)))) by (rewrite <- St; unfold schedule, check; destruct (_ && _); simpl; now rewrite ?upd_same).
    assert (Hcx : cx s1 = cx s) by (rewrite <- St; unfold schedule, check; destruct (_ && _); reflexivity).
    destruct Hg as [->|Hg].
    + exists 1, s1. split; [simpl; now rewrite St'|]. unfold ready. rewrite Hth. simpl. apply in_or_app. right. now left.
    + destruct (IH s1) as (n & s' & X & Y); auto.
      * now rewrite Hth.
      * now rewrite Hcx.
      * now rewrite Hth.
      * exists (S n), s'. split; auto. now apply (exec_S _ _ _ s1).
  - rewrite run_disp in St by (auto; now rewrite P). unfold dstep in St. rewrite P, Q in St. discriminate St.
Qed.
Lemma release_eff s c : th (release s c) = th s /\ clk (release s c) = clk s /\ forall d, d <> c -> cx (release s c) d = cx s d.
Proof.
  unfold release. destruct (freed (cx s c)); [auto|]. destruct (cnt (cx s c)) as [|[|n]]; [auto| |].
  - unfold check. match goal with |- context [if ?b then _ else _] => generalize b end. intros b. destruct b; simpl; splits; auto; intros d N; unfold cupd; now rewrite (ctx_eqb_neq _ _ N).
  - simpl. splits; auto. intros d N. unfold cupd. now rewrite (ctx_eqb_neq _ _ N).
Qed.
Lemma release_front_eff s t c r : th (release_front s t c r) t = t_wk (th s t) (wkr (th s t)) r /\ clk (release_front s t c r) = clk s /\ forall d, d <> c -> cx (release_front s t c r) d = cx s d.
Proof.
  unfold release_front. match goal with |- context [check ?b ?x] => generalize b end. intros b. destruct (release_eff (check b (sett s t (t_wk (th s t) (wkr (th s t)) r))) c) as (X1 & X2 & X3). rewrite X1, X2. splits.
  - destruct b; simpl; apply upd_same.
  - destruct b; reflexivity.
  - intros d N. rewrite (X3 d N). destruct b; reflexivity.
Qed.
Lemma deliver_rel g t : forall q s, Inv s -> errs s = [] -> act (th s t) = Dp t -> pcc (cx s (Dp t)) = DRel -> trm (th s t) = q -> In g (rrq (th s t)) ->
  exists n s', exec step s (repeat (LRun t) n) = Some s' /\ ready s' t g.
Proof.
  induction q as [|c q IH]; intros s I E A P Q Hg; destruct (step s (LRun t)) as [s1|] eqn:St; (assert (St' := St); rewrite run_disp in St by (auto; now rewrite P); unfold dstep in St; rewrite P, Q in St; try discriminate St; injection St as St).
  - destruct (step_ok s t s1) as [E1 I1]; auto; [congruence|]. destruct (step s1 (LRun t)) as [s2|] eqn:St2; (assert (St2' := St2); rewrite run_disp in St2 by (subst s1; auto; simpl; unfold cupd; rewrite ctx_eqb_refl; reflexivity); unfold dstep in St2; rewrite <- St in St2; simpl in St2; unfold cupd in St2; rewrite ?ctx_eqb_refl in St2; simpl in St2; rewrite ?Nat.eqb_refl in St2; simpl in St2; try discriminate St2).
    destruct (step_ok s1 t s2) as [E2 I2]; auto; [subst s1; auto|intros u k; subst s1; simpl; unfold cupd; rewrite ctx_eqb_refl; discriminate|]. injection St2 as St2.
    destruct (deliver_drain g t (rrq (th s t)) s2) as (n & s' & X & Y); auto.
    + rewrite <- St2. simpl. rewrite upd_same. simpl. auto.
    + rewrite <- St2. unfold setpc, setc; simpl; unfold cupd; rewrite ctx_eqb_refl; reflexivity.
    + rewrite <- St2. simpl. rewrite upd_same. reflexivity.
    + exists (S (S n)), s'. split; auto. apply (exec_S _ _ _ s1); auto. now apply (exec_S _ _ _ s2).
  - destruct (step_ok s t s1) as [E1 I1]; auto; [congruence|].
    assert (W : isw c = true) by (apply (k_trm _ (i_4 _ I) t c); rewrite Q; now left).
    assert (Hth : th s1 t = t_wk (th s t) (wkr (th s t)) q /\ pcc (cx s1 (Dp t)) = DRel).
    { rewrite <- St. destruct (release_front_eff s t c q) as (X1 & _ & X3). split; auto. rewrite X3; auto. intros <-. discriminate W. }
    destruct Hth as [Hth Hp]. destruct (IH s1) as (n & s' & X & Y); auto.
    + now rewrite Hth.
    + now rewrite Hth.
    + now rewrite Hth.
    + exists (S n), s'. split; auto. now apply (exec_S _ _ _ s1).
Qed.
Lemma remote_keeps s t g : Inv s -> In g (rrq (th s t)) -> shut (th s t) = true -> wkr (th s t) <> [].
Proof.
  intros I H S E. destruct (i_a _ I) as [L A]. apply (a_rrq _ _ _ A) in H. destruct H as [H Hh]. simpl in H, Hh. pose proof (a_pc _ _ _ A g) as P. unfold pcok in P. simpl in P. pose proof (kinds s I g) as K. destruct g as [u|u|n].
  - pose proof (a_home _ _ _ A u) as [_ Z]. simpl in Z. assert (u = t) by congruence. subst u. apply (a_sh _ _ _ A t) in S. simpl in S. destruct S as [S|[S|S]]; rewrite S in P; first [congruence|destruct P; congruence].
  - destruct (pcc (cx s (Dp u))); simpl in K; try contradiction; try congruence. destruct P; congruence.
  - assert (X : In (Wk n) (wkr (th s t))); [|rewrite E in X; destruct X]. apply (k_wkr _ (i_4 _ I)). splits; auto. destruct (pcc (cx s (Wk n))); auto; congruence.
Qed.
Theorem deliver_idle s t o g : Inv s -> errs s = [] -> pcc (cx s (Dp t)) = DIdle o -> flg (th s t) = true -> In g (rrq (th s t)) ->
  exists n s', exec step s (repeat (LRun t) n) = Some s' /\ ready s' t g.
Proof.
  intros I E P F Hg. assert (A : act (th s t) = Dp t).
  { destruct (i_a _ I) as [L A]. pose proof (a_pc _ _ _ A (Dp t)) as Q. unfold pcok in Q. simpl in Q. rewrite P in Q. pose proof (a_run _ _ _ A (Dp t) (or_introl Q)) as R. simpl in R. pose proof (a_home _ _ _ A t) as [Z _]. simpl in Z. now rewrite Z in R. }
  pose (s1 := setpc (sett s t (t_fl (th s t) (shut (th s t)) false (gone (th s t)))) (Dp t) DTop).
  assert (St : step s (LRun t) = Some s1) by (rewrite run_disp by (auto; now rewrite P); unfold dstep; rewrite P, F; reflexivity).
  destruct (step_ok s t s1) as [E1 I1]; auto; [congruence|].
  assert (T1 : th s1 t = t_fl (th s t) (shut (th s t)) false (gone (th s t))) by (simpl; apply upd_same).
  assert (P1 : pcc (cx s1 (Dp t)) = DTop) by (simpl; unfold cupd; now rewrite ctx_eqb_refl).
  assert (Hg1 : In g (rrq (th s1 t))) by now rewrite T1. assert (A1 : act (th s1 t) = Dp t) by now rewrite T1.
  destruct (step s1 (LRun t)) as [s2|] eqn:St2.
  - destruct (step_ok s1 t s2) as [E2 I2]; auto; [congruence|]. assert (X : act (th s2 t) = Dp t /\ pcc (cx s2 (Dp t)) = DRel /\ rrq (th s2 t) = rrq (th s1 t)).
    { rewrite run_disp in St2 by (auto; now rewrite P1). unfold dstep in St2. rewrite P1 in St2. destruct (shut (th s1 t)) eqn:Sh.
      - pose proof (remote_keeps s1 t g I1 Hg1 Sh) as N. destruct (wkr (th s1 t)); [congruence|]. injection St2 as <-. simpl. rewrite !upd_same. unfold cupd. simpl. rewrite Nat.eqb_refl. auto.
      - injection St2 as <-. simpl. rewrite upd_same. unfold cupd. simpl. rewrite Nat.eqb_refl. auto. }
    destruct X as (X1 & X2 & X3). destruct (deliver_rel g t (trm (th s2 t)) s2) as (n & s' & Y1 & Y2); auto; [now rewrite X3|]. exists (S (S n)), s'. split; auto. apply (exec_S _ _ _ s1); auto. now apply (exec_S _ _ _ s2).
  - rewrite run_disp in St2 by (auto; now rewrite P1). unfold dstep in St2. rewrite P1 in St2. match type of St2 with (if ?b then _ else _) = _ => destruct b end; discriminate St2.
Qed.

(** ** Sleepers whose deadline has passed *)
Lemma sleeping_in s c tp : Inv s -> sleeping s c tp -> In (tp, c, ep (cx s c)) (slp (th s (home (cx s c)))).
Proof. intros I (e & w & H1 & H2 & H3). rewrite H2. apply (b_cv _ (i_1 _ I) c e w tp); auto. destruct H3 as [->| ->]; reflexivity. Qed.
Lemma sleeping_cx s s' c tp : cx s' c = cx s c -> sleeping s c tp -> sleeping s' c tp.
Proof. intros E (e & w & H). exists e, w. now rewrite E. Qed.
Lemma sleeping_waits s c tp : sleeping s c tp -> waiting s c.
Proof. intros (e & w & H1 & H2 & _). exists e, w. auto. Qed.
Lemma disp_act s t : Inv s -> (match pcc (cx s (Dp t)) with DTop | DRel | DSwap | DDrain | DSleep _ | DPick | DIdle _ | DFin => true | _ => false end) = true -> act (th s t) = Dp t.
Proof.
  intros I P. destruct (i_a _ I) as [L A]. pose proof (a_pc _ _ _ A (Dp t)) as Q. unfold pcok in Q. simpl in Q. assert (R : L (Dp t) = LAct) by (destruct (pcc (cx s (Dp t))); try discriminate P; exact Q).
  pose proof (a_run _ _ _ A (Dp t) (or_introl R)) as Z. simpl in Z. pose proof (a_home _ _ _ A t) as [Y _]. simpl in Y. now rewrite Y in Z.
Qed.
Lemma waiting_disp s t c : Inv s -> waiting s c -> c <> Dp t.
Proof. intros I (e & w & H & _) ->. pose proof (kinds s I (Dp t)) as K. rewrite H in K. exact K. Qed.

Lemma filter_len {A} (f : A -> bool) l : length (filter f l) <= length l.
Proof. induction l as [|x l IH]; simpl; [lia|]. destruct (f x); simpl; lia. Qed.
Lemma wake_due t nw c tp : forall n s, length (slp (th s t)) <= n -> Inv s -> errs s = [] -> pcc (cx s (Dp t)) = DSleep nw -> sleeping s c tp -> home (cx s c) = t -> tp <= nw ->
  exists k s', exec step s (repeat (LRun t) k) = Some s' /\ ready s' t c.
Proof.
  induction n as [|n IH]; intros s Hn I E P Hs Hh Ht.
  - pose proof (sleeping_in s c tp I Hs) as X. rewrite Hh in X. destruct (slp (th s t)); [destruct X|simpl in Hn; lia].
  - pose proof (sleeping_in s c tp I Hs) as X. rewrite Hh in X. assert (A : act (th s t) = Dp t) by (apply disp_act; auto; now rewrite P).
    destruct (slp (th s t)) as [|[[tp0 g] e] r] eqn:Er; [destruct X|].
    assert (L0 : tp0 <= nw). { pose proof (b_sort _ (i_1 _ I) t) as So. rewrite Er in So. destruct So as [So _]. destruct X as [X|X]; [injection X as -> _ _; auto|]. specialize (So _ X). simpl in So. lia. }
    destruct (b_slp _ (i_1 _ I) t tp0 g e) as (B1 & (y & B2 & _) & B3); [rewrite Er; now left|].
    assert (Ng : g <> Dp t) by (intros ->; congruence).
    destruct (step s (LRun t)) as [s1|] eqn:St; (assert (St' := St); rewrite run_disp in St by (auto; now rewrite P); unfold dstep in St; rewrite P, Er in St; apply Nat.leb_le in L0; rewrite L0 in St; try discriminate St; injection St as St).
    destruct (step_ok s t s1) as [E1 I1]; auto; [congruence|].
    unfold do_wake in St. rewrite (ctx_eqb_neq _ _ (not_eq_sym Ng)) in St. simpl in St. destruct (Nat.eqb_spec (ep (cx s g)) e) as [Ee|Ee].
    + rewrite B1, Nat.eqb_refl in St. assert (Q : cx s1 c = (if ctx_eqb c g then c_ep (cx s c) (S e) else cx s c) /\ slp (th s1 t) = sremove g r /\ rq (th s1 t) = rq (th s t) ++ [g] /\ pcc (cx s1 (Dp t)) = DSleep nw).
      { pose proof (waiting_disp s t c I (sleeping_waits _ _ _ Hs)) as Nc. rewrite <- St. unfold schedule, check. match goal with |- context [if ?b then _ else adde _ _] => destruct b end; simpl; rewrite !upd_same; simpl; unfold cupd; simpl; rewrite ?Nat.eqb_refl, ?(ctx_eqb_neq _ _ Nc), ?(ctx_eqb_neq _ _ (not_eq_sym Ng)); splits; auto; destruct (ctx_eqb_spec c g) as [->|]; auto. }
      destruct Q as (Q1 & Q2 & Q3 & Q4). destruct (ctx_eqb_spec c g) as [->|N].
      * exists 1, s1. split; [simpl; now rewrite St'|]. unfold ready. rewrite Q3. apply in_or_app. right. now left.
      * destruct (IH s1) as (k & s' & Y1 & Y2); auto.
        -- rewrite Q2. unfold sremove. pose proof (filter_len (fun x => negb (ctx_eqb g (snd (fst x)))) r). simpl in Hn. lia.
        -- now apply (sleeping_cx s).
        -- now rewrite Q1.
        -- exists (S k), s'. split; auto. now apply (exec_S _ _ _ s1).
    + pose proof (waiting_disp s t c I (sleeping_waits _ _ _ Hs)) as Nc. destruct (IH s1) as (k & s' & Y1 & Y2); auto.
      * rewrite <- St. simpl. rewrite upd_same. simpl. simpl in Hn. lia.
      * rewrite <- St. simpl. cupds. reflexivity.
      * apply (sleeping_cx s); auto. rewrite <- St. simpl. cupds. reflexivity.
      * rewrite <- St. simpl. cupds. auto.
      * exists (S k), s'. split; auto. now apply (exec_S _ _ _ s1).
Qed.
Lemma exec_plus s l n m s1 s' : exec step s (repeat l n) = Some s1 -> exec step s1 (repeat l m) = Some s' -> exec step s (repeat l (n + m)) = Some s'.
Proof. intros H1 H2. rewrite repeat_app. apply exec_app. eauto. Qed.

(** The dispatcher goes from the top of its loop to sleep2ready_ without touching a suspended context. *)
Definition keeps (s s' : state) : Prop := clk s' = clk s /\ forall c, waiting s c -> cx s' c = cx s c.
Lemma keeps_refl s : keeps s s.
Proof. split; auto. Qed.
Lemma keeps_trans s1 s2 s3 : keeps s1 s2 -> keeps s2 s3 -> keeps s1 s3.
Proof.
  intros [A1 A2] [B1 B2]. split; [congruence|]. intros c W. rewrite B2, A2; auto. destruct W as (e & w & W). exists e, w. now rewrite A2 by (exists e, w; auto).
Qed.
Lemma walk_drain t : forall q s, Inv s -> errs s = [] -> act (th s t) = Dp t -> pcc (cx s (Dp t)) = DDrain -> tmp (th s t) = q ->
  exists n s', exec step s (repeat (LRun t) n) = Some s' /\ errs s' = [] /\ Inv s' /\ pcc (cx s' (Dp t)) = DSleep (clk s) /\ keeps s s'.
Proof.
  induction q as [|c q IH]; intros s I E A P Q; destruct (step s (LRun t)) as [s1|] eqn:St; (assert (St' := St); rewrite run_disp in St by (auto; now rewrite P); unfold dstep in St; rewrite P, Q in St; try discriminate St; injection St as St); (destruct (step_ok s t s1) as [E1 I1]; auto; [congruence|]).
  - exists 1, s1. splits; auto.
    + simpl. now rewrite St'.
    + rewrite <- St. simpl. cupds. reflexivity.
    + split; [now rewrite <- St|]. intros c W. pose proof (waiting_disp s t c I W). rewrite <- St. simpl. cupds. reflexivity.
  - assert (Hth : th s1 t = t_rq (t_rem (th s t) (rrq (th s t)) q) (rq (th s t) ++ [c]) (sremove c (slp (th s t)))) by (rewrite <- St; unfold schedule, check; destruct (_ && _); simpl; now rewrite ?upd_same).
    assert (Hcx : cx s1 = cx s /\ clk s1 = clk s) by (rewrite <- St; unfold schedule, check; destruct (_ && _); auto). destruct Hcx as [Hcx Hck].
    destruct (IH s1) as (n & s' & X1 & X2 & X3 & X4 & X5); auto; try (now rewrite Hth); [now rewrite Hcx|]. exists (S n), s'. splits; auto.
    + now apply (exec_S _ _ _ s1).
    + now rewrite <- Hck.
    + apply (keeps_trans _ s1); auto. split; auto. intros d _. now rewrite Hcx.
Qed.
Lemma walk_rel t : forall q s, Inv s -> errs s = [] -> act (th s t) = Dp t -> pcc (cx s (Dp t)) = DRel -> trm (th s t) = q ->
  exists n s', exec step s (repeat (LRun t) n) = Some s' /\ errs s' = [] /\ Inv s' /\ pcc (cx s' (Dp t)) = DSleep (clk s) /\ keeps s s'.
Proof.
  induction q as [|c q IH]; intros s I E A P Q; destruct (step s (LRun t)) as [s1|] eqn:St; (assert (St' := St); rewrite run_disp in St by (auto; now rewrite P); unfold dstep in St; rewrite P, Q in St; try discriminate St; injection St as St).
  - destruct (step_ok s t s1) as [E1 I1]; auto; [congruence|]. destruct (step s1 (LRun t)) as [s2|] eqn:St2; (assert (St2' := St2); rewrite run_disp in St2 by (subst s1; auto; simpl; unfold cupd; rewrite ctx_eqb_refl; reflexivity); unfold dstep in St2; rewrite <- St in St2; simpl in St2; unfold cupd in St2; rewrite ?ctx_eqb_refl in St2; simpl in St2; rewrite ?Nat.eqb_refl in St2; simpl in St2; try discriminate St2).
    destruct (step_ok s1 t s2) as [E2 I2]; auto; [subst s1; auto|intros u k; subst s1; simpl; unfold cupd; rewrite ctx_eqb_refl; discriminate|]. injection St2 as St2.
    destruct (walk_drain t (rrq (th s t)) s2) as (n & s' & X1 & X2 & X3 & X4 & X5); auto.
    + rewrite <- St2. simpl. rewrite upd_same. simpl. auto.
    + rewrite <- St2. unfold setpc, setc; simpl; unfold cupd; rewrite ctx_eqb_refl; reflexivity.
    + rewrite <- St2. simpl. rewrite upd_same. reflexivity.
    + exists (S (S n)), s'. splits; auto.
      * apply (exec_S _ _ _ s1); auto. now apply (exec_S _ _ _ s2).
      * rewrite X4. f_equal. now rewrite <- St2.
      * apply (keeps_trans _ s2); auto. split; [now rewrite <- St2|]. intros d W. pose proof (waiting_disp s t d I W) as N. rewrite <- St2. simpl. unfold cupd. rewrite (ctx_eqb_neq _ _ N). reflexivity.
  - destruct (step_ok s t s1) as [E1 I1]; auto; [congruence|].
    assert (W : isw c = true /\ 2 <= lc (pcc (cx s c))) by (destruct (k_trm _ (i_4 _ I) t c) as (? & _ & ?); auto; rewrite Q; now left). destruct W as [W W2].
    assert (Hth : th s1 t = t_wk (th s t) (wkr (th s t)) q /\ pcc (cx s1 (Dp t)) = DRel /\ clk s1 = clk s /\ forall d, d <> c -> cx s1 d = cx s d).
    { rewrite <- St. destruct (release_front_eff s t c q) as (X1 & X2 & X3). splits; auto. rewrite X3; auto. intros <-. discriminate W. }
    destruct Hth as (Hth & Hp & Hk & Hd). destruct (IH s1) as (n & s' & X1 & X2 & X3 & X4 & X5); auto; try (now rewrite Hth).
    exists (S n), s'. splits; auto.
    + now apply (exec_S _ _ _ s1).
    + now rewrite <- Hk.
    + apply (keeps_trans _ s1); auto. split; auto. intros d (e & w & Wd & _). apply Hd. intros ->. rewrite Wd in W2. simpl in W2. lia.
Qed.
Theorem due_idle s t o c tp : Inv s -> errs s = [] -> pcc (cx s (Dp t)) = DIdle o -> sleeping s c tp -> home (cx s c) = t -> tp <= clk s ->
  exists n s', exec step s (repeat (LRun t) n) = Some s' /\ ready s' t c.
Proof.
  intros I E P Hs Hh Ht. assert (A : act (th s t) = Dp t) by (apply disp_act; auto; now rewrite P).
  pose proof (sleeping_in s c tp I Hs) as X. rewrite Hh in X. pose proof (f_o _ (i_7 _ I) t o P) as Fo. pose proof (b_sort _ (i_1 _ I) t) as So.
  assert (Hw : match o with Some q => Nat.leb q (clk s) | None => false end = true).
  { rewrite Fo. destruct (slp (th s t)) as [|[[t0 g] e] r]; [destruct X|]. simpl. apply Nat.leb_le. destruct X as [X|X]; [congruence|]. destruct So as [So _]. specialize (So _ X). simpl in So. lia. }
  pose (s1 := setpc (sett s t (t_fl (th s t) (shut (th s t)) false (gone (th s t)))) (Dp t) DTop).
  assert (St : step s (LRun t) = Some s1) by (rewrite run_disp by (auto; now rewrite P); unfold dstep; rewrite P, Hw, orb_true_r; reflexivity).
  destruct (step_ok s t s1) as [E1 I1]; auto; [congruence|].
  assert (T1 : th s1 t = t_fl (th s t) (shut (th s t)) false (gone (th s t))) by (simpl; apply upd_same).
  assert (P1 : pcc (cx s1 (Dp t)) = DTop) by (simpl; unfold cupd; now rewrite ctx_eqb_refl).
  assert (A1 : act (th s1 t) = Dp t) by now rewrite T1.
  assert (K1 : keeps s s1). { split; auto. intros d W. pose proof (waiting_disp s t d I W). simpl. cupds. reflexivity. }
  destruct (step s1 (LRun t)) as [s2|] eqn:St2.
  - destruct (step_ok s1 t s2) as [E2 I2]; auto; [congruence|].
    assert (Wk0 : shut (th s t) = true -> wkr (th s t) <> []).
    { intros Sh Ew. destruct (i_a _ I) as [L AA]. pose proof (waiting_no s c L AA (sleeping_waits _ _ _ Hs)) as Lc. destruct Hs as (e & w & H1 & H2 & _). pose proof (kinds s I c) as K. rewrite H1 in K. destruct c as [u|u|m]; simpl in K; try contradiction.
      - pose proof (a_home _ _ _ AA u) as [_ Z]. simpl in Z. assert (u = t) by congruence. subst u. apply (a_sh _ _ _ AA t) in Sh. simpl in Sh. rewrite H1 in Sh. destruct Sh as [Sh|[Sh|Sh]]; discriminate Sh.
      - assert (Z : In (Wk m) (wkr (th s t))); [|rewrite Ew in Z; destruct Z]. apply (k_wkr _ (i_4 _ I)). splits; auto. now rewrite H1. }
    assert (Y : act (th s2 t) = Dp t /\ pcc (cx s2 (Dp t)) = DRel /\ keeps s1 s2).
    { assert (Kp : forall s3, clk s3 = clk s1 -> (forall d, d <> Dp t -> cx s3 d = cx s1 d) -> keeps s1 s3) by (intros s3 k1 k2; split; auto; intros d W; apply k2; exact (waiting_disp s1 t d I1 W)).
      rewrite run_disp in St2 by (auto; now rewrite P1). unfold dstep in St2. rewrite P1 in St2. rewrite T1 in St2. simpl in St2. destruct (shut (th s t)) eqn:Sh.
      - specialize (Wk0 eq_refl). destruct (wkr (th s t)); [congruence|]. injection St2 as <-. splits; [simpl; now rewrite !upd_same|unfold setpc, setc; simpl; unfold cupd; simpl; now rewrite Nat.eqb_refl|]. apply Kp; auto. intros d Nd. simpl. unfold cupd. now rewrite !(ctx_eqb_neq _ _ Nd).
      - injection St2 as <-. splits; [simpl; now rewrite !upd_same|unfold setpc, setc; simpl; unfold cupd; simpl; now rewrite Nat.eqb_refl|]. apply Kp; auto. intros d Nd. simpl. unfold cupd. now rewrite !(ctx_eqb_neq _ _ Nd). }
    destruct Y as (Y1 & Y2 & Y3). destruct (walk_rel t (trm (th s2 t)) s2) as (n & s3 & X1 & X2 & X3 & X4 & X5); auto.
    assert (K : keeps s s3) by (apply (keeps_trans _ s1); auto; apply (keeps_trans _ s2); auto). destruct K as [Kc Kx]. specialize (Kx c (sleeping_waits _ _ _ Hs)).
    assert (Ck : clk s2 = clk s) by (destruct Y3 as [Z _]; rewrite Z; reflexivity).
    destruct (wake_due t (clk s2) c tp (length (slp (th s3 t))) s3) as (m & s' & Z1 & Z2); auto.
    + now apply (sleeping_cx s).
    + now rewrite Kx.
    + lia.
    + exists (S (S (n + m))), s'. split; auto. apply (exec_S _ _ _ s1); auto. apply (exec_S _ _ _ s2); auto. now apply (exec_plus _ _ _ _ s3).
  - rewrite run_disp in St2 by (auto; now rewrite P1). unfold dstep in St2. rewrite P1 in St2. match type of St2 with (if ?b then _ else _) = _ => destruct b end; discriminate St2.
Qed.

Lemma tr_timer s s' l1 w y tp0 now : tr s s' -> log s' = l1 ++ ETimer w y tp0 now :: log s ->
  pcc (cx s (act (th s w))) = DSleep now /\ exists e r, slp (th s w) = (tp0, y, e) :: r /\ tp0 <= now.
Proof.
  intros T H. assert (X : log s' = (l1 ++ [ETimer w y tp0 now]) ++ log s) by now rewrite <- app_assoc.
  trd T; try match goal with E : ?c = Wk ?n |- _ => is_var c; subst c end; trd2; inner; rewrite Ql in X; simpl app in X;
    repeat match type of X with
    | ?e1 :: ?e2 :: ?e3 :: ?e4 :: log s = _ => change (([e1; e2; e3; e4] : list event) ++ log s = (l1 ++ [ETimer w y tp0 now]) ++ log s) in X
    | ?e1 :: ?e2 :: ?e3 :: log s = _ => change (([e1; e2; e3] : list event) ++ log s = (l1 ++ [ETimer w y tp0 now]) ++ log s) in X
    | ?e1 :: ?e2 :: log s = _ => change (([e1; e2] : list event) ++ log s = (l1 ++ [ETimer w y tp0 now]) ++ log s) in X
    | ?e1 :: log s = _ => change (([e1] : list event) ++ log s = (l1 ++ [ETimer w y tp0 now]) ++ log s) in X
    | log s = _ => change (([] : list event) ++ log s = (l1 ++ [ETimer w y tp0 now]) ++ log s) in X
    end; apply app_inv_tail in X; apply (f_equal (fun l => last l (EDown 0))) in X; rewrite last_last in X; simpl in X; try discriminate X.
  all: injection X; intros; subst; splits; eauto.
Qed.

(** ** A sleeping dispatcher has nothing to run *)
Lemma tr_idle s s' y w : Inv s -> tr s s' -> pcc (cx s' (Dp y)) = DIdle w -> (pcc (cx s (Dp y)) = DIdle w /\ rq (th s' y) = rq (th s y)) \/ rq (th s' y) = [].
Proof.
  intros I T. assert (DA : pcc (cx s (Dp y)) = DIdle w -> act (th s y) = Dp y) by (intros X; apply disp_act; auto; now rewrite X).
  assert (AH : forall u v, act (th s u) = Dp v -> u = v). { intros u v X. pose proof (act_home s (i_a _ I) u) as Y. rewrite X in Y. destruct (disp_home _ (i_a _ I) v). congruence. }
  trd T; try match goal with E : ?c = Wk ?n |- _ => is_var c; subst c end; trd2; inner; rewrite ?Qc, ?Qt; cupds; simpl; try discriminate; auto; intros HP; tupds; simpl; auto.
  all: try (left; split; [congruence|reflexivity]).
  all: try (exfalso; match goal with H : pcc (cx _ (Dp _)) = DIdle _ |- _ => pose proof (DA H) end; congruence).
  { right. assert (t = y) by (apply AH; congruence). now subst. }
  all: exfalso; assert (X : pcc (cx s (Dp t)) = DIdle w) by congruence; pose proof (DA X); congruence.
Qed.
Theorem idle_empty s : reachable step init s -> errs s = [] -> forall t o, pcc (cx s (Dp t)) = DIdle o -> rq (th s t) = [].
Proof.
  revert s. apply (reachable_inv2 step (fun s => errs s = [] -> forall t o, pcc (cx s (Dp t)) = DIdle o -> rq (th s t) = [])).
  - intros _ t o H. discriminate H.
  - intros s l s' R IH St E t o H. destruct (step_tr _ _ _ St E) as [E0 T]. destruct (tr_idle s s' t o (l_inv _ (m_11 _ (reach_ok s R E0))) T H) as [[X1 X2]|X]; auto. rewrite X2. exact (IH E0 t o X1).
Qed.
