(** Proofs about the scheduler: the whole invariant, and that the only error that can happen is the one in the notification. *)
From Coq Require Import List Arith Bool Lia.
From Verif Require Import Base Sched SchedFacts SchedFacts2 SchedFacts3 SchedFacts4 SchedFacts5 SchedFacts6 SchedFacts7.
Import ListNotations.

Record Inv (s : state) : Prop := {
  i_a : IAs s; i_1 : G1 s; i_2 : G2 s; i_3 : G3 s; i_4 : G4 s; i_5 : G5 s; i_6 : G6 s; i_7 : G7 s
}.
Lemma Inv_tr s s' : Inv s -> tr s s' -> Inv s'.
Proof.
  intros I T. destruct I. constructor.
  - apply (IA_step s s'); auto.
  - apply (G1_step s s'); auto. intros c g e H. apply (j_in _ i_10) in H. destruct H as [h H]. apply jw_some in H. eauto.
  - apply (G2_step s s'); auto.
  - apply (G3_step s s'); auto.
  - apply (G4_step s s'); auto.
  - apply (G5_step s s'); auto.
  - apply (G6_step s s'); auto.
  - apply (G7_step s s'); auto.
Qed.
Lemma Inv_init : Inv init.
Proof.
  constructor.
  - exists (fun c => match c with Mn _ => LAct | Dp _ => LRdy | Wk _ => LNo end). constructor; simpl; intros.
    all: try (destruct c; simpl in *); try (destruct a; simpl in *); try tauto; try congruence; try discriminate; auto.
    all: try (intuition (try congruence; try discriminate); fail).
    all: try (splits; repeat constructor; simpl; tauto).
    all: try (unfold pcok; simpl; auto).
  - constructor; simpl; try tauto; try constructor. intros c e y tp H. destruct c; discriminate H.
  - constructor; simpl; try discriminate; intros g; [intros h c H|intros g' h c c' H _]; destruct g; discriminate H.
  - constructor; simpl.
    + intros c g e. split; [destruct c; simpl; tauto|]. intros [h H]. destruct g; discriminate H.
    + intros c. destruct c; constructor.
    + intros c. destruct c; unfold ok; simpl; intuition discriminate.
  - constructor; simpl; try tauto.
    + intros t c. split; [tauto|]. destruct c; simpl; intuition discriminate.
    + intros c. destruct c; discriminate.
    + intros; split; constructor.
  - constructor; intros c; destruct c; simpl; congruence.
  - constructor; simpl; auto; lia.
  - constructor; simpl; try congruence; discriminate.
Qed.

Theorem Inv_step s l s' : Inv s -> step s l = Some s' -> errs s' = [] -> Inv s'.
Proof. intros I H E. destruct (step_tr _ _ _ H E) as [_ T]. eapply Inv_tr; eauto. Qed.

(** ** Where the error checks hold *)
Section Safe.
Variable s : state.
Hypothesis I : Inv s.

Lemma kinds c : kind c (pcc (cx s c)).
Proof. destruct I as [[L A] _]. exact (a_kind _ _ _ A c). Qed.
Lemma live c : isw c = true -> lc (pcc (cx s c)) = 1 \/ lc (pcc (cx s c)) = 2 -> freed (cx s c) = false.
Proof.
  intros Hw Hl. assert (Hn : pcc (cx s c) <> PNone) by (intros E; rewrite E in Hl; simpl in Hl; lia).
  assert (O : owned s c) by (destruct Hl as [Hl|Hl]; [now left|right; now apply (k_lv _ (i_4 _ I))]).
  pose proof (r_cnt _ (i_5 _ I) c Hw Hn) as C. pose proof (r_fr _ (i_5 _ I) c Hw Hn) as F. destruct (freed (cx s c)); auto. exfalso.
  assert (Z : cnt (cx s c) = 0) by (now apply F). rewrite Z in C. inversion C. tauto.
Qed.
Lemma live_hn h c : hn s h = Some c -> freed (cx s c) = false /\ 1 <= cnt (cx s c) /\ (cnt (cx s c) = 1 -> ~ owned s c) /\ isw c = true.
Proof.
  intros H. destruct (h_wk _ (i_2 _ I) _ _ H) as [[n ->] Hn]. assert (Q : handled s (Wk n)) by (exists h; auto).
  pose proof (r_cnt _ (i_5 _ I) (Wk n) eq_refl Hn) as C. pose proof (r_fr _ (i_5 _ I) (Wk n) eq_refl Hn) as F.
  assert (X : 1 <= cnt (cx s (Wk n))) by (inversion C; auto; tauto). splits; auto.
  - destruct (freed (cx s (Wk n))); auto. exfalso. assert (cnt (cx s (Wk n)) = 0) by (now apply F). lia.
  - intros E. rewrite E in C. inversion C; tauto.
Qed.
Lemma gone_disp t : gone (th s t) = true -> pcc (cx s (Dp t)) = DGone /\ pcc (cx s (Mn t)) = PGone.
Proof.
  intros H. rewrite (m_gone _ (i_6 _ I)) in H. assert (E : pcc (cx s (Mn t)) = PGone) by (destruct (pcc (cx s (Mn t))); try discriminate H; auto).
  destruct I as [[L A] _]. split; auto. apply (a_shut _ _ _ A t). auto.
Qed.
(** A context in one of the queues exists. *)
Lemma live_in L c : IA (V s) (W s) L -> L c = LRdy \/ L c = LRem \/ L c = LTmp \/ (exists a, L c = LFly a) -> freed (cx s c) = false.
Proof.
  intros A H. pose proof (a_pc _ _ _ A c) as P. pose proof (kinds c) as K. unfold pcok in P. simpl in P. destruct c as [t|t|n].
  - rewrite (m_fm _ (i_6 _ I)). destruct (pcc (cx s (Mn t))); simpl in *; auto. exfalso. destruct H as [H|[H|[H|[a H]]]]; congruence.
  - rewrite (m_fd _ (i_6 _ I)). destruct (isgone (pcc (cx s (Mn t)))) eqn:E; auto. exfalso.
    rewrite <- (m_gone _ (i_6 _ I)) in E. apply gone_disp in E. destruct E as [E _]. rewrite E in P. destruct H as [H|[H|[H|[a H]]]]; congruence.
  - apply live; auto. destruct (pcc (cx s (Wk n))); simpl in *; auto; exfalso; destruct H as [H|[H|[H|[a H]]]]; congruence.
Qed.
Lemma rq_live t c : In c (rq (th s t)) -> freed (cx s c) = false.
Proof. destruct (i_a _ I) as [L A]. intros H. apply (live_in L c A). left. now apply (a_rq _ _ _ A t). Qed.
(** The ready queue is not empty when a context other than the dispatcher runs. *)
Lemma disp_ready t : act (th s t) <> Dp t -> pcc (cx s (act (th s t))) <> PShut2 -> pcc (cx s (act (th s t))) <> PGone -> In (Dp t) (rq (th s t)).
Proof.
  destruct (i_a _ I) as [L A]. intros N1 N2 N3. pose proof (a_pc _ _ _ A (Dp t)) as P. pose proof (kinds (Dp t)) as K. pose proof (proj1 (a_home _ _ _ A t)) as Hh. simpl in Hh.
  assert (NA : L (Dp t) <> LAct) by (intros E; pose proof (a_run _ _ _ A (Dp t) (or_introl E)) as R; simpl in R; rewrite Hh in R; auto).
  unfold pcok in P. simpl in P. destruct (pcc (cx s (Dp t))) eqn:E; simpl in K; try tauto; try (destruct k; tauto).
  - destruct P as [P|P]; [tauto|]. apply (a_rq _ _ _ A t). auto.
  - exfalso. destruct (a_fin _ _ _ A t E) as [X Y]. simpl in X, Y. rewrite <- X in Y. tauto.
Qed.
(** The place of a context. *)
Lemma no_link L c : IA (V s) (W s) L -> (L c = LNo \/ L c = LAct \/ exists a, L c = LFly a) -> ready_linked s c = false /\ remote_linked s c = false.
Proof.
  intros A H. unfold ready_linked, remote_linked. split.
  - apply mem_false. intros X. apply (a_rq _ _ _ A) in X. destruct H as [H|[H|[a H]]]; intuition congruence.
  - apply orb_false_iff. split; apply mem_false; intros X; [apply (a_rrq _ _ _ A) in X|apply (a_tmp _ _ _ A) in X]; destruct H as [H|[H|[a H]]]; intuition congruence.
Qed.
Lemma no_term c : lc (pcc (cx s c)) <= 1 -> term_linked s c = false.
Proof. intros H. unfold term_linked. apply mem_false. intros X. apply (k_trm _ (i_4 _ I)) in X. lia. Qed.
Lemma no_sleep c : (forall e y, pcc (cx s c) <> PSusp e y) -> sleep_linked s c = false.
Proof.
  intros H. unfold sleep_linked. destruct (smem c _) eqn:E; auto. exfalso. apply smem_In in E. apply in_map_iff in E. destruct E as ([[tp d] e] & Ed & X). unfold sctx in Ed. simpl in Ed. subst d.
  destruct (b_slp _ (i_1 _ I) _ _ _ _ X) as (_ & (y & Y & _) & _). eapply H; eauto.
Qed.
Lemma act_place t : exists L, IA (V s) (W s) L /\ (L (act (th s t)) = LAct \/ armed (pcc (cx s (act (th s t)))) = true).
Proof. destruct (i_a _ I) as [L A]. exists L. split; auto. apply (a_act _ _ _ A t). Qed.
Lemma act_unlinked t : lc (pcc (cx s (act (th s t)))) <= 1 -> armed (pcc (cx s (act (th s t)))) = false -> (forall e y, pcc (cx s (act (th s t))) <> PSusp e y) -> unlinked s (act (th s t)) = true.
Proof.
  intros H1 H2 H3. destruct (act_place t) as (L & A & [X|X]); [|congruence]. destruct (no_link L _ A (or_intror (or_introl X))) as [E1 E2].
  unfold unlinked. rewrite E1, E2, (no_sleep _ H3), (no_term _ H1). reflexivity.
Qed.
(** A fiber that is left in no queue and not to be released is linked nowhere. *)
Lemma dead_unlinked c : isw c = true -> pcc (cx s c) <> PNone -> ~ owned s c -> pcc (cx s c) = PDead /\ unlinked s c = true /\ wtq (cx s c) = [].
Proof.
  intros Hw Hn O. assert (E : pcc (cx s c) = PDead).
  { pose proof (k_lv _ (i_4 _ I) c) as K. unfold owned in O. destruct (pcc (cx s c)); simpl in *; auto; try congruence; exfalso; apply O; auto. }
  split; auto. split.
  - destruct (i_a _ I) as [L A]. pose proof (a_pc _ _ _ A c) as P. unfold pcok in P. simpl in P. rewrite E in P. destruct (no_link L c A (or_introl P)) as [E1 E2].
    unfold unlinked. rewrite E1, E2, no_sleep by congruence. unfold term_linked. assert (X : mem c (trm (th s (home (cx s c)))) = false) by (apply mem_false; intros X; apply O; now right). rewrite X. reflexivity.
  - apply (j_ok _ (i_3 _ I) c). now rewrite E.
Qed.
Lemma wtq_live c g e : In (g, e) (wtq (cx s c)) -> freed (cx s g) = false.
Proof.
  intros H. apply (j_in _ (i_3 _ I)) in H. destruct H as [h H]. apply jw_some in H. destruct H as [H _]. pose proof (kinds g) as K. rewrite H in K. destruct g as [t|t|n]; simpl in K; try tauto.
  - rewrite (m_fm _ (i_6 _ I)), H. reflexivity.
  - apply live; auto. rewrite H. auto.
Qed.
Lemma gone_empty t : pcc (cx s (Dp t)) = DGone -> pcc (cx s (Mn t)) = PShut2 -> wkr (th s t) = [] /\ trm (th s t) = [] /\ slp (th s t) = [] /\ ready_linked s (Dp t) = false.
Proof.
  intros H HM. assert (W0 : wkr (th s t) = []) by (apply (m_fin _ (i_6 _ I)); rewrite H; simpl; lia). splits; auto.
  - apply (m_dg _ (i_6 _ I)). now rewrite H.
  - destruct (slp (th s t)) as [|[[tp c] e] r] eqn:E; auto. exfalso. destruct (b_slp _ (i_1 _ I) t tp c e) as (X & (y & Y & _) & _); [rewrite E; now left|].
    pose proof (kinds c) as K. rewrite Y in K. destruct c as [u|u|n]; simpl in K; try tauto.
    + destruct (disp_home _ (i_a _ I) u) as [_ Z]. assert (u = t) by congruence. subst. congruence.
    + assert (In (Wk n) (wkr (th s t))) by (apply (k_wkr _ (i_4 _ I)); rewrite Y; auto). rewrite W0 in *. auto.
  - destruct (i_a _ I) as [L A]. pose proof (a_pc _ _ _ A (Dp t)) as P. unfold pcok in P. simpl in P. rewrite H in P. apply (no_link L _ A (or_introl P)).
Qed.
End Safe.

Local Arguments mem : simpl never.
Local Arguments smem : simpl never.
Lemma errs_check b s : b = true -> errs s = [] -> errs (check b s) = [].
Proof. intros -> H. exact H. Qed.
Lemma check_true b s : b = true -> check b s = s.
Proof. now intros ->. Qed.

Lemma errs_switch s t a p : errs s = [] -> rq (th s t) <> [] -> (forall c, In c (rq (th s t)) -> freed (cx s c) = false) -> errs (switch s t a p false) = [].
Proof. intros E N F. unfold switch. destruct (rq (th s t)) as [|c r]; [congruence|]. rewrite F by now left. exact E. Qed.
Lemma errs_switch_rdy s t a p : errs s = [] -> rq (th s t) <> [] -> (forall c, In c (rq (th s t)) -> freed (cx s c) = false) ->
  home (cx s a) = t -> ready_linked s a = false -> remote_linked s a = false -> term_linked s a = false -> errs (switch s t a p true) = [].
Proof.
  intros E N F Hh H1 H2 H3. unfold switch. destruct (rq (th s t)) as [|c r] eqn:Eq; [congruence|]. rewrite F by now left.
  unfold schedule. cbn. apply errs_check; [|exact E]. unfold ready_linked, remote_linked, term_linked in *. rewrite Hh in *. cbn. rewrite cupd_same. cbn. rewrite Hh. tupds. cbn. rewrite ?H3.
  rewrite Eq in H1. unfold mem in H1. simpl in H1. apply orb_false_iff in H1. destruct H1 as [_ H1]. fold (mem a r) in H1. rewrite H1, H2. reflexivity.
Qed.
Lemma errs_schedule s t c x y : errs s = [] -> cx s c = x -> th s (home x) = y -> mem c (rq y) = false -> mem c (rrq y) = false -> mem c (tmp y) = false -> mem c (trm y) = false -> errs (schedule s t c) = [].
Proof. intros E Hx Hy H1 H2 H3 H4. unfold schedule. simpl. apply errs_check; auto. unfold ready_linked, remote_linked, term_linked. now rewrite Hx, Hy, H1, H2, H3, H4. Qed.
Lemma errs_wake s t a g e k : errs s = [] -> (ep (cx s g) = e -> a <> g) ->
  (ep (cx s g) = e -> home (cx s g) = t -> ready_linked s g = false /\ remote_linked s g = false /\ term_linked s g = false) -> errs (do_wake s t a g e k) = [].
Proof.
  intros E H1 H2. unfold do_wake. destruct (Nat.eqb_spec (ep (cx s g)) e) as [Ee|]; [|exact E]. specialize (H1 Ee). destruct (ctx_eqb_spec a g); [congruence|]. simpl.
  destruct (Nat.eqb_spec (home (cx s g)) t) as [Eh|]; [|exact E]. destruct (H2 Ee Eh) as (X1 & X2 & X3). unfold schedule, setpc, setc, set_cx, sett, set_th, logg. simpl. apply errs_check; [|exact E].
  unfold ready_linked, remote_linked, term_linked in *. cbn. rewrite !cupd_same. cbn. rewrite X1, X2, X3. reflexivity.
Qed.
Lemma errs_release s c : errs s = [] -> freed (cx s c) = false -> 1 <= cnt (cx s c) -> (cnt (cx s c) = 1 -> unlinked s c = true /\ wtq (cx s c) = []) -> errs (release s c) = [].
Proof.
  intros E F C H. unfold release. rewrite F. destruct (cnt (cx s c)) as [|[|n]]; [lia| |exact E]. simpl. destruct (H eq_refl) as [U Q]. apply errs_check; [|exact E].
  now rewrite U, Q.
Qed.

Lemma unlinked_ext s s' c : home (cx s' c) = home (cx s c) -> (forall t, rq (th s' t) = rq (th s t) /\ rrq (th s' t) = rrq (th s t) /\ tmp (th s' t) = tmp (th s t) /\ slp (th s' t) = slp (th s t) /\ trm (th s' t) = trm (th s t)) ->
  unlinked s' c = unlinked s c.
Proof.
  intros H1 H2. unfold unlinked, ready_linked, remote_linked, term_linked, sleep_linked. rewrite H1. destruct (H2 (home (cx s c))) as (-> & -> & -> & -> & ->). reflexivity.
Qed.

Section Errs.
Variable s : state.
Hypothesis I : Inv s.
Hypothesis E0 : errs s = [].

Lemma user_not_disp t p : pcc (cx s (act (th s t))) = p -> (forall u, ~ kind (Dp u) p) -> act (th s t) <> Dp t.
Proof. intros H N E. apply (N t). rewrite <- H, E. apply kinds; auto. Qed.

Lemma errs_start t o s' : pcc (cx s (act (th s t))) = PIdle -> start s t (act (th s t)) o = Some s' -> errs s' = [].
Proof.
  intros Ep Hs. remember (act (th s t)) as a eqn:Ea. pose proof (act_home _ (i_a _ I) t) as Hh. rewrite <- Ea in Hh.
  assert (Nd : a <> Dp t) by (rewrite Ea in *; eapply user_not_disp; eauto; simpl; auto).
  assert (U : unlinked s a = true) by (rewrite Ea in *; apply act_unlinked; auto; rewrite Ep; simpl; auto; discriminate).
  assert (UU := U). unfold unlinked in UU. rewrite !andb_true_iff, !negb_true_iff in UU. destruct UU as [[[U1 U2] U3] U4].
  assert (R : rq (th s t) <> []) by (intros E; assert (X : In (Dp t) (rq (th s t))) by (apply disp_ready; rewrite <- ?Ea; auto; rewrite Ep; discriminate); rewrite E in X; exact X).
  assert (F : forall c, In c (rq (th s t)) -> freed (cx s c) = false) by (intros c; now apply rq_live).
  unfold start in Hs. destruct o.
  - destruct (pcc (cx s (Wk n))) eqn:En; try discriminate Hs. destruct (hn s h); try discriminate Hs. destruct (hb s h); try discriminate Hs. inv_some Hs.
    destruct (i_a _ I) as [L A]. pose proof (a_pc _ _ _ A (Wk n)) as P. unfold pcok in P. simpl in P. rewrite En in P.
    assert (X : forall u, ~ In (Wk n) (rq (th s u)) /\ ~ In (Wk n) (rrq (th s u)) /\ ~ In (Wk n) (tmp (th s u)) /\ ~ In (Wk n) (trm (th s u))).
    { intros u. splits; intros X; [apply (a_rq _ _ _ A) in X|apply (a_rrq _ _ _ A) in X|apply (a_tmp _ _ _ A) in X|apply (k_trm _ (i_4 _ I)) in X; rewrite En in X; simpl in X; lia]; destruct X; congruence. }
    destruct (X t) as (X1 & X2 & X3 & X4). apply mem_false in X1, X2, X3, X4. assert (Na : a <> Wk n) by congruence. destruct p.
    + eapply errs_schedule; [exact E0|cbn; apply cupd_same|cbn; apply upd_same|..]; auto.
    + unfold ready_linked, remote_linked, term_linked in *. rewrite Hh in *. apply orb_false_iff in U2. destruct U2.
      eapply errs_schedule; [exact E0|cbn; apply cupd_same|cbn; cupds; rewrite Hh; apply upd_same|..]; cbn; tupds; auto.
  - inv_some Hs. rewrite check_true by auto. apply errs_switch_rdy; auto.
  - inv_some Hs. exact E0.
  - inv_some Hs. rewrite check_true by auto. apply errs_switch; cbn; auto; rewrite ?upd_same; cbn; auto. intros c Hc. cupds; cbn; auto.
  - inv_some Hs. rewrite check_true by auto. apply errs_switch; cbn; auto; rewrite ?upd_same; cbn; auto. intros c Hc. cupds; cbn; auto.
  - destruct (existsb (Nat.eqb e) (iss (cx s g))) eqn:Ee; [|discriminate Hs]. destruct (freed (cx s g)) eqn:Ef; [discriminate Hs|]. simpl in Hs. inv_some Hs. apply in_existsb in Ee.
    destruct (i_a _ I) as [L A]. destruct (a_iss _ _ _ A g e Ee) as [_ Z]. simpl in Z.
    apply errs_wake; auto.
    + intros H ->. specialize (Z (eq_sym H)). rewrite Ep in Z. destruct Z as [Z|[Z|[tp Z]]]; discriminate Z.
    + intros H Hg. specialize (Z (eq_sym H)). pose proof (a_pc _ _ _ A g) as P. unfold pcok in P. simpl in P.
      assert (X : L g = LNo \/ L g = LAct) by (destruct Z as [Z|[Z|[tp Z]]]; rewrite Z in P; destruct P as [[P1 P2]|[P1 P2]]; auto; lia).
      assert (Y : ready_linked s g = false /\ remote_linked s g = false) by (apply (no_link s L); auto; destruct X; auto).
      splits; [apply Y|apply Y|]. apply no_term; auto. destruct Z as [Z|[Z|[tp Z]]]; rewrite Z; simpl; lia.
  - destruct (hb s h); [discriminate Hs|]. inv_some Hs. destruct (hn s h) as [c|]; [destruct (ctx_eqb c a)|]; exact E0.
  - destruct (hb s h); [discriminate Hs|]. inv_some Hs. destruct (hn s h) as [c|] eqn:Eh; [|exact E0]. destruct (live_hn s I h c Eh) as (F1 & F2 & F3 & F4).
    apply errs_release; auto. simpl. intros C. destruct (dead_unlinked s I c) as (Y1 & Y2 & Y3); auto. apply (h_wk _ (i_2 _ I) _ _ Eh).
  - destruct (hb s h1 || hb s h2 || Nat.eqb h1 h2); [discriminate Hs|]. destruct (hn s h2); [discriminate Hs|]. inv_some Hs. exact E0.
  - destruct a; try discriminate Hs. inv_some Hs. exact E0.
  - destruct a; try discriminate Hs. inv_some Hs. exact E0.
Qed.

(** release_terminated_ *)
Lemma errs_front t c r : act (th s t) = Dp t -> trm (th s t) = c :: r -> errs (release_front s t c r) = [].
Proof.
  intros Ea Et. assert (Hc : In c (trm (th s t))) by (rewrite Et; now left). destruct (k_trm _ (i_4 _ I) t c Hc) as (X1 & X2 & X3). destruct (k_nd _ (i_4 _ I) t) as [_ ND]. rewrite Et in ND. inversion ND as [|y l Nr NDr Ey]; subst y l.
  assert (Hn : pcc (cx s c) <> PNone) by (intros E; rewrite E in X3; simpl in X3; lia).
  assert (Ed : pcc (cx s c) = PDead).
  { destruct (i_a _ I) as [L A]. pose proof (a_pc _ _ _ A c) as P. unfold pcok in P. simpl in P. destruct (pcc (cx s c)) eqn:E; simpl in X3; try lia; auto.
    exfalso. pose proof (a_run _ _ _ A c (or_introl P)) as R. simpl in R. rewrite X2, Ea in R. subst c. discriminate X1. }
  destruct (j_ok _ (i_3 _ I) c) as (K1 & K2 & K3). rewrite Ed in K2, K3. simpl in K2, K3.
  assert (Tc : term (cx s c) = true) by (apply K2; auto). assert (Wc : wtq (cx s c) = []) by auto.
  assert (LC : ready_linked s c = false /\ remote_linked s c = false).
  { destruct (i_a _ I) as [L A]. pose proof (a_pc _ _ _ A c) as P. unfold pcok in P. simpl in P. rewrite Ed in P. apply (no_link s L); auto. }
  assert (SC : sleep_linked s c = false) by (apply no_sleep; auto; congruence). destruct LC as [L1 L2].
  unfold release_front. set (s1 := sett s t (t_wk (th s t) (wkr (th s t)) r)).
  assert (U : unlinked s1 c = true).
  { unfold unlinked, ready_linked, remote_linked, sleep_linked, term_linked in *. unfold s1. cbn. rewrite X2 in *. rewrite upd_same. cbn. rewrite L1, L2, SC. apply mem_false in Nr. now rewrite Nr. }
  assert (WL : worker_linked s1 c = false).
  { unfold worker_linked. unfold s1. cbn. rewrite X2, upd_same. cbn. apply mem_false. intros X. apply (k_wkr _ (i_4 _ I)) in X. lia. }
  rewrite WL, U, Tc, Wc. simpl. assert (O : owned s c) by (right; now rewrite X2).
  pose proof (r_cnt _ (i_5 _ I) c X1 Hn) as C. pose proof (r_fr _ (i_5 _ I) c X1 Hn) as F.
  apply errs_release; auto; change (cx s1 c) with (cx s c).
  - destruct (freed (cx s c)); auto. assert (Z : cnt (cx s c) = 0) by (now apply F). rewrite Z in C. inversion C. tauto.
  - inversion C; auto; tauto.
Qed.

Lemma errs_dstep t s' : act (th s t) = Dp t -> dstep s t = Some s' -> errs s' = [].
Proof.
  intros Ea Hs. unfold dstep in Hs. destruct (pcc (cx s (Dp t))) eqn:Ep; try discriminate Hs.
  - destruct (shut (th s t)); inv_some Hs; exact E0.
  - destruct (trm (th s t)) eqn:Et; inv_some Hs; [exact E0|]. now apply errs_front.
  - inv_some Hs. exact E0.
  - destruct (tmp (th s t)) as [|c r] eqn:Et; inv_some Hs; [exact E0|]. destruct (i_a _ I) as [L A].
    assert (Hc : In c (tmp (th s t))) by (rewrite Et; now left). apply (a_tmp _ _ _ A) in Hc. destruct Hc as [Lc Hc]. simpl in Hc. destruct (a_nd _ _ _ A t) as (_ & _ & ND). simpl in ND. rewrite Et in ND. inversion ND as [|y l Nr NDr Ey]; subst y l.
    assert (X : lc (pcc (cx s c)) <= 1). { pose proof (a_pc _ _ _ A c) as P. unfold pcok in P. simpl in P. rewrite Lc in P. destruct (pcc (cx s c)); simpl; auto; discriminate P. }
    eapply errs_schedule; [exact E0|reflexivity|cbn; rewrite Hc; apply upd_same|..]; cbn; apply mem_false.
    + intros Y. apply (a_rq _ _ _ A) in Y. destruct Y; congruence.
    + intros Y. apply (a_rrq _ _ _ A) in Y. destruct Y; congruence.
    + exact Nr.
    + intros Y. apply (k_trm _ (i_4 _ I)) in Y. lia.
  - destruct (slp (th s t)) as [|[[tp c] e] r] eqn:Es; [inv_some Hs; exact E0|]. destruct (Nat.leb tp nw); inv_some Hs; [|exact E0].
    destruct (b_slp _ (i_1 _ I) t tp c e) as (X1 & (y & X2 & _) & X3); [rewrite Es; now left|]. apply errs_wake; [exact E0| |]; simpl.
    + intros _ E. pose proof (kinds s I c) as K. rewrite X2, <- E in K. exact K.
    + intros Ee _. destruct (i_a _ I) as [L A]. pose proof (a_pc _ _ _ A c) as P. unfold pcok in P. simpl in P. rewrite X2 in P. destruct P as [[_ P]|[P _]]; [|lia].
      destruct (no_link s L c A (or_introl P)) as [Y1 Y2]. assert (Y3 : term_linked s c = false) by (apply no_term; auto; rewrite X2; simpl; lia).
      unfold ready_linked, remote_linked, term_linked in *. cbn. rewrite X1 in *. rewrite !upd_same. cbn. auto.
  - destruct (rq (th s t)) eqn:Er; inv_some Hs; [exact E0|]. destruct (i_a _ I) as [L A]. pose proof (a_pc _ _ _ A (Dp t)) as P. unfold pcok in P. simpl in P. rewrite Ep in P.
    destruct (no_link s L (Dp t) A (or_intror (or_introl P))) as [Y1 Y2]. apply errs_switch_rdy; auto; try (rewrite Er; discriminate).
    + intros d Hd. eapply rq_live; eauto.
    + apply (proj1 (disp_home _ (i_a _ I) t)).
    + apply no_term; auto. rewrite Ep. simpl. lia.
  - inv_some Hs. exact E0.
  - match type of Hs with (if ?b then _ else _) = _ => destruct b end; [|discriminate Hs]. inv_some Hs. exact E0.
  - destruct (trm (th s t)) eqn:Et; inv_some Hs; [exact E0|]. now apply errs_front.
Qed.

Lemma errs_run t s' : run s t (act (th s t)) = Some s' ->
  errs s' = [] \/ exists u k, pcc (cx s (act (th s t))) = PNote u k /\ gone (th s u) = true /\ s' = adde s (EGone u).
Proof.
  intros Hs. remember (act (th s t)) as a eqn:Ea. pose proof (act_home _ (i_a _ I) t) as Hh. rewrite <- Ea in Hh.
  assert (DS : (if ctx_eqb a (Dp t) then dstep s t else None) = Some s' -> errs s' = []) by (destruct (ctx_eqb_spec a (Dp t)) as [Z|]; [|discriminate]; apply errs_dstep; congruence).
  assert (R : pcc (cx s a) <> PShut2 -> pcc (cx s a) <> PGone -> a <> Dp t -> rq (th s t) <> []).
  { intros N1 N2 N3 E. assert (X : In (Dp t) (rq (th s t))) by (apply disp_ready; rewrite <- ?Ea; auto). rewrite E in X; exact X. }
  assert (F : forall c, In c (rq (th s t)) -> freed (cx s c) = false) by (intros c; now apply rq_live).
  assert (K : kind a (pcc (cx s a))) by now apply kinds.
  unfold run in Hs. destruct (pcc (cx s a)) eqn:Ep; try (left; apply DS; exact Hs); try (left; inv_some Hs; exact E0).
  - (* PArmed *) left. inv_some Hs. apply errs_switch; auto. apply R; try discriminate. intros ->. exact K.
  - (* PSusp *) left. destruct w; inv_some Hs; try exact E0. apply errs_check; [|exact E0]. apply negb_true_iff. destruct (existsb _ _) eqn:X; auto. exfalso.
    apply existsb_exists in X. destruct X as ([g e'] & X1 & X2). simpl in X2. apply andb_true_iff in X2. destruct X2 as [X2 X3]. apply Nat.eqb_eq in X3. subst e'. destruct (ctx_eqb_spec g a) as [->|]; [|discriminate X2].
    apply (j_in _ (i_3 _ I)) in X1. destruct X1 as [h' X1]. rewrite Ea, jw_act in X1; [discriminate X1|apply I].
  - (* PPush *) left. destruct (i_a _ I) as [L A]. pose proof (proj1 (a_fly _ _ _ A a g)) as X. simpl in X. rewrite Ep in X. specialize (X eq_refl).
    assert (Y : lc (pcc (cx s g)) = 1 /\ isgone (pcc (cx s g)) = false /\ (forall u, g <> Dp u)).
    { pose proof (a_pc _ _ _ A g) as P. unfold pcok in P. simpl in P. rewrite X in P. pose proof (kinds s I g) as Kg. destruct (pcc (cx s g)); simpl in *; try discriminate P; try (destruct P as [P|P]; discriminate P); splits; auto; intros u0 ->; exact Kg. }
    destruct Y as (Y1 & Y2 & Y3). destruct (no_link s L g A) as [L1 L2]; [eauto|]. destruct (gone (th s (home (cx s g)))) eqn:Eg.
    + exfalso. destruct (gone_disp s I _ Eg) as [Z1 Z2]. destruct g as [u|u|n]; [|exact (Y3 u eq_refl)|].
      * destruct (disp_home _ (i_a _ I) u) as [_ Q]. rewrite Q in Z2. rewrite Z2 in Y2. discriminate Y2.
      * assert (Q : wkr (th s (home (cx s (Wk n)))) = []) by (apply (m_fin _ (i_6 _ I)); rewrite Z1; simpl; lia).
        assert (In (Wk n) (wkr (th s (home (cx s (Wk n)))))) by (apply (k_wkr _ (i_4 _ I)); auto). rewrite Q in *. auto.
    + inv_some Hs. rewrite L1, L2, (no_term s I g) by lia. assert (Z : match g with Dp _ => false | _ => true end = true) by (destruct g; auto; exfalso; eapply Y3; eauto). rewrite Z. simpl. destruct (shut _); exact E0.
  - (* PNote *) destruct (gone (th s u)) eqn:Eg; inv_some Hs; [right; exists u, k; auto|left; exact E0].
  - (* PJoin *) left. destruct (h_ref _ (i_2 _ I) a h c) as (X1 & X2 & X3); [now rewrite Ep|]. destruct (live_hn s I h c X1) as (Y1 & _). rewrite Y1 in Hs. destruct (lkd (cx s c)); [discriminate Hs|].
    destruct (term (cx s c)); inv_some Hs; [exact E0|]. apply errs_switch; auto.
    + apply R; try discriminate. intros ->. exact K.
    + intros d Hd. specialize (F d Hd). cbn. cupds; auto.
  - (* PRel *) left. inv_some Hs. destruct (h_ref _ (i_2 _ I) a h c) as (X1 & X2 & X3); [now rewrite Ep|]. destruct (live_hn s I h c X1) as (Y1 & Y2 & Y3 & Y4).
    apply errs_release; cbn; try (rewrite (cupd_other _ _ _ _ X3)); auto. intros C. destruct (dead_unlinked s I c) as (Z1 & Z2 & Z3); auto; [apply (h_wk _ (i_2 _ I) _ _ X1)|].
    split; auto. rewrite <- Z2. apply unlinked_ext; cbn; [now rewrite cupd_other|auto].
  - (* PExit *) left. destruct (lkd (cx s a)); [discriminate Hs|]. inv_some Hs. exact E0.
  - (* PTerm *) left. destruct (wtq (cx s a)) as [|[g e] q] eqn:Ew.
    + inv_some Hs. apply errs_check; [|exact E0]. apply andb_true_iff. split; [rewrite Ea in *; apply act_unlinked; auto; rewrite Ep; simpl; auto; discriminate|].
      unfold worker_linked. apply mem_In. apply (k_wkr _ (i_4 _ I)). rewrite Ep. splits; auto. destruct a; simpl in K; auto; contradiction.
    + assert (Hg : In (g, e) (wtq (cx s a))) by (rewrite Ew; now left). rewrite (wtq_live s I _ _ _ Hg) in Hs. inv_some Hs.
      apply (j_in _ (i_3 _ I)) in Hg. destruct Hg as [h Hg]. apply jw_some in Hg. destruct Hg as [X1 X2]. assert (N : g <> a) by congruence. apply errs_wake; auto. intros _ Hg.
      cbn in Hg. cupds. destruct (i_a _ I) as [L A]. pose proof (a_pc _ _ _ A g) as P. unfold pcok in P. simpl in P. rewrite X1 in P. destruct P as [[_ P]|[P _]]; [|lia].
      destruct (no_link s L g A (or_introl P)) as [Y1 Y2]. assert (Y3 : term_linked s g = false) by (apply no_term; auto; rewrite X1; simpl; lia).
      unfold ready_linked, remote_linked, term_linked in *. cbn. cupds. auto.
  - (* PLeave *) left. inv_some Hs. apply errs_switch; auto. apply R; try discriminate. intros ->. exact K.
  - (* PShut *) left. inv_some Hs. apply errs_switch; auto. apply R; try discriminate. intros ->. exact K.
  - (* PShut2 *) left. inv_some Hs. destruct a as [u|u|n]; try contradiction. destruct (disp_home _ (i_a _ I) u) as [_ Hu]. assert (u = t) by congruence. subst u.
    assert (Ed : pcc (cx s (Dp t)) = DGone) by (destruct (i_a _ I) as [L A]; apply (a_shut _ _ _ A t); left; auto).
    destruct (gone_empty s I t Ed Ep) as (W1 & W2 & W3 & W4). rewrite W1, W2, W3, W4. cbn. 
    assert (Fd : freed (cx s (Dp t)) = false) by (rewrite (m_fd _ (i_6 _ I)), Ep; auto). assert (Cd : cnt (cx s (Dp t)) = 1) by (apply (m_cd _ (i_6 _ I)); now rewrite Ep).
    apply errs_release; cbn; auto; [lia|]. intros _. split.
    + destruct (i_a _ I) as [L A]. pose proof (a_pc _ _ _ A (Dp t)) as P. unfold pcok in P. simpl in P. rewrite Ed in P. destruct (no_link s L (Dp t) A (or_introl P)) as [Y1 Y2].
      rewrite (unlinked_ext s); auto.
      * unfold unlinked. rewrite Y1, Y2, no_sleep, no_term; auto; rewrite Ed; simpl; auto; discriminate.
      * intros w. cbn. tupds; auto.
    + destruct (wtq (cx s (Dp t))) as [|[g e] q] eqn:Ew; auto. exfalso. destruct (proj1 (j_in _ (i_3 _ I) (Dp t) g e)) as [h X]; [rewrite Ew; now left|].
      apply jw_some in X. destruct X as [X _]. destruct (h_ref _ (i_2 _ I) g h (Dp t)) as (Y & _); [now rewrite X|]. destruct (h_wk _ (i_2 _ I) _ _ Y) as [[n Z] _]. discriminate Z.
Qed.
End Errs.

Theorem step_errs s l s' : Inv s -> step s l = Some s' ->
  errs s' = [] \/ exists t u k, l = LRun t /\ pcc (cx s (act (th s t))) = PNote u k /\ gone (th s u) = true /\ s' = adde s (EGone u).
Proof.
  intros I Hs. unfold step in Hs. destruct (errs s) eqn:E0; [|discriminate Hs]. destruct l as [t o|t|d].
  - left. destruct (pcc (cx s (act (th s t)))) eqn:Ep; try discriminate Hs. eapply errs_start; eauto.
  - destruct (errs_run s I E0 t s' Hs) as [H|(u & k & H1 & H2 & H3)]; auto. right. exists t, u, k. auto.
  - inv_some Hs. auto.
Qed.

(** The reachable states *)
Theorem reach_inv s : reachable step init s -> errs s = [] \/ exists u, errs s = [EGone u].
Proof.
  intros R. assert (X : Inv s /\ errs s = [] \/ exists u, errs s = [EGone u]); [|destruct X as [[_ X]|X]; auto].
  revert s R. apply reachable_inv.
  - left. split; [apply Inv_init|reflexivity].
  - intros s l s' [[I E]|[u E]] H.
    + destruct (step_errs _ _ _ I H) as [E'|(t & u & k & _ & _ & _ & ->)]; [|right; exists u; simpl; now rewrite E]. left. split; auto. eapply Inv_step; eauto.
    + unfold step in H. rewrite E in H. discriminate H.
Qed.
Theorem reach_Inv s : reachable step init s -> errs s = [] -> Inv s.
Proof.
  intros R. assert (X : Inv s \/ errs s <> []); [|tauto]. revert s R. apply reachable_inv.
  - left. apply Inv_init.
  - intros s l s' [I|E] H.
    + destruct (step_errs _ _ _ I H) as [E'|(t & u & k & _ & _ & _ & ->)]; [left; eapply Inv_step; eauto|right; discriminate].
    + unfold step in H. destruct (errs s); [tauto|discriminate H].
Qed.
(** A state with an error has the log of a state without error. *)
Theorem reach_log s : reachable step init s -> exists s0, reachable step init s0 /\ errs s0 = [] /\ Inv s0 /\ log s0 = log s.
Proof.
  intros R. revert s R. apply reachable_inv2.
  - exists init. splits; auto; [exists []; reflexivity|apply Inv_init].
  - intros s l s' R (s0 & R0 & E & I & EL) H. destruct (errs s) eqn:Es; [|unfold step in H; rewrite Es in H; discriminate H].
    pose proof (reach_Inv s R Es) as Is. destruct (step_errs _ _ _ Is H) as [E'|(t & u & k & _ & _ & _ & ->)].
    + exists s'. split; [apply (reachable_step _ _ s l); auto|]. splits; auto. exact (Inv_step _ _ _ Is H E').
    + exists s. auto.
Qed.
