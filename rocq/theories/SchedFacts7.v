(** Proofs about the scheduler: shutdown and the flag of round_robin. *)
From Coq Require Import List Arith Bool Lia.
From Verif Require Import Base Sched SchedFacts SchedFacts2 SchedFacts3 SchedFacts4 SchedFacts5 SchedFacts6.
Import ListNotations.

Definition isgone (p : pc) : bool := match p with PGone => true | _ => false end.
Definition dfp (p : pc) : nat := match p with DFin => 1 | DGone => 2 | _ => 0 end.

Record G6 (s : state) : Prop := {
  m_gone : forall t, gone (th s t) = isgone (pcc (cx s (Mn t)));
  m_fm : forall t, freed (cx s (Mn t)) = isgone (pcc (cx s (Mn t)));
  m_fd : forall t, freed (cx s (Dp t)) = isgone (pcc (cx s (Mn t)));
  m_cd : forall t, isgone (pcc (cx s (Mn t))) = false -> cnt (cx s (Dp t)) = 1;
  m_fin : forall t, 1 <= dfp (pcc (cx s (Dp t))) -> wkr (th s t) = [];
  m_dg : forall t, dfp (pcc (cx s (Dp t))) = 2 -> trm (th s t) = []
}.
Lemma G6_frame s s' : G6 s -> (forall t, gone (th s' t) = gone (th s t)) -> (forall c, isw c = false -> freed (cx s' c) = freed (cx s c) /\ cnt (cx s' c) = cnt (cx s c)) ->
  (forall t, isgone (pcc (cx s' (Mn t))) = isgone (pcc (cx s (Mn t)))) -> (forall t, dfp (pcc (cx s' (Dp t))) = dfp (pcc (cx s (Dp t)))) ->
  (forall t, 1 <= dfp (pcc (cx s (Dp t))) -> wkr (th s' t) = wkr (th s t)) -> (forall t, dfp (pcc (cx s (Dp t))) = 2 -> trm (th s' t) = trm (th s t)) -> G6 s'.
Proof.
  intros G H1 H2 H3 H4 H5 H6. constructor; intros t.
  - rewrite H1, H3. apply G.
  - destruct (H2 (Mn t) eq_refl) as [-> _]. rewrite H3. apply G.
  - destruct (H2 (Dp t) eq_refl) as [-> _]. rewrite H3. apply G.
  - destruct (H2 (Dp t) eq_refl) as [_ ->]. rewrite H3. apply G.
  - rewrite H4. intros X. rewrite H5 by auto. now apply G.
  - rewrite H4. intros X. rewrite H6 by auto. now apply G.
Qed.
(** While the dispatcher is about to leave, no user code of the thread runs. *)
Lemma act_dfp s t : IAs s -> 1 <= dfp (pcc (cx s (Dp t))) ->
  (act (th s t) = Dp t /\ pcc (cx s (Dp t)) = DFin) \/ (act (th s t) = Mn t /\ (pcc (cx s (Mn t)) = PShut2 \/ pcc (cx s (Mn t)) = PGone) /\ pcc (cx s (Dp t)) = DGone).
Proof.
  intros [L I] H. destruct (pcc (cx s (Dp t))) eqn:E; simpl in H; try lia.
  - left. split; auto. pose proof (a_pc _ _ _ I (Dp t)) as P. unfold pcok in P. simpl in P. rewrite E in P. pose proof (a_run _ _ _ I (Dp t) (or_introl P)) as R. simpl in R. pose proof (proj1 (a_home _ _ _ I t)) as Q. simpl in Q. now rewrite Q in R.
  - right. destruct (a_fin _ _ _ I t E) as [X Y]. auto.
Qed.
Lemma act_user s t a : IAs s -> a = act (th s t) -> a <> Dp t -> pcc (cx s a) <> PShut2 -> pcc (cx s a) <> PGone -> dfp (pcc (cx s (Dp t))) = 0.
Proof.
  intros I Ea N1 N2 N3. destruct (dfp (pcc (cx s (Dp t)))) eqn:E; auto. exfalso. destruct (act_dfp s t I) as [[X _]|(X & Y & _)]; [lia|congruence|]. rewrite <- X, <- Ea in Y. intuition.
Qed.
Lemma pmove_dfp s t a p ev : pmove s t a p ev -> isgone p = isgone (pcc (cx s a)) /\ dfp p = dfp (pcc (cx s a)).
Proof. intros H. destruct H; rewrite H; auto. Qed.
Lemma pout_dfp s t a x rdy sl ev : pout s t a x rdy sl ev -> isgone (pcc x) = isgone (pcc (cx s a)) /\ dfp (pcc x) = dfp (pcc (cx s a)).
Proof. intros H. destruct H; rewrite H; auto. Qed.

Ltac one6 := repeat match goal with E : Mn _ = _ |- _ => rewrite E in * | E : Dp _ = _ |- _ => rewrite E in * end.
Ltac fr6 G Qc Qt := apply (G6_frame _ _ G); auto; intros; rewrite ?Qc, ?Qt in *; cupds; tupds; simpl in *; auto; one6; try congruence; try discriminate; try lia.

Theorem G6_step s s' : IAs s -> G2 s -> G4 s -> G5 s -> G6 s -> tr s s' -> G6 s'.
Proof.
  intros I H2 H4 H5 G T. assert (KA : forall c, kind c (pcc (cx s c))) by (destruct I as [L I0]; intros c; apply (a_kind _ _ _ I0 c)). trd T.
  - fr6 G Qc Qt.
  - fr6 G Qc Qt.
  - destruct (pmove_dfp _ _ _ _ _ M). fr6 G Qc Qt.
  - assert (D0 : dfp (pcc (cx s (Dp t))) = 0) by (apply (act_user s t a); auto; try congruence; intros E; specialize (KA a); rewrite Ep, E in KA; exact KA).
    rewrite Ec in *. fr6 G Qc Qt. 
  - assert (D0 : dfp (pcc (cx s (Dp t))) = 0) by (apply (act_user s t a); auto; try congruence; intros E; specialize (KA a); rewrite Ep, E in KA; exact KA).
    rewrite Ec in *. fr6 G Qc Qt; now rewrite Ep.
  - destruct (pout_dfp _ _ _ _ _ _ _ Po). destruct (pout_lc _ _ _ _ _ _ _ Po) as (X1 & X2 & X3 & X4). fr6 G Qc Qt; destruct rdy; auto.
  - fr6 G Qc Qt; now rewrite Ep.
  - destruct (pwake_keep _ _ _ _ _ _ _ _ _ Pw) as (K1 & K2 & K3 & K4 & K5). destruct (pwake_cnt _ _ _ _ _ _ _ _ _ Pw). fr6 G Qc Qt.
  - destruct (pwake_keep _ _ _ _ _ _ _ _ _ Pw) as (K1 & K2 & K3 & K4 & K5). destruct (pwake_cnt _ _ _ _ _ _ _ _ _ Pw). fr6 G Qc Qt.
  - destruct (pwake_keep _ _ _ _ _ _ _ _ _ Pw) as (K1 & K2 & K3 & K4 & K5). destruct (pwake_cnt _ _ _ _ _ _ _ _ _ Pw). fr6 G Qc Qt; rewrite K5; now destruct k.
  - fr6 G Qc Qt; now rewrite Ep.
  - fr6 G Qc Qt; rewrite Ep; now destruct k.
  - fr6 G Qc Qt; now rewrite Ep.
  - destruct (h_ref _ H2 a h c) as (R1 & R2 & R3); [now rewrite Ep|]. cupds. fr6 G Qc Qt; now rewrite Ep.
  - destruct (h_ref _ H2 a h c) as (R1 & R2 & R3); [now rewrite Ep|]. destruct (h_wk _ H2 _ _ R1) as [[m ->] R4].
    destruct (prel_keep _ _ _ _ _ Pz) as (K1 & K2 & K3 & K4 & K5 & K6 & K7). cupds. fr6 G Qc Qt; now rewrite Ep.
  - destruct (h_wk _ H2 _ _ Eh) as [[m ->] R4].
    destruct (prel_keep _ _ _ _ _ Pz) as (K1 & K2 & K3 & K4 & K5 & K6 & K7). fr6 G Qc Qt.
  - fr6 G Qc Qt.
  - fr6 G Qc Qt; now rewrite Ep.
  - fr6 G Qc Qt; now rewrite Ep.
  - assert (D0 : dfp (pcc (cx s (Dp t))) = 0) by (apply (act_user s t a); auto; try congruence; intros E; specialize (KA a); rewrite Ep, E in KA; exact KA).
    fr6 G Qc Qt; now rewrite Ep.
  - (* down *) destruct (prel_keep _ _ _ _ _ Pz) as (K1 & K2 & K3 & K4 & K5 & K6 & K7). destruct (prel_cnt _ _ _ _ _ Pz) as (C1 & C2 & C3).
    assert (Am : a = Mn t).
    { pose proof (KA a) as Ka. rewrite Ep in Ka. destruct a as [u| |]; try contradiction. pose proof (act_home _ I t) as Ha. rewrite <- Ea in Ha. destruct (disp_home _ I u) as [_ X]. congruence. }
    rewrite Am in *. clear a Am. rewrite (cupd_other _ (Dp t) z (Mn t)) in Qc by congruence.
    pose proof (m_cd _ G t) as Cd. rewrite Ep in Cd. specialize (Cd eq_refl). assert (Cz : cnt z = 0) by lia. apply C2 in Cz.
    assert (X : forall u, u <> t -> cx s' (Mn u) = cx s (Mn u) /\ cx s' (Dp u) = cx s (Dp u) /\ th s' u = th s u).
    { intros u N. rewrite !Qc, !Qt. tupds. rewrite !cupd_other by congruence. auto. }
    assert (Xm : pcc (cx s' (Mn t)) = PGone /\ freed (cx s' (Mn t)) = true) by (rewrite !Qc; cupds; auto).
    assert (Xd : pcc (cx s' (Dp t)) = pcc (cx s (Dp t)) /\ freed (cx s' (Dp t)) = true) by (rewrite !Qc, cupd_other, cupd_same by congruence; auto).
    assert (Xt : gone (th s' t) = true /\ wkr (th s' t) = [] /\ trm (th s' t) = []) by (rewrite !Qt; tupds; auto).
    destruct Xm as [Xm1 Xm2], Xd as [Xd1 Xd2], Xt as (Xt1 & Xt2 & Xt3).
    constructor; intros u; (destruct (Nat.eq_dec u t) as [->|N]; [rewrite ?Xm1, ?Xm2, ?Xd1, ?Xd2, ?Xt1, ?Xt2, ?Xt3; auto; discriminate|destruct (X _ N) as (Y1 & Y2 & Y3); rewrite ?Y1, ?Y2, ?Y3; apply G]).
  - (* top *) constructor; intros u; rewrite ?Qc, ?Qt; cupds; tupds; simpl; auto; try apply G; try congruence.
    + injection e as ->. apply G.
    + injection e as ->. apply G.
    + destruct (wkr (th s t)); auto. simpl. lia.
    + destruct (wkr (th s t)); discriminate.
  - destruct (k_trm _ H4 t c) as (Y1 & Y2 & Y3); [rewrite Et; now left|].
    destruct (prel_keep _ _ _ _ _ Pz) as (K1 & K2 & K3 & K4 & K5 & K6 & K7). destruct c as [| |m]; try discriminate Y1. fr6 G Qc Qt.
    destruct Ep as [Ep|Ep]; rewrite Ep in *; discriminate.
  - fr6 G Qc Qt; now rewrite Ep.
  - fr6 G Qc Qt.
  - fr6 G Qc Qt; now rewrite Ep.
  - (* end *) constructor; intros u; rewrite ?Qc, ?Qt; cupds; tupds; simpl; auto; try apply G; try congruence.
    + injection e as ->. apply G.
    + injection e as ->. apply G.
    + intros _. apply (m_fin _ G). rewrite Ep. simpl. lia.
Qed.

(** ** The flag of round_robin *)
(** After the remote-ready queue was emptied. *)
Definition idle (p : pc) : bool := match p with DDrain | DSleep _ | DPick | DIdle _ => true | _ => false end.
Definition below (p : pc) : bool := match p with DRel | DSwap | DDrain | DSleep _ | DPick | DIdle _ => true | _ => false end.
Definition headtp (l : list (nat * ctx * nat)) : option nat := match l with [] => None | (tp, _, _) :: _ => Some tp end.

Record G7 (s : state) : Prop := {
  f_rr : forall t, rrq (th s t) <> [] -> idle (pcc (cx s (Dp t))) = true -> flg (th s t) = true \/ exists a k, pcc (cx s a) = PNote t k;
  f_o : forall t o, pcc (cx s (Dp t)) = DIdle o -> o = headtp (slp (th s t));
  f_sh : forall t, shut (th s t) = true -> below (pcc (cx s (Dp t))) = true -> flg (th s t) = true
}.
Lemma below_act s t : IAs s -> below (pcc (cx s (Dp t))) = true -> act (th s t) = Dp t.
Proof.
  intros [L I] H. pose proof (a_pc _ _ _ I (Dp t)) as P. unfold pcok in P. simpl in P. 
  assert (X : L (Dp t) = LAct) by (destruct (pcc (cx s (Dp t))); simpl in H; try discriminate H; exact P).
  pose proof (a_run _ _ _ I (Dp t) (or_introl X)) as R. simpl in R. pose proof (proj1 (a_home _ _ _ I t)) as Q. simpl in Q. now rewrite Q in R.
Qed.
Lemma idle_below p : idle p = true -> below p = true.
Proof. destruct p; simpl; auto; discriminate. Qed.
Lemma G7_frame s s' t : G7 s ->
  (forall u, u <> t -> pcc (cx s' (Dp u)) = pcc (cx s (Dp u)) /\ slp (th s' u) = slp (th s u) /\ shut (th s' u) = shut (th s u)) ->
  (forall u, u <> t -> flg (th s u) = true -> flg (th s' u) = true) ->
  (forall u, u <> t -> rrq (th s' u) <> [] -> rrq (th s u) <> [] \/ exists a k, pcc (cx s' a) = PNote u k) ->
  (forall u a k, pcc (cx s a) = PNote u k -> flg (th s' u) = true \/ exists a k, pcc (cx s' a) = PNote u k) ->
  (idle (pcc (cx s' (Dp t))) = false \/ rrq (th s' t) = [] \/ (idle (pcc (cx s (Dp t))) = true /\ rrq (th s' t) = rrq (th s t) /\ (flg (th s t) = true -> flg (th s' t) = true))) ->
  (below (pcc (cx s' (Dp t))) = false \/ flg (th s' t) = true \/ shut (th s' t) = false \/
   (below (pcc (cx s (Dp t))) = true /\ shut (th s' t) = shut (th s t) /\ (flg (th s t) = true -> flg (th s' t) = true))) ->
  (forall o, pcc (cx s' (Dp t)) = DIdle o -> o = headtp (slp (th s' t))) -> G7 s'.
Proof.
  intros G H1 H2 H3 H4 H5 H6 H7. constructor; intros u; (destruct (Nat.eq_dec u t) as [->|N]; [|destruct (H1 _ N) as (E1 & E2 & E3)]).
  - intros Hr Hi. destruct H5 as [Y|[Y|(Y1 & Y2 & Y3)]]; [congruence|congruence|]. rewrite Y2 in Hr. destruct (f_rr _ G _ Hr Y1) as [Z|(a & k & Z)]; eauto.
  - intros Hr Hi. rewrite E1 in Hi. destruct (H3 _ N Hr) as [Y|Y]; auto. destruct (f_rr _ G _ Y Hi) as [Z|(a & k & Z)]; eauto.
  - apply H7.
  - intros o. rewrite E1, E2. apply G.
  - intros Hs Hb. destruct H6 as [Y|[Y|[Y|(Y1 & Y2 & Y3)]]]; try congruence. apply Y3. apply (f_sh _ G); congruence.
  - rewrite E1, E3. intros. apply H2; auto. apply (f_sh _ G); auto.
Qed.
(** Steps of a context that is not a dispatcher. *)
Lemma G7_user s s' t a : IAs s -> G7 s -> a = act (th s t) -> (forall u, a <> Dp u) ->
  (forall u, pcc (cx s' (Dp u)) = pcc (cx s (Dp u))) ->
  (forall u, u <> t -> slp (th s' u) = slp (th s u) /\ shut (th s' u) = shut (th s u) /\ (flg (th s u) = true -> flg (th s' u) = true)) ->
  (forall u, u <> t -> rrq (th s' u) <> [] -> rrq (th s u) <> [] \/ exists a k, pcc (cx s' a) = PNote u k) ->
  (forall u c k, pcc (cx s c) = PNote u k -> flg (th s' u) = true \/ exists b k, pcc (cx s' b) = PNote u k) -> G7 s'.
Proof.
  intros I G Ea Na H1 H2 H3 H4. assert (B : below (pcc (cx s (Dp t))) = false).
  { destruct (below (pcc (cx s (Dp t)))) eqn:E; auto. apply below_act in E; auto. exfalso. apply (Na t). congruence. }
  apply (G7_frame s s' t); auto.
  - intros u N. destruct (H2 u N) as (X1 & X2 & X3). auto.
  - intros u N. now apply H2.
  - left. rewrite H1. destruct (idle _) eqn:E; auto. apply idle_below in E. congruence.
  - left. now rewrite H1.
  - intros o. rewrite H1. intros E. rewrite E in B. discriminate B.
Qed.
Lemma pmove_note s t a p ev u k : pmove s t a p ev -> pcc (cx s a) <> PNote u k /\ p <> PNote u k.
Proof. intros H. destruct H; rewrite H; split; discriminate. Qed.
Lemma pout_note s t a x rdy sl ev u k : pout s t a x rdy sl ev -> pcc (cx s a) <> PNote u k /\ pcc x <> PNote u k.
Proof. intros H. destruct H; rewrite H; split; discriminate. Qed.
(** No pc is [PNote] that was not, other than by a push: all others are kept. *)
Lemma note_kept s s' a : (forall c, c <> a -> pcc (cx s' c) = pcc (cx s c)) -> (forall u k, pcc (cx s a) <> PNote u k) ->
  forall u c k, pcc (cx s c) = PNote u k -> flg (th s' u) = true \/ exists b k, pcc (cx s' b) = PNote u k.
Proof. intros H N u c k E. right. exists c, k. rewrite H; auto. intros ->. eapply N; eauto. Qed.

Ltac frU I G Ea Qc Qt := eapply (G7_user _ _ _ _ I G Ea); [|intros; rewrite ?Qc; cupds; simpl; auto; try congruence|intros; rewrite ?Qt; tupds; simpl; auto; try congruence
   |intros; rewrite ?Qt in *; tupds; simpl in *; auto; try congruence|].
Ltac frD G Qc Qt t := apply (G7_frame _ _ t G); [intros; rewrite ?Qc, ?Qt; cupds; tupds; simpl; auto; try congruence|intros; rewrite ?Qt in *; tupds; simpl in *; auto; try congruence
   |intros; rewrite ?Qt in *; tupds; simpl in *; auto; try congruence| | | |].

Theorem G7_step s s' : IAs s -> G1 s -> G2 s -> G3 s -> G7 s -> tr s s' -> G7 s'.
Proof.
  intros I B H2 H3 G T. assert (KA : forall c, kind c (pcc (cx s c))) by (destruct I as [L I0]; intros c; apply (a_kind _ _ _ I0 c)).
  assert (KN : forall c p, pcc (cx s c) = p -> (forall u, ~ kind (Dp u) p) -> forall u, c <> Dp u) by (intros c p E H u ->; apply (H u); rewrite <- E; apply KA).
  assert (AD : forall t u, act (th s t) = Dp u -> u = t) by (intros t u E; pose proof (act_home _ I t) as X; rewrite E in X; destruct (disp_home _ I u); congruence).
  assert (WG : forall t a g e k x sl ev u, pwake s t a g e k x sl ev -> ep (cx s g) = e -> g <> Dp u).
  { intros t a g e k x sl ev u Pw Ee ->. pose proof (KA (Dp u)) as K. destruct (wake_waits _ _ _ _ _ _ _ _ _ I B H3 Pw Ee) as [[_ [h X]]|(_ & _ & [X|[tp X]])]; [| destruct X as [X|[X|[tp X]]] |]; rewrite X in K; exact K. }
  trd T.
  - constructor; intros u; rewrite ?Qt, ?Qc; try apply G. intros X Y. destruct (f_rr _ G u X Y) as [Z|(a & k & Z)]; auto. right. exists a, k. now rewrite Qc.
  - constructor; intros u; rewrite ?Qt, ?Qc; try apply G. intros X Y. destruct (f_rr _ G u X Y) as [Z|(b & k & Z)]; auto. right. exists b, k. now rewrite Qc.
  - (* pc *) assert (X : forall c, c <> a -> pcc (cx s' c) = pcc (cx s c)) by (intros c N; rewrite Qc; cupds; auto).
    assert (NK : forall u c k, pcc (cx s c) = PNote u k -> flg (th s' u) = true \/ exists b k, pcc (cx s' b) = PNote u k) by (apply (note_kept _ _ a X); intros u k; exact (proj1 (pmove_note _ _ _ _ _ u k M))).
    destruct (ctx_dec a (Dp t)) as [Ed|Nd].
    + apply (G7_frame s s' t G); auto.
      * intros u N. rewrite Qc, Qt. cupds; auto. exfalso. congruence.
      * intros u N. now rewrite Qt.
      * intros u N. rewrite Qt. auto.
      * rewrite Qc, Qt, Ed. cupds. simpl. rewrite Ed in M. inversion M; subst; auto; rewrite H in *; simpl; auto.
      * rewrite Qc, Qt, Ed. cupds. simpl. rewrite Ed in M. inversion M; subst; auto; rewrite H in *; simpl; auto 7.
      * intros o. rewrite Qc, Qt, Ed. cupds. simpl. rewrite Ed in M. intros E. unfold headtp. inversion M; try congruence.
    + assert (Nu : forall u, a <> Dp u) by (intros u E; rewrite Ea in E; pose proof (AD _ _ E); congruence).
      apply (G7_user s s' t a I G Ea Nu); auto; intros; rewrite ?Qt in *; auto.
  - (* post *) subst c. frU I G Ea Qc Qt.
    + apply (KN _ _ Ep). simpl. auto.
    + apply (note_kept s s' (Wk n)); [|intros; congruence]. intros c N. rewrite Qc. cupds. auto.
  - subst c. frU I G Ea Qc Qt.
    + apply (KN _ _ Ep). simpl. auto.
    + exfalso. eapply (KN _ _ Ep); simpl; eauto.
    + intros u c k E. right. exists c, k. rewrite Qc. cupds; simpl; congruence.
  - (* out *) assert (X : forall c, c <> a -> pcc (cx s' c) = pcc (cx s c)) by (intros d N; rewrite Qc; cupds; auto).
    assert (NK : forall u c k, pcc (cx s c) = PNote u k -> flg (th s' u) = true \/ exists b k, pcc (cx s' b) = PNote u k) by (apply (note_kept _ _ a X); intros u k; exact (proj1 (pout_note _ _ _ _ _ _ _ u k Po))).
    destruct (ctx_dec a (Dp t)) as [Ed|Nd].
    + assert (Px : pcc x = DRes).
      { pose proof (KA a) as Ka. rewrite Ed in *. destruct Po as [E1 E2|E1|tp e E1 E2 E3|tp e E1 E2 E3|e E1|E1|E1]; rewrite E1 in Ka; simpl in Ka; try contradiction; auto. }
      apply (G7_frame s s' t G); auto.
      * intros u N. rewrite Qc, Qt. tupds. cupds; auto. exfalso. congruence.
      * intros u N. rewrite Qt. tupds. auto.
      * intros u N. rewrite Qt. tupds. auto.
      * rewrite Qc, Ed. cupds. rewrite Px. auto.
      * rewrite Qc, Ed. cupds. rewrite Px. auto.
      * intros o. rewrite Qc, Ed. cupds. rewrite Px. discriminate.
    + assert (Nu : forall u, a <> Dp u) by (intros u E; rewrite Ea in E; pose proof (AD _ _ E); congruence).
      apply (G7_user s s' t a I G Ea Nu); auto; intros; rewrite ?Qt in *; tupds; auto.
  - frU I G Ea Qc Qt.
    + apply (KN _ _ Ep). simpl. auto.
    + exfalso. eapply (KN _ _ Ep); simpl; eauto.
    + apply (note_kept s s' a); [|intros; congruence]. intros c N. rewrite Qc. cupds. auto.
  - (* missed *) destruct (pwake_keep _ _ _ _ _ _ _ _ _ Pw) as (K1 & K2 & K3 & K4 & K5).
    assert (X : forall c, pcc (cx s' c) = pcc (cx s c)) by (intros d; rewrite Qc; cupds; auto).
    assert (NK : forall u c k, pcc (cx s c) = PNote u k -> flg (th s' u) = true \/ exists b k, pcc (cx s' b) = PNote u k) by (intros u c k' E; right; exists c, k'; now rewrite X).
    destruct (ctx_dec a (Dp t)) as [Ed|Nd].
    + assert (Px : exists nw, pcc (cx s (Dp t)) = DSleep nw).
      { pose proof (KA a) as Ka. rewrite Ed in *. destruct Pw as [E1 E2 E3|q E1 E2 E3|nw tp r E1 E2 E3]; eauto; rewrite E1 in Ka; simpl in Ka; contradiction. }
      destruct Px as [nw Px]. apply (G7_frame s s' t G); auto; intros; rewrite ?X, ?Qt in *; tupds; auto; rewrite ?Px; simpl; auto 7. congruence.
    + assert (Nu : forall u, a <> Dp u) by (intros u E; rewrite Ea in E; pose proof (AD _ _ E); congruence).
      eapply (G7_user s s' t a); eauto; intros; rewrite ?Qt in *; tupds; auto.
  - (* woken here *) destruct (pwake_keep _ _ _ _ _ _ _ _ _ Pw) as (K1 & K2 & K3 & K4 & K5).
    assert (X : forall c, pcc (cx s' c) = pcc (cx s c)) by (intros d; rewrite Qc; cupds; auto).
    assert (NK : forall u c k, pcc (cx s c) = PNote u k -> flg (th s' u) = true \/ exists b k, pcc (cx s' b) = PNote u k) by (intros u c k' E; right; exists c, k'; now rewrite X).
    destruct (ctx_dec a (Dp t)) as [Ed|Nd].
    + assert (Px : exists nw, pcc (cx s (Dp t)) = DSleep nw).
      { pose proof (KA a) as Ka. rewrite Ed in *. destruct Pw as [E1 E2 E3|q E1 E2 E3|nw tp r E1 E2 E3]; eauto; rewrite E1 in Ka; simpl in Ka; contradiction. }
      destruct Px as [nw Px]. apply (G7_frame s s' t G); auto; intros; rewrite ?X, ?Qt in *; tupds; auto; rewrite ?Px; simpl; auto 7. congruence.
    + assert (Nu : forall u, a <> Dp u) by (intros u E; rewrite Ea in E; pose proof (AD _ _ E); congruence).
      eapply (G7_user s s' t a); eauto; intros; rewrite ?Qt in *; tupds; auto.
  - (* woken there *) destruct (pwake_keep _ _ _ _ _ _ _ _ _ Pw) as (K1 & K2 & K3 & K4 & K5).
    assert (Nu : forall u, a <> Dp u).
    { intros u E. pose proof (KA a) as Ka. rewrite E in Ka. destruct Pw as [E1 E2 E3|q E1 E2 E3|nw tp r E1 E2 E3]; rewrite <- E in Ka; rewrite E1 in Ka; try (rewrite E in Ka; exact Ka).
      destruct (b_slp _ B t tp g e) as (Y1 & _); [rewrite E2; now left|]. congruence. }
    assert (X : forall c, c <> a -> pcc (cx s' c) = pcc (cx s c)) by (intros d N; rewrite Qc; cupds; auto).
    assert (NK : forall u c k, pcc (cx s c) = PNote u k -> flg (th s' u) = true \/ exists b k, pcc (cx s' b) = PNote u k) by (apply (note_kept _ _ a X); intros u0 k1 E; rewrite K5 in E; destruct k; discriminate E).
    apply (G7_user s s' t a I G Ea Nu); auto; intros; rewrite ?Qt in *; tupds; auto.
  - (* push *) assert (X : forall c, c <> a -> pcc (cx s' c) = pcc (cx s c)) by (intros d N; rewrite Qc; cupds; auto).
    assert (Xa : pcc (cx s' a) = PNote u k) by (rewrite Qc; cupds; auto).
    assert (Nu : forall w, a <> Dp w) by (intros w E; specialize (KA a); rewrite Ep, E in KA; destruct k; exact KA).
    eapply (G7_user s s' t a); eauto.
    + intros w N. rewrite Qt. tupds; auto.
    + intros w N. rewrite Qt. tupds; auto. intros _. right. eauto.
    + apply (note_kept s s' a); auto. intros; congruence.
  - (* note *) assert (X : forall c, c <> a -> pcc (cx s' c) = pcc (cx s c)) by (intros d N; rewrite Qc; cupds; auto).
    assert (Nu : forall w, a <> Dp w) by (intros w E; specialize (KA a); rewrite Ep, E in KA; destruct k; exact KA).
    eapply (G7_user s s' t a); eauto.
    + intros w N. rewrite Qt. tupds; auto.
    + intros w N. rewrite Qt. tupds; auto.
    + intros w c k' E. destruct (Nat.eq_dec w u) as [->|N]; [left; rewrite Qt; now tupds|]. right. exists c, k'. rewrite X; auto. intros ->. rewrite E in Ep. injection Ep as -> _. congruence.
  - frU I G Ea Qc Qt.
    + apply (KN _ _ Ep). simpl. auto.
    + exfalso. eapply (KN _ _ Ep); simpl; eauto.
    + apply (note_kept s s' a); [|intros; congruence]. intros d N. rewrite Qc. cupds. auto.
  - assert (X : forall w, w <> a -> pcc (cx s' w) = pcc (cx s w)) by (intros w N; rewrite Qc; cupds; auto).
    assert (Nu : forall w, a <> Dp w) by (apply (KN _ _ Ep); simpl; auto).
    assert (NK : forall u c k, pcc (cx s c) = PNote u k -> flg (th s' u) = true \/ exists b k, pcc (cx s' b) = PNote u k) by (apply (note_kept _ _ a X); intros; congruence).
    apply (G7_user s s' t a I G Ea Nu); auto; intros; rewrite ?Qt in *; tupds; auto.
  - destruct (prel_keep _ _ _ _ _ Pz) as (K1 & K2 & K3 & K4 & K5 & K6 & K7).
    assert (X : forall d, d <> a -> pcc (cx s' d) = pcc (cx s d)) by (intros d N; rewrite Qc; cupds; auto; rewrite K1; cupds; auto).
    assert (Nu : forall w, a <> Dp w) by (apply (KN _ _ Ep); simpl; auto).
    assert (NK : forall u c k, pcc (cx s c) = PNote u k -> flg (th s' u) = true \/ exists b k, pcc (cx s' b) = PNote u k) by (apply (note_kept _ _ a X); intros; congruence).
    apply (G7_user s s' t a I G Ea Nu); auto; intros; rewrite ?Qt in *; auto.
  - destruct (prel_keep _ _ _ _ _ Pz) as (K1 & K2 & K3 & K4 & K5 & K6 & K7).
    assert (X : forall d, pcc (cx s' d) = pcc (cx s d)) by (intros d; rewrite Qc; cupds; auto).
    assert (Nu : forall w, a <> Dp w) by (apply (KN _ _ Ep); simpl; auto).
    apply (G7_user s s' t a I G Ea Nu); auto; intros; rewrite ?Qt in *; auto. right. exists c0, k. now rewrite X.
  - assert (Nu : forall w, a <> Dp w) by (apply (KN _ _ Ep); simpl; auto).
    apply (G7_user s s' t a I G Ea Nu); auto; intros; rewrite ?Qt, ?Qc in *; auto. right. exists c, k. now rewrite Qc.
  - assert (Ea' : Mn u = act (th s t)) by auto. assert (Nu : forall w, Mn u <> Dp w) by discriminate.
    assert (X : forall d, d <> Mn u -> pcc (cx s' d) = pcc (cx s d)) by (intros d N; rewrite Qc; cupds; auto).
    assert (NK : forall u c k, pcc (cx s c) = PNote u k -> flg (th s' u) = true \/ exists b k, pcc (cx s' b) = PNote u k) by (apply (note_kept _ _ (Mn u) X); intros; congruence).
    apply (G7_user s s' t (Mn u) I G Ea' Nu); auto; intros; rewrite ?Qt in *; tupds; auto.
  - assert (X : forall d, d <> a -> pcc (cx s' d) = pcc (cx s d)) by (intros d N; rewrite Qc; cupds; auto).
    assert (Nu : forall w, a <> Dp w) by (apply (KN _ _ Ep); simpl; auto).
    assert (NK : forall u c k, pcc (cx s c) = PNote u k -> flg (th s' u) = true \/ exists b k, pcc (cx s' b) = PNote u k) by (apply (note_kept _ _ a X); intros; congruence).
    apply (G7_user s s' t a I G Ea Nu); auto; intros; rewrite ?Qt in *; tupds; auto.
  - assert (X : forall d, d <> a -> pcc (cx s' d) = pcc (cx s d)) by (intros d N; rewrite Qc; cupds; auto).
    assert (Nu : forall w, a <> Dp w) by (apply (KN _ _ Ep); simpl; auto).
    assert (NK : forall u c k, pcc (cx s c) = PNote u k -> flg (th s' u) = true \/ exists b k, pcc (cx s' b) = PNote u k) by (apply (note_kept _ _ a X); intros; congruence).
    apply (G7_user s s' t a I G Ea Nu); auto; intros; rewrite ?Qt in *; tupds; auto.
  - destruct (prel_keep _ _ _ _ _ Pz) as (K1 & K2 & K3 & K4 & K5 & K6 & K7).
    assert (Nu : forall w, a <> Dp w) by (apply (KN _ _ Ep); simpl; auto).
    assert (X : forall d, d <> a -> pcc (cx s' d) = pcc (cx s d)) by (intros d N; rewrite Qc; cupds; auto).
    assert (NK : forall u c k, pcc (cx s c) = PNote u k -> flg (th s' u) = true \/ exists b k, pcc (cx s' b) = PNote u k) by (apply (note_kept _ _ a X); intros; congruence).
    apply (G7_user s s' t a I G Ea Nu); auto; intros; rewrite ?Qt in *; tupds; auto.
  - (* top *) assert (X : forall d, d <> Dp t -> pcc (cx s' d) = pcc (cx s d)) by (intros d N; rewrite Qc; cupds; auto).
    apply (G7_frame s s' t G).
    + intros u N. rewrite X by congruence. rewrite Qt. tupds. auto.
    + intros u N. rewrite Qt. tupds. auto.
    + intros u N. rewrite Qt. tupds. auto.
    + apply (note_kept s s' (Dp t)); auto. intros; congruence.
    + left. rewrite Qc. cupds. simpl. now destruct (wkr (th s t)).
    + right. left. rewrite Qt. now tupds.
    + intros o. rewrite Qc. cupds. simpl. destruct (wkr (th s t)); discriminate.
  - (* free *) destruct (prel_keep _ _ _ _ _ Pz) as (K1 & K2 & K3 & K4 & K5 & K6 & K7).
    assert (X : forall d, pcc (cx s' d) = pcc (cx s d)) by (intros d; rewrite Qc; cupds; auto).
    apply (G7_frame s s' t G); auto; intros; rewrite ?X, ?Qt in *; tupds; auto; try (destruct Ep as [Ep|Ep]; rewrite ?Ep; simpl; auto 7; congruence).
    all: right; exists a, k; now rewrite X.
  - (* swap *) assert (X : forall d, d <> Dp t -> pcc (cx s' d) = pcc (cx s d)) by (intros d N; rewrite Qc; cupds; auto).
    apply (G7_frame s s' t G).
    + intros u N. rewrite X by congruence. rewrite Qt. tupds. auto.
    + intros u N. rewrite Qt. tupds. auto.
    + intros u N. rewrite Qt. tupds. auto.
    + apply (note_kept s s' (Dp t)); auto. intros; congruence.
    + right. left. rewrite Qt. now tupds.
    + right. right. right. rewrite Ep, Qt. tupds. simpl. auto.
    + intros o. rewrite Qc. cupds. simpl. discriminate.
  - apply (G7_frame s s' t G).
    + intros u N. rewrite Qc, Qt. tupds. auto.
    + intros u N. rewrite Qt. tupds. auto.
    + intros u N. rewrite Qt. tupds. auto.
    + intros u a k E. right. exists a, k. now rewrite Qc.
    + right. right. rewrite Ep, Qt. tupds. auto.
    + right. right. right. rewrite Ep, Qt. tupds. simpl. auto.
    + intros o. rewrite Qc. congruence.
  - (* idle *) assert (X : forall d, d <> Dp t -> pcc (cx s' d) = pcc (cx s d)) by (intros d N; rewrite Qc; cupds; auto).
    apply (G7_frame s s' t G).
    + intros u N. rewrite X by congruence. rewrite Qt. tupds. auto.
    + intros u N. rewrite Qt. tupds. auto.
    + intros u N. rewrite Qt. tupds. auto.
    + apply (note_kept s s' (Dp t)); auto. intros; congruence.
    + left. rewrite Qc. cupds. reflexivity.
    + left. rewrite Qc. cupds. reflexivity.
    + intros o'. rewrite Qc. cupds. simpl. discriminate.
  - (* end *) assert (X : forall d, d <> Dp t -> pcc (cx s' d) = pcc (cx s d)) by (intros d N; rewrite Qc; cupds; auto).
    apply (G7_frame s s' t G).
    + intros u N. rewrite X by congruence. rewrite Qt. tupds. auto.
    + intros u N. rewrite Qt. tupds. auto.
    + intros u N. rewrite Qt. tupds. auto.
    + apply (note_kept s s' (Dp t)); auto. intros; congruence.
    + left. rewrite Qc. cupds. reflexivity.
    + left. rewrite Qc. cupds. reflexivity.
    + intros o'. rewrite Qc. cupds. simpl. discriminate.
Qed.
