(** Proofs about the scheduler: worker and terminated queue, references. *)
From Coq Require Import List Arith Bool Lia.
From Verif Require Import Base Sched SchedFacts SchedFacts2 SchedFacts3 SchedFacts4 SchedFacts5.
Import ListNotations.

(** Life of a worker: not created, running, in the terminated queue and about to switch, switched away for ever. *)
Definition lc (p : pc) : nat := match p with PNone => 0 | PLeave => 2 | PDead => 3 | _ => 1 end.
Definition isw (c : ctx) : bool := match c with Wk _ => true | _ => false end.

Record G4 (s : state) : Prop := {
  k_wkr : forall t c, In c (wkr (th s t)) <-> isw c = true /\ home (cx s c) = t /\ lc (pcc (cx s c)) = 1;
  k_trm : forall t c, In c (trm (th s t)) -> isw c = true /\ home (cx s c) = t /\ 2 <= lc (pcc (cx s c));
  k_lv : forall c, lc (pcc (cx s c)) = 2 -> In c (trm (th s (home (cx s c))));
  k_nd : forall t, NoDup (wkr (th s t)) /\ NoDup (trm (th s t))
}.
Lemma G4_frame s s' : G4 s -> (forall t, wkr (th s' t) = wkr (th s t) /\ trm (th s' t) = trm (th s t)) -> (forall c, home (cx s' c) = home (cx s c)) ->
  (forall c, lc (pcc (cx s' c)) = lc (pcc (cx s c)) \/ (lc (pcc (cx s c)) = 2 /\ lc (pcc (cx s' c)) = 3)) -> G4 s'.
Proof.
  intros G H1 H2 H3. constructor.
  - intros t c. destruct (H1 t) as [-> _]. rewrite H2, (k_wkr _ G). destruct (H3 c) as [->|[E1 E2]]; [reflexivity|]. rewrite E1, E2. lia.
  - intros t c. destruct (H1 t) as [_ ->]. rewrite H2. intros H. destruct (k_trm _ G _ _ H) as (X & Y & Z). splits; auto. destruct (H3 c) as [->|[E1 E2]]; lia.
  - intros c. rewrite H2. destruct (H1 (home (cx s c))) as [_ ->]. intros H. apply G. destruct (H3 c) as [E|[E1 E2]]; lia.
  - intros t. destruct (H1 t) as [-> ->]. apply G.
Qed.
Lemma pmove_lc s t a p ev : pmove s t a p ev -> lc p = lc (pcc (cx s a)).
Proof. intros H. destruct H; rewrite H; reflexivity. Qed.
Lemma pout_lc s t a x rdy sl ev : pout s t a x rdy sl ev -> (lc (pcc x) = lc (pcc (cx s a)) \/ (lc (pcc (cx s a)) = 2 /\ lc (pcc x) = 3)) /\ home x = home (cx s a) /\ cnt x = cnt (cx s a) /\ freed x = freed (cx s a).
Proof. intros H. destruct H; rewrite H; simpl; auto. Qed.
Lemma pwake_cnt s t a g e k x sl ev : pwake s t a g e k x sl ev -> cnt x = cnt (cx s a) /\ freed x = freed (cx s a).
Proof. intros H. destruct H; simpl; auto. Qed.

Lemma G4_new s s' c t : G4 s -> isw c = true -> pcc (cx s c) = PNone -> cx s' c = new_worker t -> (forall d, d <> c -> lc (pcc (cx s' d)) = lc (pcc (cx s d)) /\ home (cx s' d) = home (cx s d)) ->
  (forall u, wkr (th s' u) = (if Nat.eqb u t then wkr (th s t) ++ [c] else wkr (th s u)) /\ trm (th s' u) = trm (th s u)) -> G4 s'.
Proof.
  intros G Hw Hn Hc Hd Ht. assert (N : forall u, ~ In c (wkr (th s u)) /\ ~ In c (trm (th s u))).
  { intros u. split; intros H; [apply (k_wkr _ G) in H|apply (k_trm _ G) in H]; rewrite Hn in H; simpl in H; intuition lia. }
  constructor.
  - intros u d. destruct (Ht u) as [-> _]. destruct (ctx_dec d c) as [->|Nd].
    + rewrite Hc. simpl. destruct (Nat.eqb_spec u t) as [->|Nt]; [rewrite in_app_iff; simpl; intuition|]. specialize (N u). intuition congruence.
    + destruct (Hd _ Nd) as [-> ->]. rewrite <- (k_wkr _ G). destruct (Nat.eqb_spec u t) as [->|Nt]; [|reflexivity]. rewrite in_app_iff. simpl. intuition congruence.
  - intros u d. destruct (Ht u) as [_ ->]. intros H. assert (Nd : d <> c) by (intros ->; apply (N u); auto). destruct (Hd _ Nd) as [-> ->]. now apply G.
  - intros d. destruct (ctx_dec d c) as [->|Nd]; [rewrite Hc; discriminate|]. destruct (Hd _ Nd) as [-> ->]. destruct (Ht (home (cx s d))) as [_ ->]. apply G.
  - intros u. destruct (Ht u) as [-> ->]. split; [|apply G]. destruct (Nat.eqb_spec u t) as [->|Nt]; [|apply G]. apply nodup_app_one; [apply G|apply N].
Qed.

Ltac fr4 G Qc Qt := apply (G4_frame _ _ G); auto; intros; rewrite ?Qc, ?Qt in *; cupds; tupds; simpl in *; auto; try congruence; try discriminate.

Theorem G4_step s s' : IAs s -> G4 s -> tr s s' -> G4 s'.
Proof.
  intros I G T. trd T.
  - fr4 G Qc Qt.
  - fr4 G Qc Qt.
  - pose proof (pmove_lc _ _ _ _ _ M). fr4 G Qc Qt.
  - apply (G4_new s s' c t); auto; intros; rewrite ?Qc, ?Qt; subst c; cupds; auto. tupds; simpl; rewrite ?Nat.eqb_refl; auto. destruct (Nat.eqb_spec u t); auto. congruence.
  - assert (Nc : c <> a) by congruence. apply (G4_new s s' c t); auto; intros; rewrite ?Qc, ?Qt; try (now subst c); cupds; simpl; rewrite ?Ep; auto. tupds; simpl; rewrite ?Nat.eqb_refl; auto. destruct (Nat.eqb_spec u t); auto. congruence.
  - destruct (pout_lc _ _ _ _ _ _ _ Po) as (X1 & X2 & X3 & X4). fr4 G Qc Qt. destruct rdy; auto.
  - fr4 G Qc Qt. rewrite Ep. auto.
  - destruct (pwake_keep _ _ _ _ _ _ _ _ _ Pw) as (K1 & K2 & K3 & K4 & K5). fr4 G Qc Qt. rewrite K1. auto.
  - destruct (pwake_keep _ _ _ _ _ _ _ _ _ Pw) as (K1 & K2 & K3 & K4 & K5). fr4 G Qc Qt. rewrite K1. auto.
  - destruct (pwake_keep _ _ _ _ _ _ _ _ _ Pw) as (K1 & K2 & K3 & K4 & K5). fr4 G Qc Qt. rewrite K5. destruct k; auto.
  - fr4 G Qc Qt. rewrite Ep. auto.
  - fr4 G Qc Qt. rewrite Ep. destruct k; auto.
  - fr4 G Qc Qt. rewrite Ep. auto.
  - fr4 G Qc Qt; cupds; simpl; auto; rewrite Ep; auto.
  - destruct (prel_keep _ _ _ _ _ Pz) as (K1 & K2 & K3 & K4 & K5 & K6 & K7). fr4 G Qc Qt; rewrite ?K3, ?K1 in *; cupds; simpl; rewrite ?Ep; auto.
  - destruct (prel_keep _ _ _ _ _ Pz) as (K1 & K2 & K3 & K4 & K5 & K6 & K7). fr4 G Qc Qt; rewrite ?K3, ?K1 in *; auto.
  - fr4 G Qc Qt.
  - fr4 G Qc Qt. rewrite Ep. auto.
  - fr4 G Qc Qt. rewrite Ep. auto.
  - (* leave *) pose proof (act_home _ I t) as Ha. rewrite <- Ea in Ha. assert (Wa : isw a = true).
    { destruct I as [L I]. pose proof (a_kind _ _ _ I a) as X. simpl in X. rewrite Ep in X. destruct a; auto; contradiction. }
    assert (X : forall d, d <> a -> cx s' d = cx s d) by (intros; rewrite Qc; cupds; auto).
    assert (Na : forall u, ~ In a (trm (th s u))) by (intros u H; apply (k_trm _ G) in H; rewrite Ep in H; simpl in H; intuition lia).
    constructor.
    + intros u c. destruct (ctx_dec c a) as [->|N].
      * rewrite Qc. cupds. simpl. rewrite Qt. tupds; simpl; rewrite ?remove_In; [intuition discriminate|]. rewrite (k_wkr _ G). intuition congruence.
      * rewrite X by auto. rewrite Qt. tupds; simpl; rewrite ?remove_In, (k_wkr _ G); intuition.
    + intros u c. destruct (ctx_dec c a) as [->|N].
      * rewrite Qc. cupds. simpl. rewrite Qt. tupds; simpl; [splits; auto|]. intros H. apply Na in H. contradiction.
      * rewrite X by auto. intros H. apply (k_trm _ G). rewrite Qt in H. tupds; simpl in *; auto. rewrite in_app_iff in H. simpl in H. intuition congruence.
    + intros c. destruct (ctx_dec c a) as [->|N].
      * intros _. rewrite Qc. cupds. simpl. rewrite Qt, Ha. tupds. simpl. rewrite in_app_iff. simpl. auto.
      * rewrite X by auto. intros H. apply (k_lv _ G) in H. rewrite Qt. tupds; simpl; auto. rewrite in_app_iff. rewrite <- e. auto.
    + intros u. rewrite Qt. tupds; simpl; [|apply G]. split; [apply remove_NoDup, G|]. apply nodup_app_one; auto. apply G.
  - destruct (prel_keep _ _ _ _ _ Pz) as (K1 & K2 & K3 & K4 & K5 & K6 & K7).
    assert (Na : a <> Dp t).
    { intros E. destruct I as [L I]. pose proof (a_kind _ _ _ I a) as X. simpl in X. rewrite Ep in X. rewrite E in X. exact X. }
    cupds. fr4 G Qc Qt; rewrite ?Ep, ?K1; auto.
  - fr4 G Qc Qt. rewrite Ep. destruct (wkr (th s t)); auto.
  - (* freed by the scheduler *) destruct (prel_keep _ _ _ _ _ Pz) as (K1 & K2 & K3 & K4 & K5 & K6 & K7).
    assert (X : forall d, pcc (cx s' d) = pcc (cx s d) /\ home (cx s' d) = home (cx s d)) by (intros; rewrite Qc; cupds; auto).
    pose proof (k_nd _ G t) as [_ ND]. rewrite Et in ND. inversion ND as [|? ? N1 N2]; subst.
    assert (Hc : home (cx s c) = t /\ lc (pcc (cx s c)) = 3).
    { destruct (k_trm _ G t c) as (Y1 & Y2 & Y3); [rewrite Et; now left|]. split; auto. destruct (pcc (cx s c)) eqn:E; simpl in *; try lia. exfalso.
      destruct I as [L I]. pose proof (a_run _ _ _ I c) as R. pose proof (a_pc _ _ _ I c) as P. unfold pcok in P. simpl in *. rewrite E in P. specialize (R (or_introl P)). rewrite Y2, Ea in R. rewrite <- R in Y1. discriminate Y1. }
    destruct Hc as [Hc1 Hc2]. constructor.
    + intros u d. destruct (X d) as [-> ->]. rewrite <- (k_wkr _ G). rewrite Qt. tupds; reflexivity.
    + intros u d. destruct (X d) as [-> ->]. intros H. apply (k_trm _ G). rewrite Qt in H. tupds; simpl in *; auto. rewrite Et. now right.
    + intros d. destruct (X d) as [-> ->]. intros H. pose proof (k_lv _ G _ H) as Y. rewrite Qt. tupds; simpl; auto. rewrite e, Et in Y. simpl in Y. destruct Y as [Y|Y]; auto. subst d. lia.
    + intros u. rewrite Qt. tupds; simpl; [|apply G]. split; auto. apply G.
  - fr4 G Qc Qt. rewrite Ep. auto.
  - fr4 G Qc Qt.
  - fr4 G Qc Qt. rewrite Ep. auto.
  - fr4 G Qc Qt. rewrite Ep. auto.
Qed.

(** ** References *)
Definition owned (s : state) (c : ctx) : Prop := lc (pcc (cx s c)) = 1 \/ In c (trm (th s (home (cx s c)))).
Definition handled (s : state) (c : ctx) : Prop := exists h, hn s h = Some c.
Inductive cn (P Q : Prop) : nat -> Prop := cn2 : P -> Q -> cn P Q 2 | cnP : P -> ~ Q -> cn P Q 1 | cnQ : ~ P -> Q -> cn P Q 1 | cn0 : ~ P -> ~ Q -> cn P Q 0.
Lemma cn_ext (P Q P' Q' : Prop) n : (P <-> P') -> (Q <-> Q') -> cn P Q n -> cn P' Q' n.
Proof. intros E1 E2 H. destruct H; [apply cn2|apply cnP|apply cnQ|apply cn0]; tauto. Qed.
Lemma cn_p (P Q P' : Prop) n : P -> ~ P' -> cn P Q (S n) -> cn P' Q n.
Proof. intros H1 H2 H. inversion H; subst; try tauto; [apply cnQ|apply cn0]; auto. Qed.
Lemma cn_q (P Q Q' : Prop) n : Q -> ~ Q' -> cn P Q (S n) -> cn P Q' n.
Proof. intros H1 H2 H. inversion H; subst; try tauto; [apply cnP|apply cn0]; auto. Qed.

Record G5 (s : state) : Prop := {
  r_cnt : forall c, isw c = true -> pcc (cx s c) <> PNone -> cn (owned s c) (handled s c) (cnt (cx s c));
  r_fr : forall c, isw c = true -> pcc (cx s c) <> PNone -> (freed (cx s c) = true <-> cnt (cx s c) = 0)
}.
Lemma owned_frame s s' c : G4 s -> G4 s' -> (forall t, trm (th s' t) = trm (th s t)) -> home (cx s' c) = home (cx s c) ->
  lc (pcc (cx s' c)) = lc (pcc (cx s c)) \/ (lc (pcc (cx s c)) = 2 /\ lc (pcc (cx s' c)) = 3) -> owned s c <-> owned s' c.
Proof.
  intros G G' H1 H2 H3. unfold owned. rewrite H1, H2. destruct H3 as [->|[E1 E2]]; [tauto|]. rewrite E1, E2. apply (k_lv _ G) in E1. intuition.
Qed.
Lemma lc_none p q : lc p = lc q \/ (lc q = 2 /\ lc p = 3) -> p <> PNone -> q <> PNone.
Proof. intros H N ->. apply N. simpl in H. destruct p; simpl in H; intuition; discriminate. Qed.
Lemma G5_frame s s' : G4 s -> G4 s' -> G5 s -> (forall h, hn s' h = hn s h) -> (forall t, trm (th s' t) = trm (th s t)) ->
  (forall c, isw c = true -> home (cx s' c) = home (cx s c) /\ cnt (cx s' c) = cnt (cx s c) /\ freed (cx s' c) = freed (cx s c)) ->
  (forall c, isw c = true -> lc (pcc (cx s' c)) = lc (pcc (cx s c)) \/ (lc (pcc (cx s c)) = 2 /\ lc (pcc (cx s' c)) = 3)) -> G5 s'.
Proof.
  intros G4s G4s' G H0 H1 H2 H3. constructor; intros c Hw Hn; destruct (H2 c Hw) as (E1 & E2 & E3); pose proof (lc_none _ _ (H3 c Hw) Hn) as Hn'.
  - rewrite E2. apply (cn_ext (owned s c) (handled s c)); [apply owned_frame; auto| |apply G; auto]. unfold handled. split; intros [h X]; exists h; rewrite ?H0 in *; auto.
  - rewrite E2, E3. apply G; auto.
Qed.
Lemma prel_cnt s c z z' ev : prel s c z z' ev -> cnt z = S (cnt z') /\ (freed z' = true <-> cnt z' = 0) /\ freed z = false.
Proof. intros H. destruct H; simpl; rewrite ?H0; splits; auto; split; congruence. Qed.

Ltac fr5 G4s G4s' G Qc Qt Qh := apply (G5_frame _ _ G4s G4s' G); auto; intros; rewrite ?Qc, ?Qt, ?Qh in *; cupds; tupds; simpl in *; auto; try congruence; try discriminate.

Lemma G5_drop s s' c h z ev : G2 s -> G4 s -> G4 s' -> G5 s -> hn s h = Some c -> prel s c (cx s c) z ev ->
  (forall d, d <> c -> cnt (cx s' d) = cnt (cx s d) /\ freed (cx s' d) = freed (cx s d)) -> cnt (cx s' c) = cnt z -> freed (cx s' c) = freed z ->
  (forall d, home (cx s' d) = home (cx s d) /\ lc (pcc (cx s' d)) = lc (pcc (cx s d))) ->
  (forall t, trm (th s' t) = trm (th s t)) -> (forall h', hn s' h' = upd (hn s) h None h') -> G5 s'.
Proof.
  intros H2 H4 H4' G Hh Pz Hd Hc1 Hc2 Hl Ht Hn. destruct (prel_cnt _ _ _ _ _ Pz) as (C1 & C2 & C3).
  assert (NN : forall d, pcc (cx s' d) <> PNone -> pcc (cx s d) <> PNone) by (intros d; apply lc_none; left; apply Hl).
  assert (OW : forall d, owned s d <-> owned s' d) by (intros d; apply owned_frame; auto; [apply Hl|left; apply Hl]).
  assert (HN : forall d, d <> c -> handled s d <-> handled s' d).
  { intros d N. unfold handled. split; intros [h' X]; exists h'; rewrite Hn in *; tupds; auto; congruence. }
  assert (HC : ~ handled s' c).
  { intros [h' X]. rewrite Hn in X. tupds; try discriminate. apply n. eapply (h_inj _ H2); eauto. }
  constructor; intros d Hw Hp; apply NN in Hp; destruct (ctx_dec d c) as [->|N].
  - apply (cn_ext (owned s c) (handled s' c)); auto; [tauto|]. rewrite Hc1. apply (cn_q _ (handled s c)); auto; [exists h; auto|]. rewrite <- C1. apply G; auto.
  - destruct (Hd _ N) as [-> _]. apply (cn_ext (owned s d) (handled s d)); auto. apply G; auto.
  - now rewrite Hc1, Hc2.
  - destruct (Hd _ N) as [-> ->]. apply G; auto.
Qed.

Lemma G5_new s s' c t h : G2 s -> G4 s -> G4 s' -> G5 s -> pcc (cx s c) = PNone -> hn s h = None -> cx s' c = new_worker t -> 
  (forall d, d <> c -> cnt (cx s' d) = cnt (cx s d) /\ freed (cx s' d) = freed (cx s d) /\ lc (pcc (cx s' d)) = lc (pcc (cx s d)) /\ home (cx s' d) = home (cx s d)) ->
  (forall t, trm (th s' t) = trm (th s t)) -> (forall h', hn s' h' = upd (hn s) h (Some c) h') -> G5 s'.
Proof.
  intros H2 H4 H4' G Hn Hh Hc Hd Ht Hu. constructor; intros d Hw Hp; (destruct (ctx_dec d c) as [->|N]; [rewrite Hc; simpl|destruct (Hd d N) as (E1 & E2 & E3 & E4)]).
  - apply cn2; [unfold owned; rewrite Hc; auto|exists h; rewrite Hu; now tupds].
  - rewrite E1. apply (cn_ext (owned s d) (handled s d)); [apply owned_frame; auto| |apply G; auto; eapply lc_none; eauto].
    unfold handled. split; intros [h' X]; exists h'; rewrite Hu in *; tupds; auto; congruence.
  - split; discriminate.
  - rewrite E1, E2. apply G; auto. eapply lc_none; eauto.
Qed.

Theorem G5_step s s' : IAs s -> G2 s -> G4 s -> G5 s -> tr s s' -> G5 s'.
Proof.
  intros I H2 H4 G T. pose proof (G4_step _ _ I H4 T) as H4'. trd T.
  - fr5 H4 H4' G Qc Qt Qh.
  - fr5 H4 H4' G Qc Qt Qh.
  - pose proof (pmove_lc _ _ _ _ _ M). fr5 H4 H4' G Qc Qt Qh.
  - apply (G5_new s s' c t h); auto; intros; rewrite ?Qc, ?Qt; cupds; tupds; auto.
  - assert (Nc : c <> a) by congruence. apply (G5_new s s' c t h); auto; intros; rewrite ?Qc, ?Qt; cupds; tupds; simpl; rewrite ?Ep; auto.
  - destruct (pout_lc _ _ _ _ _ _ _ Po) as (X1 & X2 & X3 & X4). fr5 H4 H4' G Qc Qt Qh. destruct rdy; auto.
  - fr5 H4 H4' G Qc Qt Qh. rewrite Ep. auto.
  - destruct (pwake_keep _ _ _ _ _ _ _ _ _ Pw) as (K1 & K2 & K3 & K4 & K5). destruct (pwake_cnt _ _ _ _ _ _ _ _ _ Pw). fr5 H4 H4' G Qc Qt Qh. rewrite K1. auto.
  - destruct (pwake_keep _ _ _ _ _ _ _ _ _ Pw) as (K1 & K2 & K3 & K4 & K5). destruct (pwake_cnt _ _ _ _ _ _ _ _ _ Pw). fr5 H4 H4' G Qc Qt Qh. rewrite K1. auto.
  - destruct (pwake_keep _ _ _ _ _ _ _ _ _ Pw) as (K1 & K2 & K3 & K4 & K5). destruct (pwake_cnt _ _ _ _ _ _ _ _ _ Pw). fr5 H4 H4' G Qc Qt Qh. rewrite K5. destruct k; auto.
  - fr5 H4 H4' G Qc Qt Qh. rewrite Ep. auto.
  - fr5 H4 H4' G Qc Qt Qh. rewrite Ep. destruct k; auto.
  - fr5 H4 H4' G Qc Qt Qh. rewrite Ep. auto.
  - fr5 H4 H4' G Qc Qt Qh; cupds; simpl; auto; try (rewrite Ep; now auto); splits; congruence.
  - (* joined *) destruct (prel_keep _ _ _ _ _ Pz) as (K1 & K2 & K3 & K4 & K5 & K6 & K7).
    destruct (h_ref _ H2 a h c) as (R1 & R2 & R3); [now rewrite Ep|]. cupds.
    apply (G5_drop s s' c h z ev); auto; intros; rewrite ?Qc, ?Qt; cupds; simpl; rewrite ?Ep, ?K1; auto.
  - destruct (prel_keep _ _ _ _ _ Pz) as (K1 & K2 & K3 & K4 & K5 & K6 & K7).
    apply (G5_drop s s' c h z ev); auto; intros; rewrite ?Qc, ?Qt; cupds; simpl; rewrite ?Ep, ?K1; auto.
  - (* moved *) constructor; intros c Hw Hp; rewrite Qc in *; [|apply G; auto].
    apply (cn_ext (owned s c) (handled s c)); [apply owned_frame; auto; intros; rewrite ?Qc, ?Qt; auto| |apply G; auto].
    unfold handled. split; intros [h X].
    + destruct (Nat.eq_dec h h1) as [->|N1]; [exists h2; rewrite Qh; tupds; congruence|]. exists h. rewrite Qh. assert (h <> h2) by congruence. tupds. auto.
    + rewrite Qh in X. tupds; try discriminate; eauto.
  - fr5 H4 H4' G Qc Qt Qh. 
  - fr5 H4 H4' G Qc Qt Qh. rewrite Ep. auto.
  - (* leave *) constructor; intros c Hw Hp.
    + assert (O : owned s c <-> owned s' c).
      { unfold owned. pose proof (act_home _ I t) as Ha. rewrite <- Ea in Ha. rewrite Qc. cupds; simpl.
        - rewrite Ep, Ha, Qt. tupds. simpl. rewrite in_app_iff. simpl. intuition.
        - rewrite Qt. tupds; simpl; [|tauto]. rewrite in_app_iff. simpl. rewrite <- e. intuition congruence. }
      apply (cn_ext (owned s c) (handled s c)); auto; [unfold handled; split; intros [h X]; exists h; rewrite ?Qh in *; auto|].
      assert (cnt (cx s' c) = cnt (cx s c)) as -> by (rewrite Qc; cupds; auto). apply G; auto. rewrite Qc in Hp. cupds; auto. congruence.
    + assert (cnt (cx s' c) = cnt (cx s c)) as -> by (rewrite Qc; cupds; auto). assert (freed (cx s' c) = freed (cx s c)) as -> by (rewrite Qc; cupds; auto).
      apply G; auto. rewrite Qc in Hp. cupds; auto. congruence.
  - assert (Na : isw a = false).
    { destruct I as [L I]. pose proof (a_kind _ _ _ I a) as X. simpl in X. rewrite Ep in X. destruct a; auto. contradiction. }
    fr5 H4 H4' G Qc Qt Qh.
  - fr5 H4 H4' G Qc Qt Qh. 
  - (* freed by the scheduler *) destruct (prel_keep _ _ _ _ _ Pz) as (K1 & K2 & K3 & K4 & K5 & K6 & K7). destruct (prel_cnt _ _ _ _ _ Pz) as (C1 & C2 & C3).
    assert (X : forall d, pcc (cx s' d) = pcc (cx s d) /\ home (cx s' d) = home (cx s d)) by (intros; rewrite Qc; cupds; auto).
    pose proof (k_nd _ H4 t) as [_ ND]. rewrite Et in ND. inversion ND as [|? ? N1 N2]; subst.
    destruct (k_trm _ H4 t c) as (Y1 & Y2 & Y3); [rewrite Et; now left|].
    assert (HN : forall d, handled s d <-> handled s' d) by (intros d; unfold handled; split; intros [h' E]; exists h'; rewrite ?Qh in *; auto).
    constructor; intros d Hw Hp; (destruct (ctx_dec d c) as [->|N]).
    + rewrite Qc. cupds. apply (cn_ext (owned s' c) (handled s c)); auto; [tauto|]. apply (cn_p (owned s c)).
      * right. rewrite Y2, Et. now left.
      * unfold owned. destruct (X c) as [-> ->]. rewrite Y2, Qt. tupds. simpl. intros [O|O]; [lia|contradiction].
      * rewrite <- C1. apply G; auto. rewrite Qc in Hp. cupds. congruence.
    + rewrite Qc in *. cupds. apply (cn_ext (owned s d) (handled s d)); auto; [|apply G; auto]. unfold owned. destruct (X d) as [-> ->]. rewrite Qt. tupds; [|tauto]. simpl. rewrite e, Et. simpl. intuition congruence.
    + rewrite Qc. cupds. auto.
    + rewrite Qc in *. cupds. apply G; auto.
  - fr5 H4 H4' G Qc Qt Qh. 
  - fr5 H4 H4' G Qc Qt Qh.
  - fr5 H4 H4' G Qc Qt Qh. 
  - fr5 H4 H4' G Qc Qt Qh. 
Qed.
