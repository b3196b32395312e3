(** Proofs about the scheduler: the record of events and the state, continued. *)
From Coq Require Import List Arith Bool Lia.
From Verif Require Import Base Sched SchedSpec SchedFacts SchedFacts2 SchedFacts3 SchedFacts4 SchedFacts5 SchedFacts6 SchedFacts7 SchedFacts8 SchedFacts9.
Import ListNotations.

Lemma tr_keep s s' y : Inv s -> tr s s' -> exists_ (pcc (cx s y)) = true -> home (cx s' y) = home (cx s y) /\ exists_ (pcc (cx s' y)) = true.
Proof.
  intros I T H. trd T; try match goal with E : ?c = Wk ?n |- _ => is_var c; subst c end; trd2;
    try match goal with Ep : pcc (cx s ?a) = PJoin ?h ?d |- _ => destruct (h_ref _ (i_2 _ I) a h d) as (_ & _ & Xn); [now rewrite Ep|] end;
    inner; rewrite ?Qc; cupds; simpl; auto; try (pcs s; simpl in *; auto; discriminate); split; auto; congruence.
Qed.
Definition g_at (s : state) : Prop := forall c t, existsb (isat c t) (log s) = true -> home (cx s c) = t /\ exists_ (pcc (cx s c)) = true.
Lemma rq_home s t c : Inv s -> In c (rq (th s t)) -> home (cx s c) = t /\ exists_ (pcc (cx s c)) = true.
Proof.
  intros I H. destruct (i_a _ I) as [L A]. apply (a_rq _ _ _ A) in H. destruct H as [X Y]. split; auto. pose proof (a_pc _ _ _ A c) as P. unfold pcok in P. simpl in P. destruct (pcc (cx s c)); auto. congruence.
Qed.
Lemma tmp_home s t c : Inv s -> In c (tmp (th s t)) -> home (cx s c) = t /\ exists_ (pcc (cx s c)) = true.
Proof.
  intros I H. destruct (i_a _ I) as [L A]. apply (a_tmp _ _ _ A) in H. destruct H as [X Y]. split; auto. pose proof (a_pc _ _ _ A c) as P. unfold pcok in P. simpl in P. destruct (pcc (cx s c)); auto. congruence.
Qed.
Lemma act_exists s t : Inv s -> home (cx s (act (th s t))) = t /\ exists_ (pcc (cx s (act (th s t)))) = true.
Proof.
  intros I. split; [apply act_home; apply I|]. destruct (i_a _ I) as [L A]. destruct (a_act _ _ _ A t) as [_ [X|X]]; simpl in X.
  - pose proof (a_pc _ _ _ A (act (th s t))) as P. unfold pcok in P. simpl in P. destruct (pcc (cx s (act (th s t)))); auto. congruence.
  - destruct (pcc (cx s (act (th s t)))); auto.
Qed.
(** The new events about contexts that are awakened or resumed. *)
Lemma tr_at s s' y w : Inv s -> tr s s' -> existsb (isat y w) (log s') = true -> existsb (isat y w) (log s) = true \/ (home (cx s' y) = w /\ exists_ (pcc (cx s' y)) = true).
Proof.
  intros I T. pose proof (tr_keep s s') as TK. assert (HQ : forall u d, In d (rq (th s u)) -> home (cx s' d) = u /\ exists_ (pcc (cx s' d)) = true).
  { intros u d Hd. destruct (rq_home s u d I Hd) as [X1 X2]. destruct (TK d I T X2). split; congruence. }
  assert (HM : forall u d, In d (tmp (th s u)) -> home (cx s' d) = u /\ exists_ (pcc (cx s' d)) = true).
  { intros u d Hd. destruct (tmp_home s u d I Hd) as [X1 X2]. destruct (TK d I T X2). split; congruence. }
  assert (HA : forall u, home (cx s' (act (th s u))) = u /\ exists_ (pcc (cx s' (act (th s u)))) = true).
  { intros u. destruct (act_exists s u I) as [X1 X2]. destruct (TK _ I T X2). split; congruence. }
  assert (HW : forall u d, home (cx s d) = u -> exists_ (pcc (cx s d)) = true -> home (cx s' d) = u /\ exists_ (pcc (cx s' d)) = true).
  { intros u d H1 H2. destruct (TK d I T H2). split; congruence. }
  assert (T0 := T). clear TK. trd T; try match goal with E : ?c = Wk ?n |- _ => is_var c; subst c end; trd2;
    try match goal with Pw : pwake _ _ _ _ _ _ _ _ _, Ee : ep (cx s _) = _ |- _ => pose proof (wake_waits _ _ _ _ _ _ _ _ _ (i_a _ I) (i_1 _ I) (i_3 _ I) Pw Ee) as WW end;
    inner; rewrite ?Ql; simpl; auto.
  all: intros X; repeat (apply orb_true_iff in X; destruct X as [X|X]); auto; apply andb_true_iff in X; destruct X as [X1 X2]; match type of X1 with ctx_eqb ?p ?q = true => destruct (ctx_eqb_spec p q); [|discriminate X1] end; clear X1; apply Nat.eqb_eq in X2; subst y w; right.
  all: try solve [subst; apply HA | rewrite Qc; cupds; simpl; auto | apply HQ; match goal with E : rq _ = _ |- _ => rewrite E end; left; auto | apply HM; match goal with E : tmp _ = _ |- _ => rewrite E end; left; auto].
  - rewrite Qc. cupds; simpl; auto. congruence.
  - apply HW; auto. destruct WW as [[? [? ->]]|(_ & _ & [[->|[->|[? ->]]]|[? ->]])]; auto.
  - apply HW; auto. destruct WW as [[? [? ->]]|(_ & _ & [[->|[->|[? ->]]]|[? ->]])]; auto.
  - apply HW; auto. destruct WW as [[? [? ->]]|(_ & _ & [[->|[->|[? ->]]]|[? ->]])]; auto.
  - destruct (i_a _ I) as [L A]. destruct (a_home _ _ _ A t) as [_ X]. apply HW; [exact X|]. pose proof (kinds s I (Mn t)) as K. destruct (pcc (cx s (Mn t))); auto.
Qed.
Lemma g_at_step s s' : Inv s -> g_at s -> tr s s' -> g_at s'.
Proof.
  intros I G T c t H. destruct (tr_at s s' c t I T H) as [X|X]; auto. destruct (G c t X) as [X1 X2]. destruct (tr_keep s s' c I T X2) as [Y1 Y2]. split; congruence.
Qed.
Lemma g_at_init : g_at init.
Proof. intros c t H. discriminate H. Qed.


(** Joiners that may go on, sleepers that have been woken, the time sleep2ready_ uses. *)
Definition passed (x : cst) : option ctx :=
  match pcc x with PRel _ c => Some c | PSusp e (WJoin _ c) => if Nat.eqb (ep x) e then None else Some c | _ => None end.
Definition woke (x : cst) : option nat := match pcc x with PSusp e (WSleep tp) => if Nat.eqb (ep x) e then None else Some tp | _ => None end.
Definition usenow (p : pc) : option nat := match p with DSleep n | PPush _ (KDisp n) | PNote _ (KDisp n) => Some n | _ => None end.

Lemma tr_fin s s' y : Inv s -> tr s s' -> fin (pcc (cx s y)) = true -> fin (pcc (cx s' y)) = true.
Proof.
  intros I T H. trd T; try match goal with E : ?c = Wk ?n |- _ => is_var c; subst c end; trd2;
    try match goal with Ep : pcc (cx s ?a) = PJoin ?h ?d |- _ => destruct (h_ref _ (i_2 _ I) a h d) as (_ & _ & Xn); [now rewrite Ep|] end;
    inner; rewrite ?Qc; cupds; simpl; auto; try (pcs s; simpl in *; auto; discriminate); try congruence.
Qed.
Lemma fin_term p : interm p = true -> fin p = true.
Proof. destruct p; simpl; auto. Qed.
Lemma fin_left p : hasleft p = true -> fin p = true.
Proof. destruct p; simpl; auto; discriminate. Qed.
Lemma passed_ref s y d : passed (cx s y) = Some d -> exists h, jref (pcc (cx s y)) = Some (h, d).
Proof. unfold passed. intros H. destruct (pcc (cx s y)) eqn:E; try discriminate H; simpl; try match goal with w : why |- _ => destruct w end; try discriminate H; simpl; try destruct (Nat.eqb _ _); try discriminate H; injection H as ->; eauto. Qed.
Definition g_pass (s : state) : Prop := forall y d, passed (cx s y) = Some d -> fin (pcc (cx s d)) = true.
Lemma act_ep s t e y : Inv s -> pcc (cx s (act (th s t))) = PSusp e y -> ep (cx s (act (th s t))) <> e.
Proof.
  intros I H. destruct (i_a _ I) as [L A]. pose proof (a_pc _ _ _ A (act (th s t))) as P. destruct (a_act _ _ _ A t) as [_ [X|X]]; simpl in X.
  - unfold pcok in P. simpl in P. rewrite H in P. destruct P as [[_ P]|[P _]]; [congruence|lia].
  - rewrite H in X. discriminate X.
Qed.
Lemma tr_pass s s' y w : Inv s -> tr s s' -> passed (cx s' y) = Some w -> passed (cx s y) = Some w \/ fin (pcc (cx s w)) = true.
Proof.
  intros I T. trd T; try match goal with E : ?c = Wk ?n |- _ => is_var c; subst c end; trd2;
    try match goal with Pw : pwake _ _ _ _ _ _ _ _ _, Ee : ep (cx s _) = _ |- _ => pose proof (wake_waits _ _ _ _ _ _ _ _ _ (i_a _ I) (i_1 _ I) (i_3 _ I) Pw Ee) as WW end;
    inner; rewrite ?Qc; cupds; simpl; auto; unfold passed; simpl; rewrite ?Nat.eqb_refl; try discriminate; auto; intros HP; try (pcs s; simpl in *; auto; discriminate).
  { left. match goal with E : pcc (cx s a) = PSusp ?e _ |- _ => rewrite E; rewrite Ea in E; pose proof (act_ep _ _ _ _ I E) as X; rewrite <- Ea in X; apply Nat.eqb_neq in X; rewrite X end. exact HP. }
  { right. injection HP as <-. destruct (j_ok _ (i_3 _ I) c) as (_ & X & _). match goal with E : term (cx s c) = true |- _ => apply X in E; destruct E as [E|E] end.
    + now apply fin_term.
    + now apply fin_left. }
  all: right; destruct WW as [[? [? WW]]|(_ & ? & [[WW|[WW|[? WW]]]|[? WW]])]; rewrite WW in HP; try discriminate HP; try discriminate; try congruence.
  all: match type of HP with (if ?b then _ else _) = _ => destruct b end; [discriminate HP|]; injection HP as <-; now pcs s.
Qed.
Theorem g_pass_step s s' : Inv s -> g_pass s -> tr s s' -> g_pass s'.
Proof.
  intros I G T y d H. apply (tr_fin s s' d I T). destruct (tr_pass s s' y d I T H) as [X|X]; auto. exact (G y d X).
Qed.
Definition g_now (s : state) : Prop := forall y n, usenow (pcc (cx s y)) = Some n -> n <= clk s.
Lemma tr_clk s s' : tr s s' -> clk s <= clk s'.
Proof. intros T. trd T; rewrite Qk; lia. Qed.
Lemma tr_now s s' y w : tr s s' -> usenow (pcc (cx s' y)) = Some w -> usenow (pcc (cx s y)) = Some w \/ w <= clk s.
Proof.
  intros T. trd T; try match goal with E : ?c = Wk ?n |- _ => is_var c; subst c end; trd2;
    inner; rewrite ?Qc; cupds; simpl; auto; simpl; try discriminate; auto; intros HP; try (pcs s; simpl in *; auto; discriminate).
  all: right; injection HP as <-; auto.
Qed.
Theorem g_now_step s s' : g_now s -> tr s s' -> g_now s'.
Proof.
  intros G T y n H. pose proof (tr_clk s s' T). destruct (tr_now s s' y n T H) as [X|X]; [specialize (G y n X)|]; lia.
Qed.
Definition g_slp (s : state) : Prop := forall y tp, woke (cx s y) = Some tp -> tp <= clk s.
Lemma wake_sleep s t a g e k x sl ev e0 tp : Inv s -> g_now s -> pwake s t a g e k x sl ev -> ep (cx s g) = e -> pcc (cx s g) = PSusp e0 (WSleep tp) -> tp <= clk s.
Proof.
  intros I G Pw Ee Ep. destruct Pw as [E1 E2 E3|q E1 E2 E3|nw tp' r E1 E2 E3].
  - destruct (i_a _ I) as [L A]. destruct (a_iss _ _ _ A g e E2) as [_ Z]. simpl in Z. specialize (Z (eq_sym Ee)). destruct Z as [Z|[Z|[? Z]]]; congruence.
  - assert (H : In (g, e) (wtq (cx s a))) by (rewrite E2; now left). apply (j_in _ (i_3 _ I)) in H. destruct H as [h H]. unfold jw in H. rewrite Ep in H. discriminate H.
  - assert (H : In (tp', g, e) (slp (th s t))) by (rewrite E2; now left). destruct (b_slp _ (i_1 _ I) _ _ _ _ H) as (_ & (y & Y1 & Y2) & _). rewrite Ep in Y1. injection Y1 as _ <-. simpl in Y2. injection Y2 as ->.
    assert (nw <= clk s) by (apply (G a); now rewrite E1). lia.
Qed.
Lemma tr_woke s s' y w : Inv s -> g_now s -> tr s s' -> woke (cx s' y) = Some w -> woke (cx s y) = Some w \/ w <= clk s.
Proof.
  intros I G T. trd T; try match goal with E : ?c = Wk ?n |- _ => is_var c; subst c end; trd2;
    try match goal with Pw : pwake _ _ _ _ _ _ _ _ _, Ee : ep (cx s _) = _ |- _ => pose proof (fun e0 tp => wake_sleep _ _ _ _ _ _ _ _ _ e0 tp I G Pw Ee) as WW end;
    inner; rewrite ?Qc; cupds; simpl; auto; unfold woke; simpl; rewrite ?Nat.eqb_refl; try discriminate; auto; intros HP; try (pcs s; simpl in *; auto; discriminate).
  all: match type of HP with match ?q with _ => _ end = _ => destruct q eqn:Eq; try discriminate HP end;
    match type of HP with match ?q with _ => _ end = _ => destruct q; try discriminate HP end;
    match type of HP with (if ?q then _ else _) = _ => destruct q; try discriminate HP end; right; injection HP as <-; eapply WW; eauto.
Qed.
Theorem g_slp_step s s' : Inv s -> g_now s -> g_slp s -> tr s s' -> g_slp s'.
Proof.
  intros I N G T y tp H. pose proof (tr_clk s s' T). destruct (tr_woke s s' y tp I N T H) as [X|X]; [specialize (G y tp X)|]; lia.
Qed.

Record G11 (s : state) : Prop := { l_inv : Inv s; l_8 : G8 s; l_9 : G9 s; l_10 : G10 s; l_at : g_at s; l_pass : g_pass s; l_now : g_now s; l_slp : g_slp s }.
Theorem G11_step s s' : G11 s -> Inv s' -> tr s s' -> G11 s'.
Proof.
  intros [X1 X2 X3 X4 X5 X6 X7 X8] I T. constructor; auto.
  - apply (G8_step s); auto. apply X1.
  - now apply (G9_step s).
  - now apply (G10_step s).
  - now apply (g_at_step s).
  - now apply (g_pass_step s).
  - now apply (g_now_step s).
  - now apply (g_slp_step s).
Qed.
