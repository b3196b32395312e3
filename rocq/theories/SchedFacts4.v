(** Proofs about the scheduler: fiber objects, join and termination. *)
From Coq Require Import List Arith Bool Lia.
From Verif Require Import Base Sched SchedFacts SchedFacts2 SchedFacts3.
Import ListNotations.

(** The fiber object and the fiber that a context is joining. *)
Definition jref (p : pc) : option (nat * ctx) := match p with PJoin h c | PRel h c | PSusp _ (WJoin h c) => Some (h, c) | _ => None end.

Record G2 (s : state) : Prop := {
  h_wk : forall h c, hn s h = Some c -> (exists n, c = Wk n) /\ pcc (cx s c) <> PNone;
  h_inj : forall h h' c, hn s h = Some c -> hn s h' = Some c -> h = h';
  h_ref : forall g h c, jref (pcc (cx s g)) = Some (h, c) -> hn s h = Some c /\ hb s h = true /\ c <> g;
  h_one : forall g g' h c c', jref (pcc (cx s g)) = Some (h, c) -> jref (pcc (cx s g')) = Some (h, c') -> g = g';
  h_hb : forall h, hb s h = true -> exists g c, jref (pcc (cx s g)) = Some (h, c)
}.

Ltac trd T :=
  destruct T as [d Q|t a h ev Ea Ep Eb Ev Q|t a p ev Ea M Q|t a n h c Ea Ep Ec En Eh Eb Q|t a n h c Ea Ep Ec En Eh Eb Q
    |t a x rdy sl ev c r Ea Po Er Ef Q|t a e Ea Ep Ee Q|t a g e k x sl ev Ea Pw Ee Q|t a g e k x sl ev Ea Pw Eg Ee Eh Q|t a g e k x sl ev Ea Pw Eg Ee Eh Q
    |t a g k u ev Ea Ep Eu Eg Ev Q|t a u k Ea Ep Eg Q|t a h c Ea Ep Eb Eh Ec Q|t a h c e d r Ea Ep Ef El Et Ee Er Ed Q|t a h c z ev Ea Ep Pz Q
    |t a h c z ev Ea Ep Eb Eh Pz Q|t a h1 h2 Ea Ep E1 E2 E3 E4 Q|t u Ea Ep Q|t a Ea Ep El Q|t a Ea Ep Ew Eu El Q|t a z ev Ea Ep E1 E2 E3 Pz Q|t Ea Ep Es Q
    |t c r z ev Ea Ep Et Em Pz Q|t Ea Ep Q|t c r Ea Ep Et Q|t o Ea Ep Ef Q|t Ea Ep Et Q]; destruct Q as [Qc Qt Qh Qb Qk Ql]; cbv zeta in Qc.

Lemma G2_frame s s' : G2 s -> (forall h, hn s' h = hn s h) -> (forall h, hb s' h = hb s h) -> (forall c, jref (pcc (cx s' c)) = jref (pcc (cx s c))) ->
  (forall c, pcc (cx s' c) = PNone -> pcc (cx s c) = PNone) -> G2 s'.
Proof.
  intros G H1 H2 H3 H4. constructor.
  - intros h c. rewrite H1. intros H. destruct (h_wk _ G _ _ H) as [X Y]. split; auto.
  - intros h h' c. rewrite !H1. apply G.
  - intros g h c. rewrite H1, H2, H3. apply G.
  - intros g g' h c c'. rewrite !H3. apply G.
  - intros h. rewrite H2. intros H. destruct (h_hb _ G _ H) as (g & c & X). exists g, c. now rewrite H3.
Qed.
Lemma pmove_jref s t a p ev : pmove s t a p ev -> jref p = jref (pcc (cx s a)) /\ p <> PNone.
Proof. intros H. destruct H; rewrite H; simpl; split; auto; try discriminate. Qed.
Lemma pout_jref s t a x rdy sl ev : pout s t a x rdy sl ev -> jref (pcc (cx s a)) = None /\ jref (pcc x) = None /\ pcc x <> PNone.
Proof. intros H. destruct H; rewrite H; simpl; splits; auto; try discriminate. Qed.


Ltac fr2 G Qc := apply (G2_frame _ _ G); auto; intros; rewrite ?Qc in *; cupds; simpl in *; auto; try congruence; try discriminate.

Lemma G2_new s s' h c a : G2 s -> pcc (cx s c) = PNone -> (exists n, c = Wk n) -> hn s h = None -> hb s h = false -> c <> a -> jref (pcc (cx s a)) = None ->
  (forall d, d <> c -> d <> a -> pcc (cx s' d) = pcc (cx s d)) -> pcc (cx s' c) = PNew -> jref (pcc (cx s' a)) = None -> pcc (cx s' a) <> PNone ->
  (forall h', hn s' h' = upd (hn s) h (Some c) h') -> (forall h', hb s' h' = upd (hb s) h false h') -> G2 s'.
Proof.
  intros G Hn Hw Hh Hb Na Ja Hd Hc Ha Ha2 H1 H2.
  assert (J : forall d, jref (pcc (cx s' d)) = jref (pcc (cx s d))).
  { intros d. destruct (ctx_dec d c) as [->|N1]; [rewrite Hc, Hn; auto|]. destruct (ctx_dec d a) as [->|N2]; [congruence|]. now rewrite Hd. }
  constructor.
  - intros h' d. rewrite H1. tupds.
    + intros E. injection E as <-. split; auto. congruence.
    + intros H. destruct (h_wk _ G _ _ H) as [X Y]. split; auto. destruct (ctx_dec d c) as [->|N1]; [congruence|]. destruct (ctx_dec d a) as [->|N2]; auto. now rewrite Hd.
  - intros h1 h2 d. rewrite !H1. tupds; auto.
    + intros E H. injection E as <-. destruct (h_wk _ G _ _ H). contradiction.
    + intros H E. injection E as <-. destruct (h_wk _ G _ _ H). contradiction.
    + apply G.
  - intros g h' d. rewrite J, H1, H2. intros H. destruct (h_ref _ G _ _ _ H) as (X & Y & Z). tupds; auto. congruence.
  - intros g g' h' d d'. rewrite !J. apply G.
  - intros h'. rewrite H2. tupds; [discriminate|]. intros H. destruct (h_hb _ G _ H) as (g & d & X). exists g, d. now rewrite J.
Qed.

Lemma G2_drop s s' h : G2 s -> (forall g c, jref (pcc (cx s' g)) = Some (h, c) -> False) ->
  (forall g, jref (pcc (cx s' g)) = jref (pcc (cx s g)) \/ (jref (pcc (cx s' g)) = None /\ exists c, jref (pcc (cx s g)) = Some (h, c))) -> 
  (forall c, pcc (cx s' c) = PNone -> pcc (cx s c) = PNone) ->
  (forall h', hn s' h' = upd (hn s) h None h') -> (forall h', hb s' h' = upd (hb s) h false h') -> G2 s'.
Proof.
  intros G Hj J Hn H1 H2. constructor.
  - intros h' d. rewrite H1. tupds; [discriminate|]. intros H. destruct (h_wk _ G _ _ H) as [X Y]. split; auto.
  - intros x y d. rewrite !H1. tupds; try discriminate. apply G.
  - intros g h' d H. destruct (Nat.eq_dec h' h) as [->|N]; [exfalso; eauto|]. destruct (J g) as [E|[E _]]; [|congruence]. rewrite E in H. rewrite H1, H2. tupds. now apply G.
  - intros g g' h' d d' X Y. destruct (J g) as [E|[E _]]; [|congruence]. destruct (J g') as [E'|[E' _]]; [|congruence]. rewrite E, E' in *. eapply h_one; eauto.
  - intros h'. rewrite H2. tupds; [discriminate|]. intros H. destruct (h_hb _ G _ H) as (g & d & X). exists g, d. destruct (J g) as [->|[_ [c E]]]; auto. congruence.
Qed.

Theorem G2_step s s' : G2 s -> tr s s' -> G2 s'.
Proof.
  intros G T. trd T.
  - fr2 G Qc.
  - fr2 G Qc.
  - destruct (pmove_jref _ _ _ _ _ M). fr2 G Qc.
  - apply (G2_new s s' h c a); eauto; intros; rewrite ?Qc; cupds; simpl; rewrite ?Ep; auto; congruence.
  - assert (c <> a) by congruence. apply (G2_new s s' h c a); eauto; intros; rewrite ?Qc; cupds; simpl; rewrite ?Ep; auto; congruence.
  - destruct (pout_jref _ _ _ _ _ _ _ Po) as (J1 & J2 & J3). fr2 G Qc.
  - fr2 G Qc. now rewrite Ep.
  - destruct (pwake_keep _ _ _ _ _ _ _ _ _ Pw) as (K1 & K2 & K3 & K4 & K5). fr2 G Qc.
  - destruct (pwake_keep _ _ _ _ _ _ _ _ _ Pw) as (K1 & K2 & K3 & K4 & K5). fr2 G Qc.
  - destruct (pwake_keep _ _ _ _ _ _ _ _ _ Pw) as (K1 & K2 & K3 & K4 & K5). fr2 G Qc. rewrite K5. now destruct k.
  - fr2 G Qc. now rewrite Ep.
  - fr2 G Qc; [rewrite Ep; now destruct k|]. destruct k; discriminate.
  - (* join called *) assert (J : forall d, d <> a -> pcc (cx s' d) = pcc (cx s d)) by (intros; rewrite Qc; cupds; auto).
    assert (Ja : pcc (cx s' a) = PJoin h c) by (rewrite Qc; cupds; auto). constructor.
    + intros h' d. rewrite Qh. intros H. destruct (h_wk _ G _ _ H) as [X Y]. split; auto. destruct (ctx_dec d a) as [->|N]; [congruence|now rewrite J].
    + intros x y d. rewrite !Qh. apply G.
    + intros g h' d H. rewrite Qh, Qb. destruct (ctx_dec g a) as [->|N].
      * rewrite Ja in H. simpl in H. injection H as <- <-. tupds. auto.
      * rewrite J in H by auto. destruct (h_ref _ G _ _ _ H) as (X & Y & Z). splits; auto. tupds; auto.
    + intros g g' h' d d'. destruct (ctx_dec g a) as [->|N], (ctx_dec g' a) as [->|N']; auto.
      * rewrite Ja, J by auto. simpl. intros E H. injection E as <- <-. destruct (h_ref _ G _ _ _ H) as (X & Y & Z). congruence.
      * rewrite Ja, J by auto. simpl. intros H E. injection E as <- <-. destruct (h_ref _ G _ _ _ H) as (X & Y & Z). congruence.
      * rewrite !J by auto. apply G.
    + intros h'. rewrite Qb. tupds; [intros _; exists a, c; now rewrite Ja|]. intros H. destruct (h_hb _ G _ H) as (g & d & X). exists g, d.
      destruct (ctx_dec g a) as [->|N]; [rewrite Ep in X; discriminate X|now rewrite J].
  - fr2 G Qc; cupds; simpl; auto; now rewrite Ep.
  - (* joined *) destruct (prel_keep _ _ _ _ _ Pz) as (K1 & _).
    assert (J : forall d, d <> a -> pcc (cx s' d) = pcc (cx s d)) by (intros; rewrite Qc; cupds; auto; rewrite K1; cupds; auto).
    assert (Ja : pcc (cx s' a) = PIdle) by (rewrite Qc; cupds; auto; rewrite K1; cupds; auto).
    apply (G2_drop s s' h); auto.
    + intros g d H. destruct (ctx_dec g a) as [->|N]; [rewrite Ja in H; discriminate H|]. rewrite J in H by auto. apply N. eapply (h_one _ G); [eauto|rewrite Ep; reflexivity].
    + intros g. destruct (ctx_dec g a) as [->|N]; [|left; now rewrite J]. right. rewrite Ja, Ep. simpl. eauto.
    + intros d. destruct (ctx_dec d a) as [->|N]; [congruence|now rewrite J].
  - destruct (prel_keep _ _ _ _ _ Pz) as (K1 & _).
    assert (J : forall d, pcc (cx s' d) = pcc (cx s d)) by (intros; rewrite Qc; cupds; auto).
    apply (G2_drop s s' h); auto.
    + intros g d H. rewrite J in H. destruct (h_ref _ G _ _ _ H) as (_ & X & _). congruence.
    + intros g. left. now rewrite J.
    + intros d. now rewrite J.
  - (* moved *) assert (J : forall d, pcc (cx s' d) = pcc (cx s d)) by (intros; rewrite Qc; auto). constructor.
    + intros h' d. rewrite Qh, J. tupds; try discriminate; apply G.
    + intros x y d. rewrite !Qh. tupds; try discriminate; auto; intros; try (now apply (h_inj _ G _ _ _ H H0)); exfalso; pose proof (h_inj _ G _ _ _ H H0); congruence.
    + intros g h' d. rewrite J, Qh, Qb. intros H. destruct (h_ref _ G _ _ _ H) as (X & Y & Z). tupds; auto; congruence.
    + intros g g' h' d d'. rewrite !J. apply G.
    + intros h'. rewrite Qb. tupds; try discriminate. intros H. destruct (h_hb _ G _ H) as (g & d & X). exists g, d. now rewrite J.
  - fr2 G Qc. now rewrite Ep.
  - fr2 G Qc. now rewrite Ep.
  - fr2 G Qc. now rewrite Ep.
  - destruct (prel_keep _ _ _ _ _ Pz) as (K1 & _). fr2 G Qc; now rewrite Ep.
  - fr2 G Qc; destruct (wkr (th s t)); rewrite ?Ep; auto; discriminate.
  - destruct (prel_keep _ _ _ _ _ Pz) as (K1 & _). fr2 G Qc.
  - fr2 G Qc. now rewrite Ep.
  - fr2 G Qc.
  - fr2 G Qc. now rewrite Ep.
  - fr2 G Qc. now rewrite Ep.
Qed.

(** ** Joining fibers *)
Definition interm (p : pc) : bool := match p with PTerm | PPush _ KTerm | PNote _ KTerm => true | _ => false end.
Definition hasleft (p : pc) : bool := match p with PLeave | PDead => true | _ => false end.
(** Waiting in the wait queue of a fiber that has not woken it: epoch, fiber object, fiber. *)
Definition jw (x : cst) : option (nat * nat * ctx) := match pcc x with PSusp e (WJoin h c) => if Nat.eqb (ep x) e then Some (e, h, c) else None | _ => None end.
Definition ok (x : cst) : Prop :=
  (lkd x = true <-> interm (pcc x) = true) /\ (term x = true <-> interm (pcc x) = true \/ hasleft (pcc x) = true) /\ (hasleft (pcc x) = true -> wtq x = []).

Record G3 (s : state) : Prop := {
  j_in : forall c g e, In (g, e) (wtq (cx s c)) <-> exists h, jw (cx s g) = Some (e, h, c);
  j_nd : forall c, NoDup (wtq (cx s c));
  j_ok : forall c, ok (cx s c)
}.
Lemma jw_some x e h c : jw x = Some (e, h, c) <-> pcc x = PSusp e (WJoin h c) /\ ep x = e.
Proof.
  unfold jw. split.
  - destruct (pcc x); try discriminate. destruct w; try discriminate. destruct (Nat.eqb_spec (ep x) e0); [|discriminate]. intros E. injection E as <- <- <-. auto.
  - intros [-> ->]. now rewrite Nat.eqb_refl.
Qed.
Lemma G3_frame s s' : G3 s -> (forall c, wtq (cx s' c) = wtq (cx s c)) -> (forall c, jw (cx s' c) = jw (cx s c)) -> (forall c, ok (cx s' c)) -> G3 s'.
Proof.
  intros G H1 H2 H3. constructor; auto.
  - intros c g e. rewrite H1, H2. apply G.
  - intros c. rewrite H1. apply G.
Qed.
Lemma G3_none s c : G2 s -> G3 s -> pcc (cx s c) = PNone -> wtq (cx s c) = [].
Proof.
  intros H G E. destruct (wtq (cx s c)) as [|[g e] q] eqn:Eq; auto. exfalso. destruct (proj1 (j_in _ G c g e)) as [h X]; [rewrite Eq; now left|].
  apply jw_some in X. destruct X as [X _]. destruct (h_ref _ H g h c) as (Y & _); [now rewrite X|]. apply (h_wk _ H) in Y. tauto.
Qed.
Lemma jw_act s t : IAs s -> jw (cx s (act (th s t))) = None.
Proof.
  intros I. destruct (jw (cx s (act (th s t)))) as [[[e h] c]|] eqn:E; auto. apply jw_some in E. destruct E as [E1 E2]. apply act_susp in E1; auto. lia.
Qed.
Lemma jw_bumped s g : IAs s -> jw (c_ep (cx s g) (S (ep (cx s g)))) = None.
Proof.
  intros [L I]. destruct (jw (c_ep (cx s g) (S (ep (cx s g))))) as [[[e h] c]|] eqn:E; auto. exfalso. apply jw_some in E. destruct E as [E1 E2]. simpl in *.
  pose proof (a_pc _ _ _ I g) as P. unfold pcok in P. simpl in P. rewrite E1 in P. lia.
Qed.
Lemma jw_no x : jref (pcc x) = None -> jw x = None.
Proof. unfold jref, jw. destruct (pcc x); auto. destruct w; auto. discriminate. Qed.
Lemma pmove_ok s t a p ev : pmove s t a p ev -> interm p = interm (pcc (cx s a)) /\ hasleft p = hasleft (pcc (cx s a)) /\ (forall x, pcc x = p -> jw x = None).
Proof. intros H. destruct H; rewrite H; simpl; splits; auto; intros x E; unfold jw; rewrite E; auto. Qed.
Lemma pout_ok s t a x rdy sl ev : pout s t a x rdy sl ev -> interm (pcc x) = interm (pcc (cx s a)) /\ hasleft (pcc x) = hasleft (pcc (cx s a)) /\ jw x = None /\
  wtq x = wtq (cx s a) /\ lkd x = lkd (cx s a) /\ term x = term (cx s a).
Proof. intros H. destruct H; rewrite H; simpl; splits; auto. Qed.
Lemma ok_same x y : ok x -> lkd y = lkd x -> term y = term x -> interm (pcc y) = interm (pcc x) -> hasleft (pcc y) = hasleft (pcc x) -> wtq y = wtq x -> ok y.
Proof. unfold ok. intros H -> -> -> -> ->. exact H. Qed.

(** A context that is woken with success was waiting. *)
Lemma wake_waits s t a g e k x sl ev : IAs s -> G1 s -> G3 s -> pwake s t a g e k x sl ev -> ep (cx s g) = e ->
  (k = KTerm /\ exists h, pcc (cx s g) = PSusp e (WJoin h a)) \/ (jw (cx s g) = None /\ k <> KTerm /\ (waits_on (pcc (cx s g)) e \/ exists tp, pcc (cx s g) = PSusp e (WSleep tp))).
Proof.
  intros [L I] G H Pw Ee. destruct Pw as [E1 E2 E3|q E1 E2 E3|nw tp r E1 E2 E3].
  - right. destruct (a_iss _ _ _ I g e E2) as [_ Z]. simpl in Z. specialize (Z (eq_sym Ee)). splits; auto; [|discriminate].
    unfold jw. destruct Z as [->|[->|[tp ->]]]; auto.
  - left. split; auto. destruct (proj1 (j_in _ H a g e)) as [h X]; [rewrite E2; now left|]. apply jw_some in X. exists h. tauto.
  - right. destruct (b_slp _ G t tp g e) as (_ & (y & Z & D) & _); [rewrite E2; now left|]. unfold jw, waits_on. rewrite Z. destruct y; try discriminate D; splits; eauto; discriminate.
Qed.

Lemma G3_wake s s' a g e : G3 s -> a <> g -> (forall c, c <> a -> wtq (cx s' c) = wtq (cx s c)) -> (forall c, c <> g -> jw (cx s' c) = jw (cx s c)) -> jw (cx s' g) = None ->
  (forall c, ok (cx s' c)) ->
  (exists h q, jw (cx s g) = Some (e, h, a) /\ wtq (cx s a) = (g, e) :: q /\ wtq (cx s' a) = q) \/ (jw (cx s g) = None /\ wtq (cx s' a) = wtq (cx s a)) -> G3 s'.
Proof.
  intros G N Hw Hj Hg Ho [(h & q & Jg & W1 & W2)|[Jg W1]].
  - pose proof (j_nd _ G a) as ND. rewrite W1 in ND. inversion ND as [|z l Nq NDq Ez]; subst z l. constructor; auto.
    + intros c g' e'. assert (R : In (g', e') (wtq (cx s c)) <-> exists h, jw (cx s g') = Some (e', h, c)) by apply G.
      destruct (ctx_dec g' g) as [->|N1].
      * rewrite Hg. split; [|intros [h' E]; discriminate E]. intros Hi. exfalso.
        assert (Hi' : In (g, e') (wtq (cx s c))) by (destruct (ctx_dec c a) as [->|N2]; [rewrite W1; rewrite W2 in Hi; now right|now rewrite <- Hw]).
        apply R in Hi'. destruct Hi' as [h' E]. rewrite Jg in E. injection E as <- _ <-. rewrite W2 in Hi. contradiction.
      * rewrite Hj by auto. rewrite <- R. destruct (ctx_dec c a) as [->|N2]; [|now rewrite Hw]. rewrite W2, W1. simpl. intuition congruence.
    + intros c. destruct (ctx_dec c a) as [->|N2]; [now rewrite W2|]. rewrite Hw by auto. apply G.
  - apply (G3_frame s); auto.
    + intros c. destruct (ctx_dec c a) as [->|N2]; auto.
    + intros c. destruct (ctx_dec c g) as [->|N2]; auto. congruence.
Qed.

Ltac fr3 G Qc := apply (G3_frame _ _ G); auto; intros; rewrite ?Qc in *; cupds; simpl in *; auto; try congruence; try discriminate.

Theorem G3_step s s' : IAs s -> G1 s -> G2 s -> G3 s -> tr s s' -> G3 s'.
Proof.
  intros I B H G T. pose proof (j_ok _ G) as OK. pose proof (jw_act s) as JA. trd T.
  - fr3 G Qc.
  - fr3 G Qc.
  - destruct (pmove_ok _ _ _ _ _ M) as (X1 & X2 & X3). fr3 G Qc.
    + rewrite X3; auto. subst a. now rewrite JA.
    + apply (ok_same (cx s a)); [apply OK|..]; simpl; auto.
  - pose proof (G3_none _ _ H G En) as Ew. fr3 G Qc.
    + unfold jw. simpl. now rewrite En.
    + unfold ok. simpl. splits; auto; intuition discriminate.
  - assert (Nc : c <> a) by congruence. pose proof (G3_none _ _ H G En) as Ew. fr3 G Qc.
    + unfold jw. simpl. now rewrite Ep.
    + unfold jw. simpl. now rewrite En.
    + apply (ok_same (cx s a)); [apply OK|..]; simpl; auto; now rewrite Ep.
    + unfold ok. simpl. splits; auto; intuition discriminate.
  - destruct (pout_ok _ _ _ _ _ _ _ Po) as (X1 & X2 & X3 & X4 & X5 & X6). fr3 G Qc.
    + subst a. now rewrite JA.
    + apply (ok_same (cx s a)); [apply OK|..]; simpl; auto.
  - fr3 G Qc.
    + unfold jw. simpl. now rewrite Ep.
    + apply (ok_same (cx s a)); [apply OK|..]; simpl; auto; now rewrite Ep.
  - (* missed *) destruct (pwake_keep _ _ _ _ _ _ _ _ _ Pw) as (K1 & K2 & K3 & K4 & K5).
    assert (X : x = cx s a).
    { destruct Pw as [E1 E2 E3|q E1 E2 E3|nw tp r E1 E2 E3]; auto. exfalso. destruct (proj1 (j_in _ G a g e)) as [h X]; [rewrite E2; now left|]. apply jw_some in X. 
      destruct (ctx_eqb_spec g a); simpl in *; intuition congruence. }
    subst x. fr3 G Qc.
  - (* woken here *) assert (PX : lkd x = lkd (cx s a) /\ term x = term (cx s a)) by (destruct Pw; auto). destruct PX as [PX1 PX2].
    destruct (pwake_keep _ _ _ _ _ _ _ _ _ Pw) as (K1 & K2 & K3 & K4 & K5).
    assert (Ja : jw x = jw (cx s a)) by (unfold jw; now rewrite K1, K2).
    assert (Jg : jw (c_ep (cx s g) (S e)) = None) by (rewrite <- Ee; now apply jw_bumped).
    assert (Wx : wtq x = [] \/ hasleft (pcc (cx s a)) = false) by (right; rewrite K5; now destruct k).
    assert (Wg : (exists h q, jw (cx s g) = Some (e, h, a) /\ wtq (cx s a) = (g, e) :: q /\ wtq x = q) \/ (jw (cx s g) = None /\ wtq x = wtq (cx s a))).
    { destruct (wake_waits _ _ _ _ _ _ _ _ _ I B G Pw Ee) as [[-> [h Hg]]|(Hj & Hk & Hw)].
      - left. inversion Pw as [|q E1 E2 E3|]; subst. exists h, q. splits; auto. apply jw_some; auto.
      - right. split; auto. destruct Pw; auto. congruence. }
    apply (G3_wake s s' a g e); auto; intros; rewrite ?Qc; cupds; auto.
    + apply (ok_same (cx s g)); auto.
    + destruct (OK a) as (O1 & O2 & O3). unfold ok. rewrite PX1, PX2, K1. splits; auto. intros Hl. destruct Wx as [Wx|Wx]; congruence.
  - (* woken there *) assert (PX : lkd x = lkd (cx s a) /\ term x = term (cx s a)) by (destruct Pw; auto). destruct PX as [PX1 PX2].
    destruct (pwake_keep _ _ _ _ _ _ _ _ _ Pw) as (K1 & K2 & K3 & K4 & K5).
    assert (Ja : jw (cx s a) = None) by (subst a; apply JA; auto).
    assert (Jg : jw (c_ep (cx s g) (S e)) = None) by (rewrite <- Ee; now apply jw_bumped).
    assert (Wg : (exists h q, jw (cx s g) = Some (e, h, a) /\ wtq (cx s a) = (g, e) :: q /\ wtq x = q) \/ (jw (cx s g) = None /\ wtq x = wtq (cx s a))).
    { destruct (wake_waits _ _ _ _ _ _ _ _ _ I B G Pw Ee) as [[-> [h Hg]]|(Hj & Hk & Hw)].
      - left. inversion Pw as [|q E1 E2 E3|]; subst. exists h, q. splits; auto. apply jw_some; auto.
      - right. split; auto. destruct Pw; auto. congruence. }
    apply (G3_wake s s' a g e); auto; intros; rewrite ?Qc; cupds; auto.
    + apply (ok_same (cx s g)); auto.
    + destruct (OK a) as (O1 & O2 & O3). unfold ok. simpl. rewrite PX1, PX2, K5 in *. destruct k; simpl in *; splits; auto; try discriminate.
  - (* push *) fr3 G Qc.
    + unfold jw. simpl. now rewrite Ep.
    + apply (ok_same (cx s a)); [apply OK|..]; simpl; auto; simpl; rewrite Ep; now destruct k.
  - fr3 G Qc.
    + unfold jw. simpl. rewrite Ep. now destruct k.
    + apply (ok_same (cx s a)); [apply OK|..]; simpl; auto; simpl; rewrite Ep; now destruct k.
  - fr3 G Qc.
    + unfold jw. simpl. now rewrite Ep.
    + apply (ok_same (cx s a)); [apply OK|..]; simpl; auto; now rewrite Ep.
  - (* join blocks *) clear Qt Ql Er Ed d r. destruct (h_ref _ H a h c) as (R1 & R2 & R3); [now rewrite Ep|].
    assert (Xc : cx s' c = c_wtq (cx s c) (wtq (cx s c) ++ [(a, e)])) by (rewrite Qc; cupds; auto).
    assert (Xa : cx s' a = c_pc (c_ep (cx s a) e) (PSusp e (WJoin h c))) by (rewrite Qc; cupds; auto).
    assert (X : forall d, d <> c -> d <> a -> cx s' d = cx s d) by (intros; rewrite Qc; cupds; auto).
    assert (Ja : jw (cx s' a) = Some (e, h, c)) by (rewrite Xa; apply jw_some; auto).
    assert (Jo : forall d, d <> a -> jw (cx s' d) = jw (cx s d)) by (intros d N; destruct (ctx_dec d c) as [->|N2]; [rewrite Xc; reflexivity|now rewrite X]).
    assert (No : forall d e', ~ In (a, e') (wtq (cx s d))).
    { intros d e' Hi. apply (j_in _ G) in Hi. destruct Hi as [h' Hi]. subst a. rewrite JA in Hi by auto. discriminate Hi. }
    assert (Wo : forall d, d <> c -> wtq (cx s' d) = wtq (cx s d)) by (intros d N; destruct (ctx_dec d a) as [->|N2]; [rewrite Xa; reflexivity|now rewrite X]).
    assert (Wc : wtq (cx s' c) = wtq (cx s c) ++ [(a, e)]) by (now rewrite Xc).
    constructor.
    + intros d g' e'. assert (R : In (g', e') (wtq (cx s d)) <-> exists h, jw (cx s g') = Some (e', h, d)) by apply G.
      destruct (ctx_dec g' a) as [->|N1].
      * rewrite Ja. destruct (ctx_dec d c) as [->|N2].
        -- rewrite Wc, in_app_iff. simpl. split; [intros [Hi|[E|[]]]; [exfalso; eapply No; eauto|injection E as <-; eauto]|]. intros [h' E]. injection E as <- _. auto.
        -- rewrite Wo by auto. split; [intros Hi; exfalso; eapply No; eauto|]. intros [h' E]. injection E as _ _ E. congruence.
      * rewrite Jo by auto. rewrite <- R. destruct (ctx_dec d c) as [->|N2]; [|now rewrite Wo]. rewrite Wc, in_app_iff. simpl. intuition congruence.
    + intros d. destruct (ctx_dec d c) as [->|N2]; [|rewrite Wo by auto; apply G]. rewrite Wc. apply nodup_app_one; [apply G|]. apply No.
    + intros d. destruct (ctx_dec d c) as [->|N2].
      * rewrite Xc. destruct (OK c) as (O1 & O2 & O3). unfold ok. simpl. splits; auto. intros Hl. exfalso. rewrite Et in O2. intuition discriminate.
      * destruct (ctx_dec d a) as [->|N3]; [|now rewrite X]. rewrite Xa. apply (ok_same (cx s a)); [apply OK|..]; simpl; auto; now rewrite Ep.
  - (* joined *) destruct (prel_keep _ _ _ _ _ Pz) as (K1 & K2 & K3 & K4 & K5 & K6 & K7).
    destruct (h_ref _ H a h c) as (R1 & R2 & R3); [now rewrite Ep|]. cupds. fr3 G Qc.
    + unfold jw. now rewrite K1, K2.
    + unfold jw. simpl. now rewrite Ep.
    + apply (ok_same (cx s c)); [apply OK|congruence..].
    + apply (ok_same (cx s a)); [apply OK|..]; simpl; auto; now rewrite Ep.
  - destruct (prel_keep _ _ _ _ _ Pz) as (K1 & K2 & K3 & K4 & K5 & K6 & K7). fr3 G Qc.
    + unfold jw. now rewrite K1, K2.
    + apply (ok_same (cx s c)); [apply OK|congruence..].
  - fr3 G Qc.
  - fr3 G Qc.
    + unfold jw. simpl. now rewrite Ep.
    + apply (ok_same (cx s (Mn u))); [apply OK|..]; simpl; auto; now rewrite Ep.
  - fr3 G Qc.
    + unfold jw. simpl. now rewrite Ep.
    + unfold ok. simpl. splits; auto; intuition discriminate.
  - fr3 G Qc.
    + unfold jw. simpl. now rewrite Ep.
    + unfold ok. simpl. splits; auto; intuition discriminate.
  - destruct (prel_keep _ _ _ _ _ Pz) as (K1 & K2 & K3 & K4 & K5 & K6 & K7).
    assert (Na : a <> Dp t).
    { intros E. destruct I as [L I]. pose proof (a_kind _ _ _ I a) as X. simpl in X. rewrite Ep in X. rewrite E in X. exact X. }
    cupds. fr3 G Qc.
    + unfold jw. simpl. now rewrite Ep.
    + unfold jw. now rewrite K1, K2.
    + apply (ok_same (cx s a)); [apply OK|..]; simpl; auto; now rewrite Ep.
    + apply (ok_same (cx s (Dp t))); [apply OK|congruence..].
  - fr3 G Qc.
    + unfold jw. simpl. rewrite Ep. now destruct (wkr (th s t)).
    + apply (ok_same (cx s (Dp t))); [apply OK|..]; simpl; auto; simpl; rewrite Ep; now destruct (wkr (th s t)).
  - destruct (prel_keep _ _ _ _ _ Pz) as (K1 & K2 & K3 & K4 & K5 & K6 & K7). fr3 G Qc.
    + unfold jw. now rewrite K1, K2.
    + apply (ok_same (cx s c)); [apply OK|congruence..].
  - fr3 G Qc.
    + unfold jw. simpl. now rewrite Ep.
    + apply (ok_same (cx s (Dp t))); [apply OK|..]; simpl; auto; now rewrite Ep.
  - fr3 G Qc.
  - fr3 G Qc.
    + unfold jw. simpl. now rewrite Ep.
    + apply (ok_same (cx s (Dp t))); [apply OK|..]; simpl; auto; now rewrite Ep.
  - fr3 G Qc.
    + unfold jw. simpl. now rewrite Ep.
    + apply (ok_same (cx s (Dp t))); [apply OK|..]; simpl; auto; now rewrite Ep.
Qed.
