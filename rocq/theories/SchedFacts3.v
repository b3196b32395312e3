(** Proofs about the scheduler: the sleep queue. *)
From Coq Require Import List Arith Bool Lia.
From Verif Require Import Base Sched SchedFacts SchedFacts2.
Import ListNotations.

(** Woken from another thread, not yet in the ready queue. *)
Definition flying (s : state) (c : ctx) : Prop :=
  (exists a k, pcc (cx s a) = PPush c k) \/ In c (rrq (th s (home (cx s c)))) \/ In c (tmp (th s (home (cx s c)))).
Definition dl (w : why) : option nat := match w with WTimed tp | WSleep tp => Some tp | _ => None end.
Definition sctx (x : nat * ctx * nat) : ctx := snd (fst x).
Fixpoint sorted (l : list (nat * ctx * nat)) : Prop :=
  match l with [] => True | x :: l' => (forall y, In y l' -> fst (fst x) <= fst (fst y)) /\ sorted l' end.

Record G1 (s : state) : Prop := {
  b_slp : forall t tp c e, In (tp, c, e) (slp (th s t)) ->
    home (cx s c) = t /\ (exists y, pcc (cx s c) = PSusp e y /\ dl y = Some tp) /\ (ep (cx s c) = e \/ (ep (cx s c) = S e /\ flying s c));
  b_cv : forall c e y tp, pcc (cx s c) = PSusp e y -> dl y = Some tp -> ep (cx s c) = e -> In (tp, c, e) (slp (th s (home (cx s c))));
  b_nd : forall t, NoDup (map sctx (slp (th s t)));
  b_sort : forall t, sorted (slp (th s t))
}.

Definition IAs (s : state) : Prop := exists L, IA (V s) (W s) L.

(** Facts about the queues of sleepers *)
Lemma sinsert_In x y l : In y (sinsert x l) <-> y = x \/ In y l.
Proof.
  induction l as [|z l IH]; simpl; [intuition|]. destruct (Nat.ltb (fst (fst x)) (fst (fst z))); simpl; rewrite ?IH; intuition.
Qed.
Lemma sinsert_sorted x l : sorted l -> sorted (sinsert x l).
Proof.
  induction l as [|z l IH]; simpl; [intros _; split; auto; intros y []|]. intros [H1 H2]. destruct (Nat.ltb_spec (fst (fst x)) (fst (fst z))); simpl.
  - splits; auto. intros y [<-|Hy]; [lia|]. specialize (H1 _ Hy). lia.
  - split; auto. intros y Hy. apply sinsert_In in Hy. destruct Hy as [->|Hy]; auto.
Qed.
Lemma sinsert_nodup x l : NoDup (map sctx l) -> ~ In (sctx x) (map sctx l) -> NoDup (map sctx (sinsert x l)).
Proof.
  induction l as [|z l IH]; simpl; intros H N; [repeat constructor; auto|]. inversion H; subst. destruct (Nat.ltb (fst (fst x)) (fst (fst z))); simpl.
  - constructor; auto.
  - constructor.
    + rewrite in_map_iff. intros (y & E & Hy). apply sinsert_In in Hy. destruct Hy as [->|Hy]; [intuition congruence|]. apply H2. rewrite <- E. now apply in_map.
    + apply IH; auto.
Qed.
Lemma sremove_In c x l : In x (sremove c l) <-> In x l /\ sctx x <> c.
Proof. unfold sremove. rewrite filter_In. fold (sctx x). destruct (ctx_eqb_spec c (sctx x)); simpl; intuition congruence. Qed.
Lemma sremove_nodup c l : NoDup (map sctx l) -> NoDup (map sctx (sremove c l)).
Proof.
  induction l as [|z l IH]; simpl; intros H; [constructor|]. inversion H; subst. destruct (negb _); simpl; auto. constructor; auto.
  rewrite in_map_iff. intros (y & E & Hy). apply sremove_In in Hy. apply H2. rewrite <- E. apply in_map. tauto.
Qed.
Lemma sremove_sorted c l : sorted l -> sorted (sremove c l).
Proof.
  induction l as [|z l IH]; simpl; auto. intros [H1 H2]. destruct (negb _); simpl; auto. split; auto. intros y Hy. apply sremove_In in Hy. apply H1. tauto.
Qed.
Lemma smem_In c l : smem c l = true <-> In c (map sctx l).
Proof.
  unfold smem. rewrite existsb_exists, in_map_iff. split.
  - intros (x & H & E). fold (sctx x) in E. destruct (ctx_eqb_spec c (sctx x)); [exists x; auto|discriminate E].
  - intros (x & <- & H). exists x. split; auto. apply ctx_eqb_refl.
Qed.

(** Consequences of [IA] *)
Section Facts.
Variable s : state.
Hypothesis HI : IAs s.

Lemma act_home t : home (cx s (act (th s t))) = t.
Proof. destruct HI as [L I]. apply (a_act _ _ _ I t). Qed.
Lemma act_not_flying t : armed (pcc (cx s (act (th s t)))) = false -> ~ flying s (act (th s t)).
Proof.
  destruct HI as [L I]. intros N [(b & k & H)|[H|H]].
  - pose proof (proj1 (a_fly _ _ _ I b (act (th s t)))) as X. simpl in X. rewrite H in X. specialize (X eq_refl). destruct (a_act _ _ _ I t) as [_ [Y|Y]]; simpl in Y; congruence.
  - apply (a_rrq _ _ _ I) in H. destruct H as [X _]. destruct (a_act _ _ _ I t) as [_ [Y|Y]]; simpl in Y; congruence.
  - apply (a_tmp _ _ _ I) in H. destruct H as [X _]. destruct (a_act _ _ _ I t) as [_ [Y|Y]]; simpl in Y; congruence.
Qed.
Lemma act_susp t e y : pcc (cx s (act (th s t))) = PSusp e y -> ep (cx s (act (th s t))) = S e.
Proof.
  destruct HI as [L I]. intros H. pose proof (a_pc _ _ _ I (act (th s t))) as P. unfold pcok in P. simpl in P. rewrite H in P. destruct P as [[P1 P2]|[P1 P2]]; auto.
  destruct (a_act _ _ _ I t) as [_ [Y|Y]]; simpl in Y; [congruence|]. rewrite H in Y. discriminate Y.
Qed.
Lemma act_no_entry t u tp e : G1 s -> ~ In (tp, act (th s t), e) (slp (th s u)).
Proof.
  intros G H. destruct (b_slp _ G _ _ _ _ H) as (_ & (y & Hy & _) & [He|[_ Hf]]).
  - apply act_susp in Hy. lia.
  - apply act_not_flying in Hf; auto. now rewrite Hy.
Qed.
Lemma act_dom t u : home (cx s (act (th s t))) = home (cx s (act (th s u))) -> t = u.
Proof. rewrite !act_home. auto. Qed.
Lemma disp_home t : home (cx s (Dp t)) = t /\ home (cx s (Mn t)) = t.
Proof. destruct HI as [L I]. apply (a_home _ _ _ I t). Qed.
End Facts.

Lemma G1_frame s s' (D : ctx -> Prop) : G1 s ->
  (forall c, ~ D c -> pcc (cx s' c) = pcc (cx s c) /\ ep (cx s' c) = ep (cx s c) /\ home (cx s' c) = home (cx s c)) ->
  (forall c e y, D c -> pcc (cx s' c) = PSusp e y -> dl y <> None -> ep (cx s' c) <> e) ->
  (forall t x, In x (slp (th s' t)) <-> In x (slp (th s t)) /\ ~ D (sctx x)) ->
  (forall c, ~ D c -> flying s c -> flying s' c) ->
  (forall t, NoDup (map sctx (slp (th s' t)))) -> (forall t, sorted (slp (th s' t))) ->
  (forall c, D c \/ ~ D c) -> G1 s'.
Proof.
  intros G H1 H2 H3 H4 H5 H6 H7. constructor; auto.
  - intros t tp c e H. apply H3 in H. destruct H as [H N]. unfold sctx in N. simpl in N. destruct (H1 _ N) as (X1 & X2 & X3). rewrite X1, X2, X3.
    destruct (b_slp _ G _ _ _ _ H) as (Y1 & Y2 & [Y3|[Y3 Y4]]); splits; auto.
  - intros c e y tp Hp Hd He. destruct (H7 c) as [Dc|Dc].
    + exfalso. eapply H2; eauto. congruence.
    + destruct (H1 _ Dc) as (X1 & X2 & X3). rewrite X1, X2, X3 in *. apply H3. split; auto. eapply b_cv; eauto.
Qed.

(** Fields of the result of dropping a reference. *)
Lemma prel_keep s c z z' ev : prel s c z z' ev -> pcc z' = pcc z /\ ep z' = ep z /\ home z' = home z /\ iss z' = iss z /\ term z' = term z /\ lkd z' = lkd z /\ wtq z' = wtq z.
Proof. intros H. destruct H; simpl; auto 10. Qed.
Lemma pwake_keep s t a g e k x sl ev : pwake s t a g e k x sl ev -> pcc x = pcc (cx s a) /\ ep x = ep (cx s a) /\ home x = home (cx s a) /\ iss x = iss (cx s a) /\ pcc (cx s a) = kpc k.
Proof. intros H. destruct H; simpl; auto 10. Qed.
Lemma pwake_sl s t a g e k x sl ev : G1 s -> pwake s t a g e k x sl ev -> NoDup (map sctx sl) /\ sorted sl /\ (forall z, sctx z <> g -> (In z sl <-> In z (slp (th s t)))) /\ (forall z, In z sl -> In z (slp (th s t))).
Proof.
  intros G H. pose proof (b_nd _ G t) as N. pose proof (b_sort _ G t) as S. destruct H; auto 10.
  - splits; auto; tauto.
  - splits; auto; tauto.
  - rewrite H0 in *. simpl in *. inversion N; subst. destruct S as [_ S]. splits; auto. intros z Hz. split; auto. intros [<-|]; [|auto]. now unfold sctx in Hz.
Qed.
Lemma pout_home s t a x rdy sl ev : pout s t a x rdy sl ev -> home x = home (cx s a).
Proof. intros H. destruct H; auto. Qed.
Lemma pmove_pc s t a p ev : pmove s t a p ev -> pushing (pcc (cx s a)) = None /\ pushing p = None /\ armed (pcc (cx s a)) = false /\ armed p = false /\
  (forall e y, p = PSusp e y -> False).
Proof. intros H. destruct H; rewrite H; simpl; splits; auto; discriminate. Qed.

Lemma flying_mono s s' c : flying s c -> home (cx s' c) = home (cx s c) ->
  (forall a k, pcc (cx s a) = PPush c k -> (exists k', pcc (cx s' a) = PPush c k') \/ In c (rrq (th s' (home (cx s c))))) ->
  (In c (rrq (th s (home (cx s c)))) -> In c (rrq (th s' (home (cx s c)))) \/ In c (tmp (th s' (home (cx s c))))) ->
  (In c (tmp (th s (home (cx s c)))) -> In c (tmp (th s' (home (cx s c))))) -> flying s' c.
Proof.
  intros H Hh H1 H2 H3. unfold flying. rewrite Hh. destruct H as [(a & k & H)|[H|H]].
  - destruct (H1 _ _ H) as [[k' X]|X]; eauto.
  - destruct (H2 H); auto.
  - auto.
Qed.
(** Nothing about flying changes when only pcs outside of [PPush] change. *)
Lemma flying_same s s' (D : ctx -> Prop) : (forall c, ~ D c -> home (cx s' c) = home (cx s c)) -> (forall a c k, pcc (cx s a) = PPush c k -> exists k', pcc (cx s' a) = PPush c k') ->
  (forall t, rrq (th s' t) = rrq (th s t) /\ tmp (th s' t) = tmp (th s t)) -> forall c, ~ D c -> flying s c -> flying s' c.
Proof.
  intros H1 H2 H3 c N F. eapply flying_mono; eauto.
  - destruct (H3 (home (cx s c))) as [-> _]. auto.
  - destruct (H3 (home (cx s c))) as [_ ->]. auto.
Qed.

Lemma G1_pc s s' a t : IAs s -> G1 s -> a = act (th s t) ->
  (forall c, c <> a -> pcc (cx s' c) = pcc (cx s c) /\ ep (cx s' c) = ep (cx s c) /\ home (cx s' c) = home (cx s c)) ->
  home (cx s' a) = home (cx s a) ->
  pushing (pcc (cx s a)) = None -> (forall e y, pcc (cx s' a) = PSusp e y -> dl y = None) ->
  (forall t, rrq (th s' t) = rrq (th s t) /\ tmp (th s' t) = tmp (th s t)) ->
  (forall t, slp (th s' t) = slp (th s t) \/ slp (th s' t) = sremove a (slp (th s t))) -> G1 s'.
Proof.
  intros I G Ea H1 Hh Hp Hs Hr Hl. apply (G1_frame s s' (fun c => c = a)); auto.
  - intros c e y -> H N. exfalso. apply N. eauto.
  - intros u x. assert (X : In x (slp (th s u)) -> sctx x <> a) by (intros Hx E; destruct x as [[tp c] e]; unfold sctx in E; simpl in E; subst; eapply act_no_entry in Hx; eauto).
    destruct (Hl u) as [->| ->]; rewrite ?sremove_In; intuition.
  - apply (flying_same _ _ (fun c => c = a)); auto; intros c.
    + intros N. now apply H1.
    + intros d k H. destruct (ctx_dec c a) as [->|N]; [rewrite H in Hp; discriminate Hp|]. destruct (H1 _ N) as (-> & _). eauto.
  - intros u. destruct (Hl u) as [->| ->]; [|apply sremove_nodup]; apply G.
  - intros u. destruct (Hl u) as [->| ->]; [|apply sremove_sorted]; apply G.
  - intros c. destruct (ctx_dec c a); auto.
Qed.

Lemma G1_sleep s s' a t tp e y : IAs s -> G1 s -> a = act (th s t) -> pcc (cx s a) = PIdle -> dl y = Some tp ->
  (forall c, c <> a -> pcc (cx s' c) = pcc (cx s c) /\ ep (cx s' c) = ep (cx s c) /\ home (cx s' c) = home (cx s c)) ->
  home (cx s' a) = home (cx s a) -> pcc (cx s' a) = PSusp e y -> ep (cx s' a) = e ->
  (forall u, rrq (th s' u) = rrq (th s u) /\ tmp (th s' u) = tmp (th s u)) ->
  (forall u, slp (th s' u) = if Nat.eqb u t then sinsert (tp, a, e) (slp (th s t)) else slp (th s u)) -> G1 s'.
Proof.
  intros I G Ea Ep Hy H1 Hh Hp He Hr Hl. pose proof (act_home _ I t) as Ha. rewrite <- Ea in Ha.
  assert (N : forall u x, In x (slp (th s u)) -> sctx x <> a) by (intros u x Hx E; destruct x as [[tp0 d] e0]; unfold sctx in E; simpl in E; subst; eapply act_no_entry in Hx; eauto).
  assert (F : forall c, c <> a -> flying s c -> flying s' c).
  { apply (flying_same _ _ (fun c => c = a)); auto; intros c.
    - intros X. now apply H1.
    - intros d k H. destruct (ctx_dec c a) as [->|X]; [rewrite H in Ep; discriminate Ep|]. destruct (H1 _ X) as (-> & _). eauto. }
  constructor.
  - intros u tp0 c e0 Hi. assert (Hi' : (tp0, c, e0) = (tp, a, e) /\ u = t \/ In (tp0, c, e0) (slp (th s u))).
    { rewrite Hl in Hi. destruct (Nat.eqb_spec u t); auto. apply sinsert_In in Hi. subst u. tauto. }
    destruct Hi' as [[E ->]|Hi'].
    + injection E as -> -> ->. splits; eauto. congruence.
    + pose proof (N _ _ Hi') as X. unfold sctx in X. simpl in X. destruct (H1 _ X) as (X1 & X2 & X3). rewrite X1, X2, X3.
      destruct (b_slp _ G _ _ _ _ Hi') as (Y1 & Y2 & [Y3|[Y3 Y4]]); splits; auto.
  - intros c e0 y0 tp0 Hc Hd0 He0. rewrite Hl. destruct (ctx_dec c a) as [->|X].
    + rewrite Hh, Ha, Nat.eqb_refl. apply sinsert_In. left. rewrite Hp in Hc. injection Hc as <- <-. congruence.
    + destruct (H1 _ X) as (X1 & X2 & X3). rewrite X1, X2, X3 in *. pose proof (b_cv _ G _ _ _ _ Hc Hd0 He0) as Y. destruct (Nat.eqb_spec (home (cx s c)) t) as [E|E]; auto.
      apply sinsert_In. right. now rewrite <- E.
  - intros u. rewrite Hl. destruct (Nat.eqb_spec u t); [|apply G]. apply sinsert_nodup; [apply G|]. rewrite in_map_iff. intros (x & E & Hx). eapply N; eauto.
  - intros u. rewrite Hl. destruct (Nat.eqb_spec u t); [|apply G]. apply sinsert_sorted, G.
Qed.

Ltac rqs H := let Qc := fresh "Qc" in let Qt := fresh "Qt" in let Qh := fresh "Qh" in let Qb := fresh "Qb" in let Qk := fresh "Qk" in let Ql := fresh "Ql" in
  destruct H as [Qc Qt Qh Qb Qk Ql].

Theorem G1_step s s' : IAs s -> G1 s -> (forall c g e, In (g, e) (wtq (cx s c)) -> exists h, pcc (cx s g) = PSusp e (WJoin h c) /\ ep (cx s g) = e) -> tr s s' -> G1 s'.
Proof.
  intros I G HW T. destruct T as [d Q|t a h ev Ea Ep Eb Ev Q|t a p ev Ea M Q|t a n h c Ea Ep Ec En Eh Eb Q|t a n h c Ea Ep Ec En Eh Eb Q
    |t a x rdy sl ev c r Ea Po Er Ef Q|t a e Ea Ep Ee Q|t a g e k x sl ev Ea Pw Ee Q|t a g e k x sl ev Ea Pw Eg Ee Eh Q|t a g e k x sl ev Ea Pw Eg Ee Eh Q
    |t a g k u ev Ea Ep Eu Eg Ev Q|t a u k Ea Ep Eg Q|t a h c Ea Ep Eb Eh Ec Q|t a h c e d r Ea Ep Ef El Et Ee Er Ed Q|t a h c z ev Ea Ep Pz Q
    |t a h c z ev Ea Ep Eb Eh Pz Q|t a h1 h2 Ea Ep E1 E2 E3 E4 Q|t u Ea Ep Q|t a Ea Ep El Q|t a Ea Ep Ew Eu El Q|t a z ev Ea Ep E1 E2 E3 Pz Q|t Ea Ep Es Q
    |t c r z ev Ea Ep Et Em Pz Q|t Ea Ep Q|t c r Ea Ep Et Q|t o Ea Ep Ef Q|t Ea Ep Et Q]; rqs Q.
  - (* tick *) apply (G1_frame s s' (fun _ => False)); auto; intros; rewrite ?Qc, ?Qt; try tauto; try apply G; auto. 
    eapply (flying_same s s' (fun _ => False)); eauto; intros; rewrite ?Qc, ?Qt; eauto.
  - apply (G1_frame s s' (fun _ => False)); auto; intros; rewrite ?Qc, ?Qt; try tauto; try apply G; auto. 
    eapply (flying_same s s' (fun _ => False)); eauto; intros; rewrite ?Qc, ?Qt; eauto.
  - destruct (pmove_pc _ _ _ _ _ M) as (P1 & P2 & P3 & P4 & P5). eapply (G1_pc s s' a t); eauto; intros; rewrite ?Qc, ?Qt in *; cupds; simpl in *; auto. exfalso. eauto.
  - (* post *) apply (G1_frame s s' (fun d => d = c)); auto.
    + intros d N. rewrite Qc. cupds. auto.
    + intros d e y -> H. rewrite Qc in H. cupds. discriminate H.
    + intros u x. assert (X : In x (slp (th s u)) -> sctx x <> c).
      { intros Hx E. destruct x as [[tp d] e]. unfold sctx in E. simpl in E. rewrite E in Hx. destruct (b_slp _ G _ _ _ _ Hx) as (_ & (y & Hy & _) & _). congruence. }
      rewrite Qt. tupds; simpl; rewrite ?sremove_In; intuition.
    + apply flying_same; intros; rewrite ?Qc, ?Qt; cupds; tupds; simpl; eauto. congruence.
    + intros u. rewrite Qt. tupds; simpl; [apply sremove_nodup|]; apply G.
    + intros u. rewrite Qt. tupds; simpl; [apply sremove_sorted|]; apply G.
    + intros d. destruct (ctx_dec d c); auto.
  - (* dispatch *) apply (G1_frame s s' (fun d => d = c \/ d = a)); auto.
    + intros d N. rewrite Qc. assert (d <> c /\ d <> a) as [N1 N2] by tauto. cupds. auto.
    + intros d e y Dd H. rewrite Qc in H. destruct (ctx_dec d a) as [->|N]; [cupds; discriminate H|]. destruct Dd as [->|]; [|contradiction]. cupds. discriminate H.
    + intros u x. assert (X : In x (slp (th s u)) -> sctx x <> c).
      { intros Hx E. destruct x as [[tp d] e]. unfold sctx in E. simpl in E. rewrite E in Hx. destruct (b_slp _ G _ _ _ _ Hx) as (_ & (y & Hy & _) & _). congruence. }
      assert (Y : In x (slp (th s u)) -> sctx x <> a) by (intros Hx E; destruct x as [[tp d] e]; unfold sctx in E; simpl in E; subst; eapply act_no_entry in Hx; eauto).
      rewrite Qt. tupds; simpl; rewrite ?sremove_In; intuition.
    + apply flying_same; intros; rewrite ?Qc, ?Qt; cupds; tupds; simpl; eauto; try congruence. exfalso. tauto.
    + intros u. rewrite Qt. tupds; simpl; [apply sremove_nodup|]; apply G.
    + intros u. rewrite Qt. tupds; simpl; [apply sremove_sorted|]; apply G.
    + intros d. destruct (ctx_dec d c), (ctx_dec d a); auto; right; tauto.
  - (* out *) pose proof (pout_home _ _ _ _ _ _ _ Po) as Ho.
    destruct Po as [E1 E2|E1|tp e E1 E2 E3|tp e E1 E2 E3|e E1|E1|E1].
    3: { apply (G1_sleep s s' a t tp e (WTimed tp)); auto; intros; rewrite ?Qc, ?Qt; cupds; simpl; auto; tupds; simpl; auto.
         - rewrite Nat.eqb_refl. auto.
         - destruct (Nat.eqb_spec u t); congruence. }
    3: { apply (G1_sleep s s' a t tp e (WSleep tp)); auto; intros; rewrite ?Qc, ?Qt; cupds; simpl; auto; tupds; simpl; auto.
         - rewrite Nat.eqb_refl. auto.
         - destruct (Nat.eqb_spec u t); congruence. }
    all: eapply (G1_pc s s' a t); eauto; intros; rewrite ?Qc, ?Qt in *; cupds; tupds; simpl in *; auto; try discriminate; try (now rewrite E1).
    injection H as <- <-. auto.
  - eapply (G1_pc s s' a t); eauto; intros; rewrite ?Qc, ?Qt in *; cupds; simpl in *; auto; try discriminate. now rewrite Ep.
  - (* wake miss *) destruct (pwake_keep _ _ _ _ _ _ _ _ _ Pw) as (K1 & K2 & K3 & K4 & K5). destruct (pwake_sl _ _ _ _ _ _ _ _ _ G Pw) as (S1 & S2 & S3 & S4).
    assert (X : forall c, pcc (cx s' c) = pcc (cx s c) /\ ep (cx s' c) = ep (cx s c) /\ home (cx s' c) = home (cx s c)) by (intros c; rewrite Qc; cupds; auto).
    assert (Ee' : ep (cx s g) <> e) by (destruct (ctx_eqb_spec g a); congruence).
    assert (F : forall c, flying s c -> flying s' c).
    { intros c. apply (flying_same _ _ (fun _ => False)); auto; intros; [apply X|destruct (X a0) as (-> & _); eauto|]. rewrite Qt. tupds; auto. }
    assert (SL : sl = slp (th s t) \/ (exists tp, slp (th s t) = (tp, g, e) :: sl)) by (destruct Pw; eauto).
    apply (G1_frame s s' (fun c => c = g /\ exists tp, slp (th s t) = (tp, g, e) :: sl)); auto.
    + intros c e0 y [-> [tp Hsl]] H _. destruct (X g) as (X1 & X2 & _). rewrite X1, X2 in *. destruct (b_slp _ G t tp g e) as (_ & (y' & Y & _) & _); [rewrite Hsl; now left|]. congruence.
    + intros u z. rewrite Qt. tupds; simpl.
      * destruct SL as [->|[tp E]].
        -- split; [|tauto]. intros Hz. split; auto. intros [_ [tp E]]. pose proof (f_equal (@length _) E) as E'. simpl in E'. lia.
        -- pose proof (b_nd _ G t) as N. rewrite E in *. simpl. inversion N; subst. split.
           ++ intros Hz. split; auto. intros [Hg _]. apply H1. unfold sctx at 1. simpl. rewrite <- Hg. now apply in_map.
           ++ intros [[<-|Hz] Hn]; auto. exfalso. apply Hn. split; eauto.
      * split; [|tauto]. intros Hz. split; auto. intros [Hg [tp E]]. destruct (b_slp _ G t tp g e) as (Y1 & _); [rewrite E; now left|].
        destruct z as [[tp0 c0] e0]. unfold sctx in Hg. simpl in Hg. subst c0. destruct (b_slp _ G _ _ _ _ Hz) as (Y2 & _). congruence.
    + intros u. rewrite Qt. tupds; simpl; auto. apply G.
    + intros u. rewrite Qt. tupds; simpl; auto. apply G.
    + intros c. destruct (ctx_dec c g) as [->|N]; [|right; tauto]. destruct SL as [E|[tp E]]; [right|left; eauto]. intros [_ [tp E2]]. rewrite E2 in E. apply (f_equal (@length _)) in E. simpl in E. lia.
  - (* woken here *) destruct (pwake_keep _ _ _ _ _ _ _ _ _ Pw) as (K1 & K2 & K3 & K4 & K5). destruct (pwake_sl _ _ _ _ _ _ _ _ _ G Pw) as (S1 & S2 & S3 & S4).
    assert (X : forall c, c <> g -> pcc (cx s' c) = pcc (cx s c) /\ ep (cx s' c) = ep (cx s c) /\ home (cx s' c) = home (cx s c)) by (intros c N; rewrite Qc; cupds; auto).
    assert (Pg : pcc (cx s' g) = pcc (cx s g)) by (rewrite Qc; cupds; auto).
    apply (G1_frame s s' (fun c => c = g)); auto.
    + intros c e0 y -> H _. rewrite Pg in H. rewrite Qc. cupds. simpl. destruct I as [L I]. pose proof (a_pc _ _ _ I g) as P. unfold pcok in P. simpl in P. rewrite H in P. lia.
    + intros u z. rewrite Qt. tupds; simpl.
      * rewrite sremove_In. specialize (S3 z). intuition.
      * split; [|tauto]. intros Hz. split; auto. intros Hg. destruct z as [[tp0 c0] e0]. unfold sctx in Hg. simpl in Hg. subst c0. destruct (b_slp _ G _ _ _ _ Hz) as (Y2 & _). congruence.
    + intros c N. apply (flying_same _ _ (fun c => c = g)); auto; intros; [now apply X|destruct (ctx_dec a0 g) as [->|N2]; [rewrite Pg; eauto|destruct (X a0 N2) as (-> & _); eauto]|]. rewrite Qt. tupds; auto.
    + intros u. rewrite Qt. tupds; simpl; [now apply sremove_nodup|apply G].
    + intros u. rewrite Qt. tupds; simpl; [now apply sremove_sorted|apply G].
    + intros c. destruct (ctx_dec c g); auto.
  - (* woken there *) destruct (pwake_keep _ _ _ _ _ _ _ _ _ Pw) as (K1 & K2 & K3 & K4 & K5).
    assert (SL : sl = slp (th s t)).
    { destruct Pw as [| |nw tp r E1 E2 E3]; auto. destruct (b_slp _ G t tp g e) as (Y1 & _); [rewrite E2; now left|]. congruence. }
    assert (Pa : pcc (cx s a) <> PPush g k) by (rewrite K5; destruct k; discriminate).
    assert (X : forall c, c <> g -> c <> a -> cx s' c = cx s c) by (intros c N1 N2; rewrite Qc; cupds; auto).
    assert (Xh : forall c, home (cx s' c) = home (cx s c)) by (intros c; rewrite Qc; cupds; auto).
    assert (Xa : pcc (cx s' a) = PPush g k) by (rewrite Qc; cupds; auto).
    assert (Xg : pcc (cx s' g) = pcc (cx s g) /\ ep (cx s' g) = S e) by (rewrite Qc; cupds; auto).
    assert (Xl : forall u, slp (th s' u) = slp (th s u) /\ rrq (th s' u) = rrq (th s u) /\ tmp (th s' u) = tmp (th s u)) by (intros u; rewrite Qt; tupds; subst sl; auto).
    assert (F : forall c, flying s c -> flying s' c).
    { intros c [(b & k' & H)|H].
      - left. exists b, k'. destruct (ctx_dec b a) as [->|N1]; [exfalso; rewrite K5 in H; destruct k; discriminate H|]. destruct (ctx_dec b g) as [->|N2]; [now rewrite (proj1 Xg)|now rewrite X].
      - right. rewrite Xh. destruct (Xl (home (cx s c))) as (_ & -> & ->). auto. }
    constructor.
    + intros u tp c e0 Hi. destruct (Xl u) as (El & _). rewrite El in Hi. rewrite Xh. destruct (b_slp _ G _ _ _ _ Hi) as (Y1 & (y & Y2 & Y2') & Y3).
      assert (Nc : c <> a) by (intros ->; subst a; eapply act_no_entry in Hi; eauto). destruct (ctx_dec c g) as [->|N2].
      * destruct Xg as [-> ->]. splits; eauto. right. destruct Y3 as [Y3|[Y3 Y4]].
        -- split; [congruence|]. left. eauto.
        -- exfalso. destruct I as [L I]. pose proof (a_pc _ _ _ I g) as P. unfold pcok in P. simpl in P. rewrite Y2 in P.
           assert (pwake s t a g e k x sl ev) by exact Pw. destruct Pw as [E1 E2 E3|q E1 E2 E3|nw tp0 r E1 E2 E3].
           ++ destruct (a_iss _ _ _ I g e E2) as [_ Z]. specialize (Z (eq_sym Ee)). unfold waits_on in Z. simpl in Z. rewrite Y2 in Z. destruct Z as [Z|[Z|[? Z]]]; try discriminate Z; injection Z as ->; lia.
           ++ destruct (HW a g e) as (h & Z & _); [rewrite E2; now left|]. rewrite Z in Y2. injection Y2 as _ <-. discriminate Y2'.
           ++ destruct (b_slp _ G t tp0 g e) as (_ & (y2 & Z & _) & _); [rewrite E2; now left|]. rewrite Z in Y2. injection Y2 as ->. lia.
      * rewrite X by auto. splits; eauto. destruct Y3 as [Y3|[Y3 Y4]]; auto.
    + intros c e0 y tp Hp Hd0 He0. rewrite Xh. destruct (Xl (home (cx s c))) as (-> & _).
      destruct (ctx_dec c a) as [->|N1]; [congruence|]. destruct (ctx_dec c g) as [->|N2].
      * exfalso. destruct Xg as [Xg1 Xg2]. rewrite Xg1 in Hp. destruct I as [L I]. pose proof (a_pc _ _ _ I g) as P. unfold pcok in P. simpl in P. rewrite Hp in P. lia.
      * rewrite X in Hp, He0 by auto. eapply b_cv; eauto.
    + intros u. destruct (Xl u) as (-> & _). apply G.
    + intros u. destruct (Xl u) as (-> & _). apply G.
  - (* push *) assert (X : forall c, c <> a -> cx s' c = cx s c) by (intros c N; rewrite Qc; cupds; auto).
    assert (Xh : forall c, home (cx s' c) = home (cx s c)) by (intros c; rewrite Qc; cupds; auto).
    assert (Xl : forall u, slp (th s' u) = slp (th s u)) by (intros u0; rewrite Qt; tupds; auto).
    apply (G1_frame s s' (fun c => c = a)); auto.
    + intros c N. now rewrite X.
    + intros c e y -> H. rewrite Qc in H. cupds. discriminate H.
    + intros u0 z. rewrite Xl. split; [|tauto]. intros Hz. split; auto. intros E. destruct z as [[tp c] e]. unfold sctx in E. simpl in E. subst. eapply act_no_entry in Hz; eauto.
    + intros c N F. eapply flying_mono; eauto.
      * intros b k' Hb. destruct (ctx_dec b a) as [->|Nb]; [|left; rewrite X by auto; eauto]. right. assert (c = g) by congruence. subst c. rewrite Qt. rewrite <- Eu. rewrite upd_same. simpl. apply in_app_iff. simpl. auto.
      * rewrite Qt. tupds; simpl; auto. rewrite in_app_iff. rewrite e. auto.
      * rewrite Qt. tupds; simpl; auto. now rewrite e.
    + intros u0. rewrite Xl. apply G.
    + intros u0. rewrite Xl. apply G.
    + intros c. destruct (ctx_dec c a); auto.
  - (* note *) assert (X : forall c, c <> a -> cx s' c = cx s c) by (intros c N; rewrite Qc; cupds; auto).
    eapply (G1_pc s s' a t); eauto; intros; rewrite ?Qc, ?Qt in *; cupds; tupds; simpl in *; auto; try (now rewrite Ep); destruct k; discriminate.
  - eapply (G1_pc s s' a t); eauto; intros; rewrite ?Qc, ?Qt in *; cupds; tupds; simpl in *; auto; try discriminate; try (now rewrite Ep).
  - (* join *) eapply (G1_pc s s' a t); eauto; intros; rewrite ?Qc, ?Qt in *; cupds; tupds; simpl in *; auto; try discriminate; try (now rewrite Ep); cupds; auto.
    + simpl. congruence.
    + simpl in *. match goal with H : PSusp _ _ = PSusp _ _ |- _ => injection H as <- <- end. auto.
    + simpl in *. match goal with H : PSusp _ _ = PSusp _ _ |- _ => injection H as <- <- end. auto.
  - (* released by join *) destruct (prel_keep _ _ _ _ _ Pz) as (K1 & K2 & K3 & _).
    eapply (G1_pc s s' a t); eauto; intros; rewrite ?Qc, ?Qt in *; try (now rewrite Ep); auto; cupds; simpl in *; auto; try congruence.
    all: try (rewrite K1 in *; cupds; simpl in *; congruence).
  - destruct (prel_keep _ _ _ _ _ Pz) as (K1 & K2 & K3 & _). 
    apply (G1_frame s s' (fun _ => False)); auto; intros; rewrite ?Qc, ?Qt; try tauto; try apply G; auto; [cupds; auto|].
    apply (flying_same s s' (fun _ => False)); auto; intros; rewrite ?Qc, ?Qt; cupds; rewrite ?K1, ?K3; eauto.
  - apply (G1_frame s s' (fun _ => False)); auto; intros; rewrite ?Qc, ?Qt; try tauto; try apply G; auto. 
    eapply (flying_same s s' (fun _ => False)); eauto; intros; rewrite ?Qc, ?Qt; eauto.
  - eapply (G1_pc s s' (Mn u) t); eauto; intros; rewrite ?Qc, ?Qt in *; cupds; tupds; simpl in *; auto; try discriminate; try (now rewrite Ep).
  - eapply (G1_pc s s' a t); eauto; intros; rewrite ?Qc, ?Qt in *; cupds; tupds; simpl in *; auto; try discriminate; try (now rewrite Ep).
  - eapply (G1_pc s s' a t); eauto; intros; rewrite ?Qc, ?Qt in *; cupds; tupds; simpl in *; auto; try discriminate; try (now rewrite Ep).
  - (* down *) cbv zeta in Qc. destruct (prel_keep _ _ _ _ _ Pz) as (K1 & K2 & K3 & _).
    eapply (G1_pc s s' a t); eauto; intros; rewrite ?Qc, ?Qt in *; cupds; tupds; simpl in *; auto; try discriminate; try (now rewrite Ep); congruence.
  - eapply (G1_pc s s' (Dp t) t); eauto; intros; rewrite ?Qc, ?Qt in *; cupds; tupds; simpl in *; auto; try discriminate; try (now rewrite Ep). destruct (wkr (th s t)); discriminate.
  - destruct (prel_keep _ _ _ _ _ Pz) as (K1 & K2 & K3 & _). 
    apply (G1_frame s s' (fun _ => False)); auto; intros; rewrite ?Qc, ?Qt; try tauto; try (tupds; simpl; apply G); auto; [cupds; auto|tupds; simpl; tauto|].
    apply (flying_same s s' (fun _ => False)); auto; intros; rewrite ?Qc, ?Qt; cupds; tupds; rewrite ?K1, ?K3; eauto.
  - (* swap *) assert (X : forall c, c <> Dp t -> cx s' c = cx s c) by (intros c N; rewrite Qc; cupds; auto).
    assert (Xh : forall c, home (cx s' c) = home (cx s c)) by (intros c; rewrite Qc; cupds; auto).
    assert (Xl : forall u, slp (th s' u) = slp (th s u)) by (intros u0; rewrite Qt; tupds; auto).
    apply (G1_frame s s' (fun c => c = Dp t)); auto.
    + intros c N. now rewrite X.
    + intros c e y -> H. rewrite Qc in H. cupds. discriminate H.
    + intros u0 z. rewrite Xl. split; [|tauto]. intros Hz. split; auto. intros E. destruct z as [[tp c] e]. unfold sctx in E. simpl in E. subst c. rewrite <- Ea in Hz. eapply act_no_entry in Hz; eauto.
    + intros c N F. eapply flying_mono; eauto.
      * intros b k' Hb. left. destruct (ctx_dec b (Dp t)) as [->|Nb]; [congruence|]. rewrite X by auto; eauto.
      * rewrite Qt. tupds; simpl; auto. intros Hi. right. congruence.
      * rewrite Qt. tupds; simpl; auto. intros Hi. exfalso. destruct I as [L I]. assert (Y : tmp (th s t) <> []) by (intros Y; rewrite e, Y in Hi; destruct Hi). apply (a_tmpd _ _ _ I t) in Y. simpl in Y. congruence.
    + intros u0. rewrite Xl. apply G.
    + intros u0. rewrite Xl. apply G.
    + intros c. destruct (ctx_dec c (Dp t)); auto.
  - (* drain *) assert (Lc : home (cx s c) = t /\ forall e y, pcc (cx s c) = PSusp e y -> ep (cx s c) = S e).
    { destruct I as [L I]. destruct (proj1 (a_tmp _ _ _ I t c)) as [Lc Hc]; [simpl; rewrite Et; now left|]. split; auto. intros e y H. pose proof (a_pc _ _ _ I c) as P. unfold pcok in P. simpl in P. rewrite H in P. destruct P as [[P1 P2]|[P1 P2]]; congruence. }
    destruct Lc as [Lc1 Lc2]. apply (G1_frame s s' (fun d => d = c)); auto.
    + intros d N. now rewrite Qc.
    + intros d e y -> H _. rewrite Qc in *. apply Lc2 in H. lia.
    + intros u z. rewrite Qt. tupds; simpl; rewrite ?sremove_In; [tauto|]. split; [|tauto]. intros Hz. split; auto. intros E. destruct z as [[tp d] e]. unfold sctx in E. simpl in E. subst d. destruct (b_slp _ G _ _ _ _ Hz) as (Y & _). congruence.
    + intros d N F. eapply flying_mono; eauto; rewrite ?Qc; auto; rewrite ?Qt; tupds; simpl; eauto.
      * left. rewrite Qc. eauto.
      * left. rewrite Qc. eauto.
      * rewrite e. auto.
      * rewrite e, Et. simpl. intros [->|]; auto. contradiction.
    + intros u. rewrite Qt. tupds; simpl; [apply sremove_nodup|]; apply G.
    + intros u. rewrite Qt. tupds; simpl; [apply sremove_sorted|]; apply G.
    + intros d. destruct (ctx_dec d c); auto.
  - eapply (G1_pc s s' (Dp t) t); eauto; intros; rewrite ?Qc, ?Qt in *; cupds; tupds; simpl in *; auto; try discriminate; try (now rewrite Ep).
  - eapply (G1_pc s s' (Dp t) t); eauto; intros; rewrite ?Qc, ?Qt in *; cupds; tupds; simpl in *; auto; try discriminate; try (now rewrite Ep).
Qed.
