(** Proofs about the scheduler: every step keeps the relation to Kernel.v. *)
From Coq Require Import List Arith Bool Lia.
From Verif Require Import Base Sched SchedSpec SchedFacts SchedFacts2 SchedFacts3 SchedFacts4 SchedFacts5 SchedFacts6 SchedFacts7 SchedFacts8 SchedFacts9 SchedFacts10 SchedFacts11 SchedKern SchedKernFacts SchedKernFacts2.
From Verif Require Kernel.
Import ListNotations.

Definition RR (T : list tid) (s : state) (k : Kernel.kern) : Prop := exists L, IA (V s) (W s) L /\ Rk T (V s) L (tact (W s)) (clk s) k.

Lemma tact_ext w w' : (forall t, w' t = w t) -> forall t, tact w' t = tact w t.
Proof. intros H t. unfold tact. now rewrite H. Qed.
Lemma RR_mk T s' v w L ta k : IA v w L -> Rk T v L ta (clk s') k -> (forall t, In t T -> tact w t = ta t) -> (forall c, V s' c = v c) -> (forall t, W s' t = w t) -> RR T s' k.
Proof.
  intros I R Ht Hv Hw. exists L. split; [eapply ia_ext; eauto|]. eapply Rk_ext; eauto. intros t It. rewrite (tact_ext w); auto.
Qed.

Ltac ltrd T :=
  destruct T as [d Hal Q|t a h ev Hal Ea Ep Eb Ev Q|t a p ev Hal Ea M Q|t a n h c Hal Ea Ep Ec En Eh Eb Q|t a n h c Hal Ea Ep Ec En Eh Eb Q
    |t a x rdy sl ev c r Hal Ea Po Er Ef Q|t a e Hal Ea Ep Ee Q|t a g e k0 x sl ev Hal Ea Pw Ee Q|t a g e k0 x sl ev Hal Ea Pw Eg Ee Eh Q|t a g e k0 x sl ev Hal Ea Pw Eg Ee Eh Q
    |t a g k0 u ev Hal Ea Ep Eu Eg Ev Q|t a u k0 Hal Ea Ep Eg Q|t a h c Hal Ea Ep Eb Eh Ec Q|t a h c e d r Hal Ea Ep Ef El Et Ee Er Ed Q|t a h c z ev Hal Ea Ep Pz Q
    |t a h c z ev Hal Ea Ep Eb Eh Pz Q|t a h1 h2 Hal Ea Ep E1 E2 E3 E4 Q|t u Hal Ea Ep Q|t a Hal Ea Ep El Q|t a Hal Ea Ep Ew Eu El Q|t a z ev Hal Ea Ep E1 E2 E3 Pz Q|t Hal Ea Ep Es Q
    |t c r z ev Hal Ea Ep Et Em Pz Q|t Hal Ea Ep Q|t c r Hal Ea Ep Et Q|t o Hal Ea Ep Ef Q|t Hal Ea Ep Et Q]; destruct Q as [Qc Qt Qh Qb Qk Ql]; cbv zeta in Qc.

Section Cases.
Variables (T : list tid) (v : ctx -> vw) (w : tid -> tw) (L : ctx -> place) (n : nat) (k : Kernel.kern).
Hypotheses (I : IA v w L) (R : Rk T v L (tact w) n k).

(** The active context goes on: nothing for Kernel.v. *)
Lemma rk_pc t a p : In t T -> a = wa (w t) -> armed (vp (v a)) = false -> (forall e y, p <> PSusp e y) -> p <> PNone -> Rk T (cupd v a (spc (v a) p)) L (tact w) n k.
Proof.
  intros It Ea Na N1 N2. pose proof (act_loc _ _ _ I _ _ Ea Na) as La. eapply Rk_view; eauto.
  - intros c Fc F. destruct (ctx_dec c a) as [->|N]; [rewrite cupd_same|now rewrite cupd_other]. rewrite La in *. apply fm_act; auto.
    intros E. pose proof (a_pc _ _ _ I a) as P. unfold pcok in P. rewrite E in P. congruence.
  - intros u Nu. rewrite cupd_other; auto. intros E. apply Nu. pose proof (act_here _ _ _ I _ _ Ea) as X. rewrite <- E in X. destruct (a_home _ _ _ I u) as [_ Y]. congruence.
  - intros u. destruct (ctx_dec (Dp u) a) as [<-|N]; [now rewrite cupd_same|now rewrite cupd_other].
Qed.
Lemma act_not_none t : vp (v (wa (w t))) <> PNone.
Proof.
  intros E. pose proof (a_pc _ _ _ I (wa (w t))) as P. unfold pcok in P. rewrite E in P. destruct (a_act _ _ _ I t) as [_ [X|X]]; [congruence|]. rewrite E in X. discriminate X.
Qed.
Lemma iss_idle a : (forall e, vp (v a) <> PArmed e) -> (forall e y, vp (v a) <> PSusp e y) -> forall e, In e (vi (v a)) -> e <= ve (v a) /\ e <> ve (v a).
Proof.
  intros N1 N2 e He. destruct (a_iss _ _ _ I _ _ He) as [Y1 Y2]. split; auto. intros Y. destruct (Y2 Y) as [Z|[Z|[tp Z]]]; [now apply N1 in Z|now apply N2 in Z|now apply N2 in Z].
Qed.

(** A context of the thread changes its place between queues. *)
Lemma rk_place L' : (forall c, isf c -> L' c = L c \/ (inq (L c) = true /\ inq (L' c) = true /\ L c <> LRdy)) -> Rk T v L' (tact w) n k.
Proof.
  intros H. eapply Rk_view; eauto. intros c Fc F. destruct (H c (fiber_isf T c Fc)) as [->|(H1 & H2 & H3)]; auto. eapply fm_place; eauto.
Qed.
End Cases.

Lemma exec_two k l1 k1 l2 k2 : exec kdo k l1 = Some k1 -> exec kdo k1 l2 = Some k2 -> exec kdo k (l1 ++ l2) = Some k2.
Proof. intros H1 H2. apply exec_app. eauto. Qed.

Lemma tact_upd w t c q m b sh u : tact (upd w t (mkW c q m b sh)) u = upd (tact w) t (match c with Dp _ => None | _ => Some (code c) end) u.
Proof. unfold tact. destruct (Nat.eq_dec u t) as [->|N]; [rewrite !upd_same; now destruct c|now rewrite !upd_other by auto]. Qed.
Lemma tact_keep w t q m b sh u : tact (upd w t (mkW (wa (w t)) q m b sh)) u = tact w u.
Proof. unfold tact. destruct (Nat.eq_dec u t) as [->|N]; [now rewrite !upd_same|now rewrite !upd_other by auto]. Qed.

Section Out.
Variables (T : list tid) (v : ctx -> vw) (w : tid -> tw) (L : ctx -> place) (n : nat) (k : Kernel.kern) (s : state).
Hypotheses (I : IA v w L) (R : Rk T v L (tact w) n k) (Hs : forall y, rq (th s y) = wr (w y)).
Variables (t : tid) (a c : ctx) (r : list ctx).
Hypotheses (It : In t T) (Ea : a = wa (w t)) (Er : wr (w t) = c :: r).
Let w' q := upd w t (mkW c q (wm (w t)) (wt (w t)) (ws (w t))).

Lemma na : c <> a.
Proof. now destruct (head_facts _ _ _ _ _ _ _ I Ea Er) as (_ & _ & _ & X & _). Qed.

Lemma after_next q x la k1 al : exec kdo k al = Some k1 -> Rk T (cupd v a x) (cupd L a la) (upd (tact w) t None) n k1 ->
  exists k', exec kdo k (al ++ next s t) = Some k' /\ Rk T (cupd v a x) (cupd (cupd L a la) c LAct) (tact (w' q)) n k'.
Proof.
  intros X1 X2. destruct (sim_next T v w L n I t c r a x la k1 s It (eq_sym Ea) Er na Hs X2) as (k' & X3 & X4). exists k'. split; [eapply exec_two; eauto|].
  eapply Rk_ext; eauto. intros u Iu. apply tact_upd.
Qed.

Lemma s_yield : vp (v a) = PIdle -> exists k' L', exec kdo k ([AYield (code a)] ++ next s t) = Some k' /\
  IA (cupd v a (spc (v a) PYield)) (w' (r ++ [a])) L' /\ Rk T (cupd v a (spc (v a) PYield)) L' (tact (w' (r ++ [a]))) n k'.
Proof.
  intros Hp. assert (La : L a = LAct) by (eapply act_loc; eauto; now rewrite Hp). pose proof (act_here _ _ _ I _ _ Ea) as Hh. pose proof (a_kind _ _ _ I a) as K. rewrite Hp in K.
  assert (Fa : isf a) by (destruct a; simpl in *; auto).
  destruct (sim_out T v w L n k I R t a (spc (v a) PYield) LRdy true) as (k1 & X1 & X2); auto; try (rewrite Hp; discriminate); try discriminate; [right; rewrite La; auto|].
  destruct (after_next (r ++ [a]) _ _ _ _ X1 X2) as (k' & X3 & X4). eexists k', _. splits; eauto.
  eapply ia_switch; eauto; simpl; rewrite ?Hp; try discriminate; auto.
  - unfold pcok. simpl. auto.
  - intros e He. simpl in *. destruct (iss_idle v w L I a) with (e := e); auto; rewrite ?Hp; try discriminate. split; auto. contradiction.
  - split; discriminate.
Qed.
Lemma s_disp : vp (v a) = DPick -> exists k' L', exec kdo k (next s t) = Some k' /\
  IA (cupd v a (spc (v a) DRes)) (w' (r ++ [a])) L' /\ Rk T (cupd v a (spc (v a) DRes)) L' (tact (w' (r ++ [a]))) n k'.
Proof.
  intros Hp. assert (La : L a = LAct) by (eapply act_loc; eauto; now rewrite Hp). pose proof (act_here _ _ _ I _ _ Ea) as Hh. pose proof (a_kind _ _ _ I a) as K. rewrite Hp in K.
  assert (Da : exists u, a = Dp u) by (destruct a; try contradiction; eauto). destruct Da as [u Da].
  assert (X2 : Rk T (cupd v a (spc (v a) DRes)) (cupd L a LRdy) (upd (tact w) t None) n k).
  { apply (Rk_view _ _ _ _ _ _ (cupd v a (spc (v a) DRes)) (cupd L a LRdy) (upd (tact w) t None) R).
    - intros q Iq. destruct (Nat.eq_dec q t) as [->|N]; [rewrite upd_same; unfold tact; now rewrite <- Ea, Da|now rewrite upd_other].
    - intros d Fd F. rewrite !cupd_other; auto; intros ->; rewrite Da in Fd; contradiction.
    - intros q Nq. rewrite cupd_other; auto. rewrite Da. discriminate.
    - intros q. destruct (ctx_dec (Dp q) a) as [E|N]; [rewrite E, cupd_same; auto|now rewrite cupd_other]. }
  destruct (after_next (r ++ [a]) _ _ _ [] eq_refl X2) as (k' & X3 & X4). eexists k', _. splits; eauto.
  eapply ia_switch; eauto; simpl; rewrite ?Hp; try discriminate; auto.
  - unfold pcok. simpl. auto.
  - intros e He. simpl in *. destruct (iss_idle v w L I a) with (e := e); auto; rewrite ?Hp; try discriminate. split; auto. contradiction.
  - split; discriminate.
Qed.
Lemma s_wait y tp i : vp (v a) = PIdle -> dl y = Some tp -> i = vi (v a) \/ (i = S (ve (v a)) :: vi (v a) /\ y = WTimed tp) ->
  let x := mkV (PSusp (S (ve (v a))) y) (S (ve (v a))) i (vh (v a)) in
  exists k' L', exec kdo k ([AWait (code a) tp] ++ next s t) = Some k' /\ IA (cupd v a x) (w' r) L' /\ Rk T (cupd v a x) L' (tact (w' r)) n k'.
Proof.
  intros Hp Hy Hi x. assert (La : L a = LAct) by (eapply act_loc; eauto; now rewrite Hp). pose proof (act_here _ _ _ I _ _ Ea) as Hh. pose proof (a_kind _ _ _ I a) as K. rewrite Hp in K.
  assert (Fa : isf a) by (destruct a; simpl in *; auto).
  destruct (sim_wait T v w L n k I R t a y tp i) as (k1 & X1 & X2); auto; [rewrite Hp; discriminate|].
  destruct (after_next r _ _ _ _ X1 X2) as (k' & X3 & X4). eexists k', _. splits; eauto.
  eapply ia_switch; eauto; simpl; rewrite ?Hp; try discriminate; auto.
  - left. auto.
  - intros e He. simpl in *. destruct Hi as [->|[-> ->]].
    + destruct (a_iss _ _ _ I _ _ He) as [Y1 Y2]. split; [lia|]. intros ->. lia.
    + destruct He as [<-|He]; [split; auto; intros _; unfold waits_on; eauto|]. destruct (a_iss _ _ _ I _ _ He) as [Y1 Y2]. split; [lia|]. intros ->. lia.
  - split; discriminate.
Qed.
Lemma s_join h d : vp (v a) = PJoin h d -> let x := mkV (PSusp (S (ve (v a))) (WJoin h d)) (S (ve (v a))) (vi (v a)) (vh (v a)) in
  exists k' L', exec kdo k ([AArm (code a)] ++ [ASusp (code a)] ++ next s t) = Some k' /\ IA (cupd v a x) (w' r) L' /\ Rk T (cupd v a x) L' (tact (w' r)) n k'.
Proof.
  intros Hp x. assert (La : L a = LAct) by (eapply act_loc; eauto; now rewrite Hp). pose proof (act_here _ _ _ I _ _ Ea) as Hh. pose proof (a_kind _ _ _ I a) as K. rewrite Hp in K.
  assert (Fa : isf a) by (destruct a; simpl in *; auto).
  destruct (sim_block T v w L n k I R t a (WJoin h d) (vi (v a))) as (k1 & X1 & X2); auto; [rewrite Hp; discriminate|].
  destruct (after_next r _ _ _ _ X1 X2) as (k' & X3 & X4). eexists k', _. splits; eauto.
  eapply ia_switch; eauto; simpl; rewrite ?Hp; try discriminate; auto.
  - left. auto.
  - intros e He. simpl in *. destruct (a_iss _ _ _ I _ _ He) as [Y1 Y2]. split; [lia|]. intros ->. lia.
  - split; discriminate.
Qed.
Lemma s_susp e : vp (v a) = PArmed e -> let x := spc (v a) (PSusp e WBlock) in
  exists k' L', exec kdo k ([ASusp (code a)] ++ next s t) = Some k' /\ IA (cupd v a x) (w' r) L' /\ Rk T (cupd v a x) L' (tact (w' r)) n k'.
Proof.
  intros Hp x. pose proof (act_here _ _ _ I _ _ Ea) as Hh. pose proof (a_kind _ _ _ I a) as K. rewrite Hp in K.
  assert (Fa : isf a) by (destruct a; simpl in *; auto). pose proof (a_pc _ _ _ I a) as P. unfold pcok in P. rewrite Hp in P.
  destruct (sim_out T v w L n k I R t a x (match L a with LAct => LNo | l => l end) false) as (k1 & X1 & X2); auto; try (rewrite Hp; discriminate); try discriminate.
  { destruct (L a); discriminate. }
  { simpl. intros y tp E. injection E as _ <-. discriminate. }
  { left. split; auto. unfold qd, x. simpl. rewrite Hp. destruct (L a); auto. }
  destruct (after_next r _ _ _ _ X1 X2) as (k' & X3 & X4). eexists k', _. splits; eauto.
  eapply ia_switch; eauto; simpl; rewrite ?Hp; try discriminate; auto.
  - unfold pcok. simpl. destruct P as [[P1 P2]|[P1 [P2|[y P2]]]]; rewrite P2; [left; auto|right|right]; split; auto; discriminate.
  - intros e' He. simpl in *. destruct (a_iss _ _ _ I _ _ He) as [Y1 Y2]. split; auto. intros Y. pose proof (Y2 Y) as Z. unfold waits_on in Z. rewrite Hp in Z.
    destruct Z as [Z|[Z|[? Z]]]; try discriminate Z. injection Z as ->. unfold waits_on. auto.
  - destruct P as [[P1 P2]|[P1 [P2|[y P2]]]]; rewrite P2; [auto|right; right|right; right]; splits; auto; discriminate.
  - split; discriminate.
Qed.
Lemma s_leave p : (vp (v a) = PLeave /\ p = PDead) \/ (vp (v a) = PShut /\ p = PShut2) -> let x := spc (v a) p in
  exists k' L', exec kdo k ([match p with PShut2 => AYield (code a) | _ => ASusp (code a) end] ++ next s t) = Some k' /\ IA (cupd v a x) (w' r) L' /\ Rk T (cupd v a x) L' (tact (w' r)) n k'.
Proof.
  intros Hp x. assert (La : L a = LAct) by (eapply act_loc; eauto; destruct Hp as [[-> _]|[-> _]]; auto). pose proof (act_here _ _ _ I _ _ Ea) as Hh. pose proof (a_kind _ _ _ I a) as K.
  assert (Fa : isf a) by (destruct Hp as [[Hp _]|[Hp _]]; rewrite Hp in K; destruct a; simpl in *; auto).
  destruct (sim_out T v w L n k I R t a x LNo (match p with PShut2 => true | _ => false end)) as (k1 & X1 & X2); auto.
  all: try (destruct Hp as [[Hp ->]|[Hp ->]]; simpl; rewrite ?Hp; discriminate).
  { destruct Hp as [[Hp ->]|[Hp ->]]; auto. }
  { destruct Hp as [[Hp ->]|[Hp ->]]; rewrite La; auto. }
  destruct (after_next r _ _ _ _ X1 X2) as (k' & X3 & X4). eexists k', _. splits; eauto.
  { rewrite <- X3. destruct Hp as [[_ ->]|[_ ->]]; auto. }
  eapply ia_switch with (la := LNo); eauto; simpl.
  all: try (destruct Hp as [[E ->]|[E ->]]; rewrite ?E in *; simpl; auto; try congruence; fail).
  - unfold pcok. simpl. destruct Hp as [[E ->]|[E ->]]; auto.
  - intros e He. simpl in *. destruct (iss_idle v w L I a) with (e := e); auto; destruct Hp as [[Hp ->]|[Hp ->]]; rewrite ?Hp; try discriminate; split; auto; contradiction.
  - destruct Hp as [[E ->]|[E ->]]; rewrite E; split; auto; discriminate.
Qed.
End Out.

Ltac vw Qc := intros; unfold V; rewrite ?Qc; cupds; simpl; auto; try congruence.
Ltac tww Qt := intros; unfold W; rewrite ?Qt; tupds; simpl; auto; try congruence.

Section Main.
Variables (T : list tid) (s s' : state) (k : Kernel.kern).
Hypotheses (J : Inv s) (Gn : g_now s) (RS : RR T s k).

(** No action, the same view. *)
Lemma sim_same : (forall c, V s' c = V s c) -> (forall t, W s' t = W s t) -> clk s' = clk s -> RR T s' k.
Proof. intros H1 H2 H3. destruct RS as (L & I & R). apply (RR_mk T s' (V s) (W s) L (tact (W s)) k); auto. now rewrite H3. Qed.

(** No action, the active context goes on. *)
Lemma sim_pc t a p : In t T -> a = act (th s t) -> plain p = true -> armed (pcc (cx s a)) = false -> pushing (pcc (cx s a)) = None -> kind a p ->
    (pcc (cx s a) = DDrain -> tmp (th s t) = []) -> (p = PGone -> pcc (cx s a) = PShut2) -> (pcc (cx s a) = PShut2 -> p = PGone) -> pcc (cx s a) <> PGone -> p <> PShut -> pcc (cx s a) <> PShut ->
    (p = DFin -> shut (th s t) = true) ->
  (forall c, V s' c = cupd (V s) a (spc (V s a) p) c) -> (forall u, W s' u = W s u) -> clk s' = clk s -> RR T s' k.
Proof.
  intros It Ea Pp Na Np Ka H1 H2 H3 H4 H5 H6 H7 Hv Hw Hk. destruct RS as (L & I & R). apply (RR_mk T s' (cupd (V s) a (spc (V s a) p)) (W s) L (tact (W s)) k); auto.
  - apply (ia_pc _ _ _ a p t); auto.
  - rewrite Hk. apply (rk_pc T _ (W s) L _ k I R t); auto; intros; intros E; subst p; discriminate Pp.
Qed.

(** Waking. *)
Lemma wake_target t a g e k0 x sl ev : a = act (th s t) -> pwake s t a g e k0 x sl ev -> ep (cx s g) = e ->
  (waits_on (vp (V s g)) (ve (V s g)) \/ (exists y, vp (V s g) = PSusp (ve (V s g)) y)) /\ isf g.
Proof.
  intros Ea Pw Ee. destruct (i_a _ J) as [L I]. pose proof (a_kind _ _ _ I g) as K. simpl in *.
  destruct (wake_waits _ _ _ _ _ _ _ _ _ (i_a _ J) (i_1 _ J) (i_3 _ J) Pw Ee) as [[_ [h X]]|(_ & _ & [X|[tp X]])]; rewrite ?Ee.
  - split; eauto. rewrite X in K. destruct g; simpl in *; auto.
  - split; auto. destruct X as [X|[X|[tp X]]]; rewrite X in K; destruct g; simpl in *; auto.
  - split; eauto. rewrite X in K. destruct g; simpl in *; auto.
Qed.
Lemma wake_place L g : IA (V s) (W s) L -> waits_on (vp (V s g)) (ve (V s g)) \/ (exists y, vp (V s g) = PSusp (ve (V s g)) y) -> L g = LNo \/ (L g = LAct /\ armed (vp (V s g)) = true).
Proof.
  intros I H. pose proof (a_pc _ _ _ I g) as P. unfold pcok in P. simpl in *. destruct H as [[E|[E|[tp E]]]|[y E]]; rewrite E in *; simpl in *; destruct P as [[_ P]|[P _]]; auto; lia.
Qed.
Lemma waker_isf t a g e k0 x sl ev : pwake s t a g e k0 x sl ev -> (forall nw, k0 <> KDisp nw) -> isf a.
Proof.
  intros Pw N. destruct (i_a _ J) as [L I]. pose proof (a_kind _ _ _ I a) as K. simpl in K. destruct Pw as [E|q E|nw tp r E].
  - rewrite E in K. destruct a; simpl in *; auto.
  - rewrite E in K. destruct a; simpl in *; auto.
  - now destruct (N nw).
Qed.
Lemma waker_act L t a g e k0 x sl ev : IA (V s) (W s) L -> a = act (th s t) -> pwake s t a g e k0 x sl ev -> L a = LAct /\ armed (pcc (cx s a)) = false.
Proof.
  intros I Ea Pw. destruct (pwake_keep _ _ _ _ _ _ _ _ _ Pw) as (_ & _ & _ & _ & K5).
  assert (X : armed (pcc (cx s a)) = false) by (rewrite K5; destruct k0; auto). split; auto. apply (act_loc _ _ _ I t a Ea X).
Qed.

Lemma sim_missed t a g e k0 x sl ev : In t T -> a = act (th s t) -> pwake s t a g e k0 x sl ev -> ep (if ctx_eqb g a then x else cx s g) <> e -> exec kdo k (wkact s a g e k0) = Some k.
Proof.
  intros It Ea Pw Ne. destruct (pwake_keep _ _ _ _ _ _ _ _ _ Pw) as (K1 & K2 & K3 & K4 & K5).
  assert (N : ep (cx s g) <> e) by (destruct (ctx_eqb_spec g a) as [->|]; congruence). clear Ne.
  destruct RS as (L & I & R). destruct (waker_act L t a g e k0 x sl ev I Ea Pw) as [La _].
  assert (D : (exists nw, k0 = KDisp nw) \/ forall nw, k0 <> KDisp nw) by (destruct k0; eauto; right; discriminate). destruct D as [[nw ->]|D].
  - simpl. destruct (Nat.eqb_spec (ep (cx s g)) e); [contradiction|reflexivity].
  - pose proof (waker_isf _ _ _ _ _ _ _ _ Pw D) as Fa.
    assert (Q : wkact s a g e k0 = [AWake (code a) (code g) e]) by (destruct k0; auto; now destruct (D nw)). rewrite Q.
    assert (FT : fiber_of T a) by (rewrite Ea in *; apply (act_fiber T (V s) (W s) L I t); auto).
    pose proof (r_fib _ _ _ _ _ _ R a FT) as F.
    assert (Eg : Kernel.epoch (Kernel.fib k (code g)) <> e).
    { destruct g as [u|u|m].
      - destruct (in_dec Nat.eq_dec u T) as [Iu|Nu].
        + rewrite (f_ep _ _ _ (r_fib _ _ _ _ _ _ R (Mn u) Iu)). exact N.
        + destruct (r_out _ _ _ _ _ _ R u Nu) as (_ & X & Y). simpl in X. congruence.
      - exfalso. destruct Pw as [E1 E2 E3|q E1 E2 E3|nw tp r E1 E2 E3].
        + pose proof (r_dp _ _ _ _ _ _ R u) as X. simpl in X. rewrite X in E2. contradiction.
        + destruct (proj1 (j_in _ (i_3 _ J) a (Dp u) e)) as [h X]; [rewrite E2; now left|]. apply jw_some in X. tauto.
        + now destruct (D nw).
      - rewrite (f_ep _ _ _ (r_fib _ _ _ _ _ _ R (Wk m) Logic.I)). exact N. }
    unfold exec, kdo. rewrite (f_rn _ _ _ F), La. simpl. unfold Kernel.wake. destruct (Nat.eqb_spec (Kernel.epoch (Kernel.fib k (code g))) e); [contradiction|reflexivity].
Qed.
Lemma sim_woken t a g e k0 x sl ev l L : IA (V s) (W s) L -> Rk T (V s) L (tact (W s)) (clk s) k -> In t T -> a = act (th s t) -> pwake s t a g e k0 x sl ev -> ep (cx s g) = e -> inq l = true -> (forall nw, k0 = KDisp nw -> l = LRdy) ->
  exists k1, exec kdo k (wkact s a g e k0) = Some k1 /\ Rk T (cupd (V s) g (mkV (vp (V s g)) (S (ve (V s g))) (vi (V s g)) (vh (V s g)))) (cupd L g l) (tact (W s)) (clk s) k1.
Proof.
  intros I R It Ea Pw Ee Il Hl. destruct (wake_target _ _ _ _ _ _ _ _ Ea Pw Ee) as [Hw Fg]. pose proof (wake_place L g I Hw) as Lg. destruct (waker_act L t a g e k0 x sl ev I Ea Pw) as [La _].
  assert (D : (exists nw, k0 = KDisp nw) \/ forall nw, k0 <> KDisp nw) by (destruct k0; eauto; right; discriminate). destruct D as [[nw ->]|D].
  - rewrite (Hl _ eq_refl). simpl wkact. rewrite Ee, Nat.eqb_refl. inversion Pw as [| |nw' tp r E1 E2 E3]; subst nw' x sl ev. destruct (b_slp _ (i_1 _ J) t tp g e) as (B1 & (y & B2 & B3) & _); [rewrite E2; now left|].
    assert (Da : a = Dp t).
    { pose proof (a_kind _ _ _ I a) as K. simpl in K. rewrite E1 in K. pose proof (act_here _ _ _ I t a Ea) as X. destruct a as [u|u|u]; simpl in K; try contradiction. destruct (a_home _ _ _ I u) as [Y _]. congruence. }
    apply (sim_timer T (V s) (W s) L (clk s) k R t g y tp); simpl; auto; try congruence.
    + pose proof (Gn a nw) as X. rewrite E1 in X. specialize (X eq_refl). lia.
    + destruct Lg as [Lg|[_ Lg]]; auto. simpl in Lg. rewrite B2 in Lg. discriminate Lg.
  - pose proof (waker_isf _ _ _ _ _ _ _ _ Pw D) as Fa.
    assert (Q : wkact s a g e k0 = [AWake (code a) (code g) e]) by (destruct k0; auto; now destruct (D nw)). rewrite Q, <- Ee.
    apply (sim_wake T (V s) (W s) L (clk s) k I R t); auto.
Qed.

Lemma sim_launch t a m : In t T -> a = act (th s t) -> pcc (cx s a) = PIdle -> pcc (cx s (Wk m)) = PNone ->
  let v' := cupd (cupd (V s) (Wk m) (mkV PNew 0 [] t)) a (spc (V s a) PYield) in
  let w' := upd (W s) t (mkW (Wk m) (wr (W s t) ++ [a]) (wm (W s t)) (wt (W s t)) (ws (W s t))) in
  (forall c, V s' c = v' c) -> (forall u, W s' u = w' u) -> clk s' = clk s ->
  exists k', exec kdo k [AYield (code a); ASys (Kernel.Pick (code (Wk m)) t)] = Some k' /\ RR T s' k'.
Proof.
  intros It Ea Ep En v' w' Hv Hw Hk. destruct RS as (L & I & R).
  pose proof (a_kind _ _ _ I a) as K. simpl in K. rewrite Ep in K. assert (Fa : isf a) by (destruct a; simpl in *; auto).
  assert (La : L a = LAct) by (apply (act_loc _ _ _ I t a Ea); simpl; now rewrite Ep).
  pose proof (a_pc _ _ _ I (Wk m)) as P. unfold pcok in P. simpl in P. rewrite En in P. assert (Nm : Wk m <> a) by congruence.
  destruct (sim_out T (V s) (W s) L (clk s) k I R t a (spc (V s a) PYield) LRdy true) as (k1 & X1 & X2); auto; simpl; try (rewrite Ep; discriminate); try discriminate; [apply (act_here _ _ _ I _ _ Ea)|right; rewrite La; auto|].
  assert (X3 : Rk T v' (cupd (cupd L (Wk m) LRdy) a LRdy) (upd (tact (W s)) t None) (clk s) k1).
  { apply (Rk_view _ _ _ _ _ _ _ _ _ X2); auto.
    - intros c Fc F. unfold v'. destruct (ctx_dec c a) as [->|N1]; [rewrite !cupd_same in *; auto|]. rewrite !(cupd_other _ a) in * by auto.
      destruct (ctx_dec c (Wk m)) as [->|N2]; [|now rewrite !cupd_other by auto]. rewrite !cupd_same. rewrite P in F. destruct F as [F1 F2 F3 F4 F5 F6]. simpl in *. rewrite En in *.
      constructor; simpl; auto; try discriminate; try (now rewrite F1, F6). }
  destruct (Rk_pick _ _ _ _ _ _ (Wk m) t X3) as (k2 & Y1 & Y2); auto.
  - exact Logic.I.
  - apply upd_same.
  - unfold v'. rewrite !(cupd_other _ a) by auto. now rewrite !cupd_same.
  - unfold v'. rewrite !(cupd_other _ a) by auto. now rewrite !cupd_same.
  - unfold v'. rewrite !(cupd_other _ a) by auto. rewrite !cupd_same. discriminate.
  - unfold v'. rewrite !(cupd_other _ a) by auto. rewrite !cupd_same. discriminate.
  - unfold v'. rewrite !(cupd_other _ a) by auto. rewrite !cupd_same. reflexivity.
  - exists k2. split; [apply (exec_two k [AYield (code a)] k1 [ASys (Kernel.Pick (code (Wk m)) t)] k2 X1); cbn [exec kdo]; now rewrite Y1|].
    eapply (RR_mk T s' v' w' _ (tact w')); auto; [apply (ia_disp _ _ _ t a m I); auto|]. rewrite Hk. apply (Rk_ext _ _ _ _ _ _ _ _ _ Y2); auto.
    + intros c _. destruct (ctx_dec c a) as [->|N1]; [rewrite (cupd_other _ (Wk m)), !cupd_same by auto; auto|]. destruct (ctx_dec c (Wk m)) as [->|N2]; [rewrite (cupd_other _ a), !cupd_same by auto; auto|]. now rewrite !cupd_other by auto.
    + intros u Iu. unfold w'. rewrite tact_upd. destruct (Nat.eq_dec u t) as [->|N]; [now rewrite !upd_same|now rewrite !upd_other by auto].
Qed.

Lemma sim_down t : In t T -> act (th s t) = Dp t -> pcc (cx s (Dp t)) = DFin ->
  let v' := cupd (V s) (Dp t) (spc (V s (Dp t)) DGone) in
  let w' := upd (W s) t (mkW (Mn t) (wr (W s t)) (wm (W s t)) (wt (W s t)) (ws (W s t))) in
  (forall c, V s' c = v' c) -> (forall u, W s' u = w' u) -> clk s' = clk s ->
  exists k', exec kdo k [ASys (Kernel.Pick (code (Mn t)) t)] = Some k' /\ RR T s' k'.
Proof.
  intros It Ea Ep v' w' Hv Hw Hk. destruct RS as (L & I & R). destruct (a_home _ _ _ I t) as [Hd Hm].
  assert (Hs : pcc (cx s (Mn t)) = PShut2 /\ L (Mn t) = LNo).
  { pose proof (proj1 (a_sh _ _ _ I t) (a_dfin _ _ _ I _ Ep)) as X. pose proof (a_pc _ _ _ I (Mn t)) as P. unfold pcok in P.
    assert (N : L (Mn t) <> LAct) by (intros E; pose proof (a_run _ _ _ I (Mn t) (or_introl E)) as Y; rewrite Hm in Y; simpl in Y; congruence).
    pose proof (a_shut _ _ _ I t) as Z. simpl in *. destruct X as [X|[X|X]]; rewrite X in P.
    - exfalso. tauto.
    - split; auto. destruct P as [P|P]; auto; contradiction.
    - exfalso. specialize (Z (or_intror X)). congruence. }
  destruct Hs as [Hs Ln].
  assert (X3 : Rk T v' (cupd L (Dp t) LNo) (tact (W s)) (clk s) k).
  { apply (Rk_view _ _ _ _ _ _ _ _ _ R); auto.
    - intros c Fc F. unfold v'. rewrite !cupd_other; auto; intros ->; contradiction.
    - intros u. unfold v'. destruct (ctx_dec (Dp u) (Dp t)) as [E|N]; [injection E as ->; now rewrite cupd_same|now rewrite cupd_other]. }
  destruct (Rk_pick _ _ _ _ _ _ (Mn t) t X3) as (k2 & Y1 & Y2); auto.
  - unfold tact. simpl. now rewrite Ea.
  - unfold v'. rewrite !cupd_other by discriminate. rewrite Ln. simpl. now rewrite Hs.
  - unfold v'. rewrite !cupd_other by discriminate. rewrite Ln. simpl. now rewrite Hs.
  - unfold v'. rewrite !cupd_other by discriminate. simpl. rewrite Hs. discriminate.
  - unfold v'. rewrite !cupd_other by discriminate. simpl. rewrite Hs. discriminate.
  - exists k2. split; [cbn [exec kdo]; now rewrite Y1|].
    eapply (RR_mk T s' v' w' _ (tact w')); auto; [apply (ia_end _ _ _ t I); auto|]. rewrite Hk. apply (Rk_ext _ _ _ _ _ _ _ _ _ Y2); auto.
    intros u Iu. unfold w'. now rewrite tact_upd.
Qed.

Theorem sim_step al ot : ltr s s' al ot -> (forall t, ot = Some t -> In t T) -> exists k', exec kdo k al = Some k' /\ RR T s' k'.
Proof.
  intros X HT. assert (KA : forall c, kind c (pcc (cx s c))) by (destruct RS as (L & I & _); intros c; apply (a_kind _ _ _ I c)).
  ltrd X; subst al; try specialize (HT t eq_refl).
  - destruct RS as (L & I & R). eexists. split; [reflexivity|]. exists L. split; [eapply ia_ext; eauto; [vw Qc|tww Qt]|]. eapply Rk_ext with (v := V s) (ta := tact (W s)); [|vw Qc|auto|intros; apply tact_ext; tww Qt].
    destruct R as [R1 R2 R3 R4 R5 R6]. constructor; simpl; auto. rewrite Qk, <- R1. lia.
  - exists k. split; auto. apply sim_same; auto; [vw Qc|tww Qt].
  - exists k. split; auto. pose proof (KA a) as Ka. apply (sim_pc t a p); simpl; auto; try (now vw Qc); try (now tww Qt); inversion M; subst; rewrite ?H in *; simpl in *; auto; try discriminate; try congruence.
    all: destruct (act (th s t)); auto; try contradiction; discriminate.
  - (* post *) exists k. split; auto. destruct RS as (L & I & R). subst c.
    pose proof (a_pc _ _ _ I (Wk n)) as P. unfold pcok in P. simpl in P. rewrite En in P.
    eapply (RR_mk T s' (cupd (V s) (Wk n) (mkV PNew 0 [] t)) (upd (W s) t (mkW (wa (W s t)) (wr (W s t) ++ [Wk n]) (wm (W s t)) (wt (W s t)) (ws (W s t)))) (cupd L (Wk n) LRdy) (tact (W s)) k).
    + apply ia_ready; simpl; rewrite ?En; auto; [right; eauto|unfold pcok; simpl; auto|intros e []].
    + rewrite Qk. apply (Rk_view _ _ _ _ _ _ _ _ _ R); auto.
      * intros c Fc F. destruct (ctx_dec c (Wk n)) as [->|N]; [rewrite !cupd_same|now rewrite !cupd_other by auto]. destruct F as [F1 F2 F3 F4 F5 F6]. simpl in *. rewrite P in *. unfold qd, rn in *. simpl in *. rewrite En in *.
        constructor; simpl; auto; try discriminate; try (now rewrite F1, F6).
    + intros u _. apply tact_keep.
    + vw Qc.
    + tww Qt.
  - (* dispatch *) subst c. apply (sim_launch t a n); auto; [vw Qc|tww Qt].
  - (* switched out *) destruct RS as (L & I & R). assert (Hr : forall y, rq (th s y) = wr (W s y)) by auto.
    assert (Hr' : wr (W s t) = c :: r) by (simpl; auto). pose proof (KA a) as Ka. destruct Po as [E1 E2|E1|tp e E1 E2 E3|tp e E1 E2 E3|e E1|E1|E1]; simpl pcc; cbn [preact].
    + destruct (s_yield T (V s) (W s) L (clk s) k s I R Hr t a c r HT Ea Hr' E1) as (k' & L' & X1 & X2 & X3). exists k'. split; auto. eapply (RR_mk T s' _ _ L' _ k' X2); [rewrite Qk; exact X3|auto|vw Qc|tww Qt].
    + destruct (s_disp T (V s) (W s) L (clk s) k s I R Hr t a c r HT Ea Hr' E1) as (k' & L' & X1 & X2 & X3). exists k'. split; auto. eapply (RR_mk T s' _ _ L' _ k' X2); [rewrite Qk; exact X3|auto|vw Qc|tww Qt].
    + subst e. destruct (s_wait T (V s) (W s) L (clk s) k s I R Hr t a c r HT Ea Hr' (WTimed tp) tp (S (ep (cx s a)) :: iss (cx s a)) E1 eq_refl) as (k' & L' & X1 & X2 & X3); auto. exists k'. split; auto. eapply (RR_mk T s' _ _ L' _ k' X2); [rewrite Qk; exact X3|auto|vw Qc|tww Qt].
    + subst e. destruct (s_wait T (V s) (W s) L (clk s) k s I R Hr t a c r HT Ea Hr' (WSleep tp) tp (iss (cx s a)) E1 eq_refl) as (k' & L' & X1 & X2 & X3); auto. exists k'. split; auto. eapply (RR_mk T s' _ _ L' _ k' X2); [rewrite Qk; exact X3|auto|vw Qc|tww Qt].
    + destruct (s_susp T (V s) (W s) L (clk s) k s I R Hr t a c r HT Ea Hr' e E1) as (k' & L' & X1 & X2 & X3). exists k'. split; auto. eapply (RR_mk T s' _ _ L' _ k' X2); [rewrite Qk; exact X3|auto|vw Qc|tww Qt].
    + destruct (s_leave T (V s) (W s) L (clk s) k s I R Hr t a c r HT Ea Hr' PDead) as (k' & L' & X1 & X2 & X3); auto. exists k'. split; auto. eapply (RR_mk T s' _ _ L' _ k' X2); [rewrite Qk; exact X3|auto|vw Qc|tww Qt].
    + destruct (s_leave T (V s) (W s) L (clk s) k s I R Hr t a c r HT Ea Hr' PShut2) as (k' & L' & X1 & X2 & X3); auto. exists k'. split; auto. eapply (RR_mk T s' _ _ L' _ k' X2); [rewrite Qk; exact X3|auto|vw Qc|tww Qt].
  - (* arm *) destruct RS as (L & I & R). subst e. pose proof (KA a) as Ka. rewrite Ep in Ka. assert (La : L a = LAct) by (apply (act_loc _ _ _ I t a Ea); simpl; now rewrite Ep).
    assert (Fa : isf a) by (clear -Ka; destruct a; simpl in *; auto). assert (Nn : vp (V s a) <> PNone) by (simpl; rewrite Ep; discriminate).
    destruct (sim_arm T (V s) (W s) L (clk s) k I R t a (PArmed (S (ep (cx s a)))) (S (ep (cx s a)) :: iss (cx s a))) as (k' & X1 & X2); auto; try discriminate.
    exists k'. split; auto. eapply RR_mk; [apply (ia_arm _ _ _ t a I); auto|rewrite Qk; exact X2|auto|vw Qc|tww Qt].
  - (* woken before *) destruct (pwake_keep _ _ _ _ _ _ _ _ _ Pw) as (K1 & K2 & K3 & K4 & K5). exists k. split; [eapply sim_missed; eauto|]. apply sim_same; auto; [vw Qc|tww Qt].
  - (* woken here *) destruct (pwake_keep _ _ _ _ _ _ _ _ _ Pw) as (K1 & K2 & K3 & K4 & K5). destruct RS as (L & I & R).
    destruct (wake_target _ _ _ _ _ _ _ _ Ea Pw Ee) as [Hw Fg]. pose proof (wake_place L g I Hw) as Lg.
    destruct (sim_woken t a g e k0 x sl ev LRdy L) as (k1 & X1 & X2); auto. exists k1. split; auto.
    assert (Pg : exists y, vp (V s g) = PSusp (ve (V s g)) y /\ L g = LNo).
    { assert (Na : vp (V s g) <> PArmed (ve (V s g))). { intros E. apply Eg. rewrite Ea, <- Eh. apply (a_run _ _ _ I g). right. now rewrite E. }
      destruct Lg as [Lg|[_ Lg]]; [|destruct Hw as [[E|[E|[tp E]]]|[y E]]; rewrite E in Lg; try discriminate Lg; contradiction].
      destruct Hw as [[E|[E|[tp E]]]|[y E]]; eauto; contradiction. }
    destruct Pg as (y & Py & Ln).
    eapply (RR_mk T s' _ (upd (W s) t (mkW (wa (W s t)) (wr (W s t) ++ [g]) (wm (W s t)) (wt (W s t)) (ws (W s t)))) _ (tact (W s)) k1); [apply ia_ready; [exact I|exact Ln|..]|rewrite Qk; exact X2|..].
    all: try (simpl; simpl in Py; rewrite ?Py; auto; fail).
    + unfold pcok. simpl. simpl in Py. rewrite Py. right. split; auto. discriminate.
    + intros e' He. simpl in *. destruct (a_iss _ _ _ I _ _ He) as [Y1 Y2]. simpl in *. split; lia.
    + intros u _. apply tact_keep.
    + vw Qc.
    + tww Qt.
  - (* woken there *) destruct (pwake_keep _ _ _ _ _ _ _ _ _ Pw) as (K1 & K2 & K3 & K4 & K5). destruct RS as (L & I & R).
    destruct (wake_target _ _ _ _ _ _ _ _ Ea Pw Ee) as [Hw Fg]. pose proof (wake_place L g I Hw) as Lg. destruct (waker_act L t a g e k0 x sl ev I Ea Pw) as [La Aa].
    assert (D : forall nw, k0 <> KDisp nw).
    { intros nw ->. inversion Pw as [| |nw' tp r X1 X2 X3]. destruct (b_slp _ (i_1 _ J) t tp g e) as (Y1 & _); [rewrite X2; now left|]. congruence. }
    pose proof (waker_isf _ _ _ _ _ _ _ _ Pw D) as Fa.
    destruct (sim_woken t a g e k0 x sl ev (LFly a) L) as (k1 & X1 & X2); auto; [intros nw E; now destruct (D nw)|]. exists k1. split; auto.
    eapply (RR_mk T s' _ (W s) _ (tact (W s)) k1); [apply (ia_wake_far _ _ _ t a g k0 I); auto| | |..].
    + pose proof (KA a) as Ka. rewrite K5 in Ka. destruct k0 as [| |nw]; simpl in *; auto; now destruct (D nw).
    + rewrite Qk. apply (Rk_view _ _ _ _ _ _ _ _ _ X2); auto.
      * intros c Fc F. destruct (ctx_dec c a) as [->|N]; [rewrite cupd_same|now rewrite (cupd_other _ a)]. rewrite !(cupd_other _ g) in * by auto. rewrite La in *. apply fm_act; auto; try discriminate.
        simpl. rewrite K5. destruct k0; discriminate.
      * intros u Nu. rewrite (cupd_other _ a); auto. intros E. apply Nu. pose proof (act_here _ _ _ I t a Ea) as Y. rewrite <- E in Y. destruct (a_home _ _ _ I u) as [_ Z]. congruence.
      * intros u. rewrite (cupd_other _ a); auto. intros E. rewrite <- E in Fa. exact Fa.
    + auto.
    + vw Qc. unfold spc. simpl. congruence.
    + tww Qt.
  - (* push *) exists k. split; auto. destruct RS as (L & I & R). assert (Lg : L g = LFly a) by (apply (a_fly _ _ _ I); simpl; now rewrite Ep).
    eapply RR_mk; [apply (ia_push _ _ _ t a g k0 u I); auto|rewrite Qk|intros; apply tact_keep|vw Qc|tww Qt].
    assert (R1 : Rk T (cupd (V s) a (spc (V s a) (PNote u k0))) L (tact (W s)) (clk s) k).
    { apply (rk_pc T _ (W s) L _ k I R t); auto; try discriminate. simpl. now rewrite Ep. }
    apply (Rk_view _ _ _ _ _ _ _ _ _ R1); auto. intros c Fc F. destruct (ctx_dec c g) as [->|N]; [rewrite (cupd_same _ g)|now rewrite (cupd_other _ g)]. rewrite Lg in F. apply (fm_place _ _ _ _ F); auto. discriminate.
  - exists k. split; auto. pose proof (KA a) as Ka. rewrite Ep in Ka. eapply (sim_pc t a (kpc k0)); simpl; auto; try (now vw Qc); try (now tww Qt); rewrite ?Ep; destruct k0; simpl in *; auto; try discriminate; contradiction.
  - exists k. split; auto. pose proof (KA a) as Ka. rewrite Ep in Ka. eapply (sim_pc t a (PJoin h c)); simpl; auto; try (now vw Qc); try (now tww Qt); rewrite ?Ep; simpl in *; auto; try discriminate.
  - (* join *) destruct RS as (L & I & R). subst e. assert (Hr : forall y, rq (th s y) = wr (W s y)) by auto. assert (Hr' : wr (W s t) = d :: r) by (simpl; auto).
    destruct (s_join T (V s) (W s) L (clk s) k s I R Hr t a d r HT Ea Hr' h c Ep) as (k' & L' & X1 & X2 & X3). exists k'. split; auto. eapply (RR_mk T s' _ _ L' _ k' X2); [rewrite Qk; exact X3|auto|vw Qc|tww Qt].
  - exists k. split; auto. destruct (prel_keep _ _ _ _ _ Pz) as (K1 & K2 & K3 & K4 & K5 & K6 & K7).
    pose proof (KA a) as Ka. rewrite Ep in Ka. eapply (sim_pc t a PIdle); simpl; auto; try (now tww Qt); rewrite ?Ep; simpl in *; auto; try discriminate.
    vw Qc; rewrite ?K1, ?K2, ?K3, ?K4; cupds; simpl; auto.
  - exists k. split; auto. destruct (prel_keep _ _ _ _ _ Pz) as (K1 & K2 & K3 & K4 & K5 & K6 & K7). apply sim_same; auto; [vw Qc|tww Qt].
  - exists k. split; auto. apply sim_same; auto; [vw Qc|tww Qt].
  - (* shutdown *) exists k. split; auto. destruct RS as (L & I & R). eapply RR_mk; [apply (ia_shut _ _ _ t (Mn u) I); simpl; auto|rewrite Qk|intros; apply tact_keep|vw Qc|tww Qt].
    apply (rk_pc T _ (W s) L _ k I R t); auto; try discriminate. simpl. now rewrite Ep.
  - exists k. split; auto. pose proof (KA a) as Ka. rewrite Ep in Ka. eapply (sim_pc t a PTerm); simpl; auto; try (now vw Qc); try (now tww Qt); rewrite ?Ep; simpl in *; auto; try discriminate.
  - exists k. split; auto. pose proof (KA a) as Ka. rewrite Ep in Ka. eapply (sim_pc t a PLeave); simpl; auto; try (now vw Qc); try (now tww Qt); rewrite ?Ep; simpl in *; auto; try discriminate.
  - exists k. split; auto. destruct (prel_keep _ _ _ _ _ Pz) as (K1 & K2 & K3 & K4 & K5 & K6 & K7).
    pose proof (KA a) as Ka. rewrite Ep in Ka. assert (Na : a <> Dp t) by (intros E; rewrite E in Ka; exact Ka). cupds.
    eapply (sim_pc t a PGone); simpl; auto; try (now vw Qc); try (now tww Qt); rewrite ?Ep; simpl in *; auto; try discriminate.
  - exists k. split; auto. eapply (sim_pc t (Dp t) (match wkr (th s t) with [] => DFin | _ => DRel end)); simpl; auto; try (now vw Qc); try (now tww Qt); rewrite ?Ep; destruct (wkr (th s t)); simpl in *; auto; try discriminate.
  - exists k. split; auto. destruct (prel_keep _ _ _ _ _ Pz) as (K1 & K2 & K3 & K4 & K5 & K6 & K7). apply sim_same; auto; [vw Qc|tww Qt].
  - (* swap *) exists k. split; auto. destruct RS as (L & I & R). eapply RR_mk; [apply (ia_swap _ _ _ t I); simpl; auto|rewrite Qk|intros; apply tact_keep|vw Qc|tww Qt].
    assert (R1 : Rk T (cupd (V s) (Dp t) (spc (V s (Dp t)) DDrain)) L (tact (W s)) (clk s) k).
    { apply (rk_pc T _ (W s) L _ k I R t); auto; try discriminate. simpl. now rewrite Ep. }
    apply (Rk_view _ _ _ _ _ _ _ _ _ R1); auto. intros c Fc F. destruct (mem c (wm (W s t))) eqn:Em; auto. apply mem_In in Em. destruct (proj1 (a_rrq _ _ _ I _ _) Em) as [Lc _]. rewrite Lc in F. apply (fm_place _ _ _ _ F); auto. discriminate.
  - (* drain *) exists k. split; auto. destruct RS as (L & I & R). assert (Ic : In c (wt (W s t))) by (simpl; rewrite Et; now left). destruct (proj1 (a_tmp _ _ _ I _ _) Ic) as [Lc _].
    eapply RR_mk; [apply (ia_drain _ _ _ t c r I); simpl; auto|rewrite Qk|intros; apply tact_keep|vw Qc|tww Qt].
    apply (Rk_view _ _ _ _ _ _ _ _ _ R); auto. intros d Fc F. destruct (ctx_dec d c) as [->|N]; [rewrite (cupd_same _ c)|now rewrite (cupd_other _ c)]. rewrite Lc in F. apply (fm_place _ _ _ _ F); auto. discriminate.
  - exists k. split; auto. eapply (sim_pc t (Dp t) DTop); simpl; auto; try (now vw Qc); try (now tww Qt); rewrite ?Ep; simpl in *; auto; try discriminate.
  - apply (sim_down t); auto; [vw Qc|tww Qt].
Qed.
End Main.
