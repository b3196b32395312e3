(** Proofs about the scheduler: the relation to Kernel.v that every step keeps, over views (SchedFacts.v). *)
From Coq Require Import List Arith Bool Lia.
From Verif Require Import Base Sched SchedSpec SchedFacts SchedFacts2 SchedFacts3 SchedKern SchedKernFacts.
From Verif Require Kernel.
Import ListNotations.

Definition rn (x : vw) (l : place) : bool := match l with LAct => true | _ => armed (vp x) end.
Definition qd (x : vw) (l : place) : bool := match l with LNo => match vp x with PNone | PShut2 => true | _ => false end | LAct => false | _ => true end.
Record fm (x : vw) (l : place) (f : Kernel.fiber) : Prop := {
  f_ep : Kernel.epoch f = ve x;
  f_rn : Kernel.running f = rn x l;
  f_qd : Kernel.queued f = qd x l;
  f_hm : vp x = PNone \/ (vp x = PNew /\ l = LRdy) \/ Kernel.home f = vh x;
  f_sl : forall y tp, vp x = PSusp (ve x) y -> dl y = Some tp -> Kernel.sleep f = Some (tp, ve x);
  f_no : vp x = PNone -> ve x = 0
}.
Record Rk (T : list tid) (v : ctx -> vw) (L : ctx -> place) (ta : tid -> option Kernel.fid) (n : nat) (k : Kernel.kern) : Prop := {
  r_now : Kernel.now k = n;
  r_err : Kernel.err k = false;
  r_thr : forall t, In t T -> Kernel.thr k t = ta t;
  r_fib : forall c, fiber_of T c -> fm (v c) (L c) (Kernel.fib k (code c));
  r_out : forall u, ~ In u T -> vp (v (Mn u)) = PIdle /\ ve (v (Mn u)) = 0 /\ Kernel.epoch (Kernel.fib k (code (Mn u))) = 0;
  r_dp : forall t, vi (v (Dp t)) = []
}.
Definition tact (w : tid -> tw) (t : tid) : option Kernel.fid := match wa (w t) with Dp _ => None | c => Some (code c) end.

Definition isf (c : ctx) : Prop := match c with Dp _ => False | _ => True end.
Lemma code_inj a b : isf a -> isf b -> code a = code b -> a = b.
Proof. destruct a, b; simpl; try contradiction; intros _ _ H; f_equal; lia. Qed.
Lemma fiber_isf T c : fiber_of T c -> isf c.
Proof. destruct c; simpl; auto. Qed.

Lemma Rk_ext T v L ta n k v' L' ta' : Rk T v L ta n k -> (forall c, v' c = v c) -> (forall c, isf c -> L' c = L c) -> (forall t, In t T -> ta' t = ta t) -> Rk T v' L' ta' n k.
Proof.
  intros R Hv HL Ht. destruct R as [R1 R2 R3 R4 R5 R6]. constructor; intros; rewrite ?Hv; auto.
  - now rewrite Ht, R3.
  - rewrite HL; [now apply R4|]. now apply (fiber_isf T).
Qed.

(** One fiber changes. *)
Lemma Rk_upd T v L ta n k a x l f ta' k' : Rk T v L ta n k -> fiber_of T a ->
  (forall i, Kernel.fib k' i = upd (Kernel.fib k) (code a) f i) -> fm x l f -> (forall t, In t T -> Kernel.thr k' t = ta' t) -> Kernel.now k' = n -> Kernel.err k' = false ->
  Rk T (cupd v a x) (cupd L a l) ta' n k'.
Proof.
  intros R Fa Hf Fm Ht Hn He. constructor; auto.
  - intros c Fc. rewrite Hf. destruct (ctx_dec c a) as [->|N]; [rewrite !cupd_same, upd_same; auto|]. rewrite !cupd_other by auto. rewrite upd_other; [now apply (r_fib _ _ _ _ _ _ R)|].
    intros E. apply N. apply code_inj; eauto using fiber_isf.
  - intros u Nu. assert (N : Mn u <> a) by (intros <-; contradiction). rewrite cupd_other by auto. rewrite Hf, upd_other; [now apply (r_out _ _ _ _ _ _ R)|].
    intros E. apply N. apply code_inj; simpl; eauto using fiber_isf.
  - intros t. assert (N : Dp t <> a) by (intros <-; contradiction). rewrite cupd_other by auto. apply (r_dp _ _ _ _ _ _ R).
Qed.
(** Only the views change. *)
Lemma Rk_view T v L ta n k v' L' ta' : Rk T v L ta n k -> (forall t, In t T -> ta' t = ta t) ->
  (forall c, fiber_of T c -> fm (v c) (L c) (Kernel.fib k (code c)) -> fm (v' c) (L' c) (Kernel.fib k (code c))) ->
  (forall u, ~ In u T -> v' (Mn u) = v (Mn u)) -> (forall t, vi (v' (Dp t)) = vi (v (Dp t))) -> Rk T v' L' ta' n k.
Proof.
  intros [R1 R2 R3 R4 R5 R6] Ht Hf Ho Hd. constructor; intros; rewrite ?Hd; auto.
  - now rewrite Ht, R3.
  - rewrite Ho; auto.
Qed.

Lemma fm_act x p f : fm x LAct f -> vp x <> PNone -> (forall e y, p <> PSusp e y) -> p <> PNone -> fm (spc x p) LAct f.
Proof.
  intros [F1 F2 F3 F4 F5 F6] N1 N2 N3. constructor; simpl in *; auto.
  - right. right. destruct F4 as [F4|[[_ F4]|F4]]; auto; [contradiction|discriminate F4].
  - intros y tp E. now apply N2 in E.
  - contradiction.
Qed.
Definition inq (l : place) : bool := match l with LNo | LAct => false | _ => true end.
Lemma fm_place x l l' f : fm x l f -> inq l = true -> inq l' = true -> l <> LRdy -> fm x l' f.
Proof.
  intros [F1 F2 F3 F4 F5 F6] I1 I2 N. constructor; auto.
  - rewrite F2. destruct l, l'; simpl in *; try discriminate; auto.
  - rewrite F3. destruct l, l'; simpl in *; try discriminate; auto.
  - destruct F4 as [F4|[[_ F4]|F4]]; auto. contradiction.
Qed.

(** A thread without a fiber picks one. *)
Lemma Rk_pick T v L ta n k c t : Rk T v L ta n k -> fiber_of T c -> In t T -> ta t = None -> qd (v c) (L c) = true -> rn (v c) (L c) = false ->
  (forall y, vp (v c) <> PSusp (ve (v c)) y) -> vp (v c) <> PNone -> vh (v c) = t ->
  exists k', Kernel.kstep k (Kernel.Pick (code c) t) = Some k' /\ Rk T v (cupd L c LAct) (upd ta t (Some (code c))) n k'.
Proof.
  intros R Fc It Ht Hq Hr Hs Hn Hh. pose proof (r_fib _ _ _ _ _ _ R c Fc) as F. destruct F as [F1 F2 F3 F4 F5 F6].
  unfold Kernel.kstep. rewrite (r_thr _ _ _ _ _ _ R t It), Ht, F3, F2, Hq, Hr. simpl. eexists. split; [reflexivity|].
  assert (X : Rk T (cupd v c (v c)) (cupd L c LAct) (upd ta t (Some (code c))) n
    (Kernel.mkKern (upd (Kernel.fib k) (code c) (Kernel.mkFiber (Kernel.epoch (Kernel.fib k (code c))) true false t None)) (upd (Kernel.thr k) t (Some (code c))) (Kernel.now k) (Kernel.err k))).
  { eapply Rk_upd; [eassumption|eassumption|intros; reflexivity|..]; simpl; auto.
    - constructor; simpl; auto. intros y tp E. now apply Hs in E.
    - intros u Iu. destruct (Nat.eq_dec u t) as [->|N]; [now rewrite !upd_same|]. rewrite !upd_other by auto. now apply (r_thr _ _ _ _ _ _ R).
    - apply R.
    - apply R. }
  eapply Rk_ext; eauto. intros d. destruct (ctx_dec d c) as [->|N]; [now rewrite cupd_same|now rewrite cupd_other].
Qed.

Section Sim.
Variables (T : list tid) (v : ctx -> vw) (w : tid -> tw) (L : ctx -> place) (n : nat) (k : Kernel.kern).
Hypotheses (I : IA v w L) (R : Rk T v L (tact w) n k).

Lemma in_rq_fiber t c : In t T -> In c (wr (w t)) -> isf c -> fiber_of T c.
Proof.
  intros It H F. pose proof (proj1 (a_rq _ _ _ I t c) H) as [_ X]. destruct c; simpl in *; auto. destruct (a_home _ _ _ I t0) as [_ Y]. rewrite Y in X. now subst.
Qed.
Lemma act_fiber t : In t T -> isf (wa (w t)) -> fiber_of T (wa (w t)).
Proof.
  intros It F. pose proof (a_act _ _ _ I t) as [X _]. destruct (wa (w t)) as [u|u|u]; simpl in *; auto. destruct (a_home _ _ _ I u) as [_ Y]. congruence.
Qed.
Lemma kind_isf c p : kind c p -> match p with DTop | DRel | DSwap | DDrain | DSleep _ | DPick | DRes | DIdle _ | DFin | DGone => False | _ => True end ->
  (forall g nw, p <> PPush g (KDisp nw)) -> (forall g nw, p <> PNote g (KDisp nw)) -> isf c.
Proof. intros K H N1 N2. destruct c; simpl; auto. destruct p; simpl in *; auto; try contradiction; destruct k0; simpl in *; auto. Qed.

(** The active context [a] has been switched out in [k1]; its thread picks the next. *)
Lemma sim_next t c r a x la k1 (s : state) : In t T -> wa (w t) = a -> wr (w t) = c :: r -> c <> a ->
  (forall y, rq (th s y) = wr (w y)) ->
  Rk T (cupd v a x) (cupd L a la) (upd (tact w) t None) n k1 ->
  exists k', exec kdo k1 (next s t) = Some k' /\ Rk T (cupd v a x) (cupd (cupd L a la) c LAct) (upd (tact w) t (match c with Dp _ => None | _ => Some (code c) end)) n k'.
Proof.
  intros It Ea Er N Hs R1. destruct (head_facts _ _ _ _ _ _ _ I (eq_sym Ea) Er) as (Lc & Hc & _ & _ & _ & _ & _ & Ac & Pc & _).
  assert (Ic : In c (wr (w t))) by (rewrite Er; now left).
  assert (D : isf c \/ exists u, c = Dp u) by (destruct c; simpl; eauto). destruct D as [D|[u ->]].
  - assert (Q : exec kdo k1 (next s t) = exec kdo k1 [ASys (Kernel.Pick (code c) t)]) by (unfold next; rewrite Hs, Er; destruct c; auto; contradiction).
    rewrite Q. cbn [exec kdo]. pose proof (a_pc _ _ _ I c) as P. unfold pcok in P. rewrite Lc in P.
    destruct (Rk_pick _ _ _ _ _ _ c t R1) as (k' & K1 & K2); auto.
    + now apply (in_rq_fiber t).
    + apply upd_same.
    + rewrite !cupd_other by auto. now rewrite Lc.
    + rewrite !cupd_other by auto. rewrite Lc. exact Ac.
    + rewrite !cupd_other by auto. intros y E. rewrite E in P. destruct P as [[_ P]|[P _]]; [discriminate P|lia].
    + rewrite !cupd_other by auto. intros E. rewrite E in P. discriminate P.
    + now rewrite cupd_other.
    + rewrite K1. exists k'. split; auto. eapply Rk_ext; eauto. intros q Iq. destruct c; try contradiction; destruct (Nat.eq_dec q t) as [->|Nq]; rewrite ?upd_same, ?upd_other by auto; auto; now rewrite !upd_other by auto.
  - assert (Q : next s t = []) by (unfold next; now rewrite Hs, Er). rewrite Q. simpl. exists k1. split; auto. eapply Rk_ext; eauto. intros d Fd. rewrite (cupd_other _ (Dp u)); auto. intros ->. contradiction.
Qed.

(** The active fiber is switched out: [suspend] and [yield] of Kernel.v. *)
Lemma sim_out t a x la q : In t T -> a = wa (w t) -> isf a -> vh x = t -> ve x = ve (v a) -> vp (v a) <> PNone -> vp x <> PNone -> armed (vp x) = false -> la <> LAct ->
  (forall y tp, vp x = PSusp (ve x) y -> dl y = Some tp -> False) ->
  q = false /\ qd x la = qd (v a) (L a) \/ (q = true /\ qd (v a) (L a) = false /\ qd x la = true) ->
  exists k1, exec kdo k [if q then AYield (code a) else ASusp (code a)] = Some k1 /\ Rk T (cupd v a x) (cupd L a la) (upd (tact w) t None) n k1.
Proof.
  intros It Ea Fa Hx He N1 N2 Ax Nl Hs Hq. assert (FT : fiber_of T a) by (rewrite Ea in *; now apply act_fiber).
  pose proof (r_fib _ _ _ _ _ _ R a FT) as F. destruct F as [F1 F2 F3 F4 F5 F6].
  assert (Rn : rn (v a) (L a) = true) by (destruct (a_act _ _ _ I t) as [_ [X|X]]; rewrite <- Ea in X; unfold rn; rewrite X; auto; destruct (L a); auto).
  assert (Ha : vh (v a) = t) by (apply (act_here _ _ _ I _ _ Ea)).
  assert (Hm : Kernel.home (Kernel.fib k (code a)) = t).
  { destruct F4 as [F4|[[F4 F5']|F4]]; [contradiction| |congruence]. exfalso. unfold rn in Rn. rewrite F5', F4 in Rn. discriminate Rn. }
  assert (Th : forall u, In u T -> upd (Kernel.thr k) t None u = upd (tact w) t None u).
  { intros u Iu. destruct (Nat.eq_dec u t) as [->|N]; [now rewrite !upd_same|]. rewrite !upd_other by auto. now apply (r_thr _ _ _ _ _ _ R). }
  assert (Rx : rn x la = false) by (unfold rn; destruct la; auto; contradiction).
  destruct Hq as [[-> Hq]|(-> & Hq & Hq')]; simpl; rewrite F2, Rn; eexists; (split; [reflexivity|]).
  - eapply Rk_upd; [eassumption|eassumption|intros; reflexivity|..]; simpl; rewrite ?Hm; try apply R; auto. constructor; simpl; rewrite ?F1, ?F3, ?Hm; auto.
    + intros y tp E1 E2. destruct (Hs y tp E1 E2).
    + contradiction.
  - eapply Rk_upd; [eassumption|eassumption|intros; reflexivity|..]; simpl; rewrite ?Hm; try apply R; auto; [|rewrite F3, Hq, (r_err _ _ _ _ _ _ R); auto]. constructor; simpl; rewrite ?F1, ?F3, ?Hm; auto.
    + intros y tp E1 E2. destruct (Hs y tp E1 E2).
    + contradiction.
Qed.
(** create_waker: only the epoch changes. *)
Lemma sim_arm t a p i : In t T -> a = wa (w t) -> isf a -> L a = LAct -> vp (v a) <> PNone -> p <> PNone -> (forall e y, p <> PSusp e y) ->
  exists k1, exec kdo k [AArm (code a)] = Some k1 /\ Rk T (cupd v a (mkV p (S (ve (v a))) i (vh (v a)))) L (tact w) n k1.
Proof.
  intros It Ea Fa La N1 N2 N3. assert (FT : fiber_of T a) by (rewrite Ea in *; now apply act_fiber).
  pose proof (r_fib _ _ _ _ _ _ R a FT) as F. destruct F as [F1 F2 F3 F4 F5 F6]. simpl. rewrite F2, La. simpl. eexists. split; [reflexivity|].
  assert (X : Rk T (cupd v a (mkV p (S (ve (v a))) i (vh (v a)))) (cupd L a LAct) (tact w) n (Kernel.set_fib k (code a) (Kernel.mkFiber (S (Kernel.epoch (Kernel.fib k (code a)))) true (Kernel.queued (Kernel.fib k (code a))) (Kernel.home (Kernel.fib k (code a))) (Kernel.sleep (Kernel.fib k (code a)))))).
  { eapply Rk_upd; [eassumption|eassumption|intros; reflexivity|..]; simpl; try apply R; auto. rewrite La in *. constructor; simpl; auto.
    - right. right. destruct F4 as [F4|[[_ F4]|F4]]; auto; [contradiction|discriminate F4].
    - intros y tp E. now apply N3 in E.
    - contradiction. }
  apply (Rk_ext _ _ _ _ _ _ _ _ _ X); auto. intros c _. destruct (ctx_dec c a) as [->|N]; [now rewrite cupd_same|now rewrite cupd_other].
Qed.
(** wait_until. *)
Lemma sim_wait t a y tp i : In t T -> a = wa (w t) -> isf a -> L a = LAct -> vp (v a) <> PNone -> dl y = Some tp ->
  exists k1, exec kdo k [AWait (code a) tp] = Some k1 /\ Rk T (cupd v a (mkV (PSusp (S (ve (v a))) y) (S (ve (v a))) i (vh (v a)))) (cupd L a LNo) (upd (tact w) t None) n k1.
Proof.
  intros It Ea Fa La N1 Dl. assert (FT : fiber_of T a) by (rewrite Ea in *; now apply act_fiber).
  pose proof (r_fib _ _ _ _ _ _ R a FT) as F. destruct F as [F1 F2 F3 F4 F5 F6]. simpl. rewrite F2, La. simpl. eexists. split; [reflexivity|].
  assert (Ha : vh (v a) = t) by (apply (act_here _ _ _ I _ _ Ea)).
  assert (Hm : Kernel.home (Kernel.fib k (code a)) = t).
  { rewrite La in F4. destruct F4 as [F4|[[_ F4]|F4]]; [contradiction|discriminate F4|congruence]. }
  eapply (Rk_upd _ _ _ _ _ _ _ _ _ (Kernel.mkFiber (S (Kernel.epoch (Kernel.fib k (code a)))) false (Kernel.queued (Kernel.fib k (code a))) t (Some (tp, S (Kernel.epoch (Kernel.fib k (code a))))))); [eassumption|eassumption|..]; simpl; rewrite ?upd_same; simpl; try apply R; auto.
  - intros j. rewrite Hm. destruct (Nat.eq_dec j (code a)) as [->|N]; [now rewrite !upd_same|now rewrite !upd_other by auto].
  - rewrite La in *. constructor; simpl; auto.
    + intros y' tp' E1 E2. injection E1 as <-. rewrite Dl in E2. injection E2 as <-. now rewrite F1.
    + discriminate.
  - intros u Iu. rewrite Hm. destruct (Nat.eq_dec u t) as [->|N]; [now rewrite !upd_same|]. rewrite !upd_other by auto. now apply (r_thr _ _ _ _ _ _ R).
Qed.
(** A waker and suspension. *)
Lemma sim_block t a y i : In t T -> a = wa (w t) -> isf a -> L a = LAct -> vp (v a) <> PNone -> dl y = None ->
  exists k1, exec kdo k [AArm (code a); ASusp (code a)] = Some k1 /\ Rk T (cupd v a (mkV (PSusp (S (ve (v a))) y) (S (ve (v a))) i (vh (v a)))) (cupd L a LNo) (upd (tact w) t None) n k1.
Proof.
  intros It Ea Fa La N1 Dl. assert (FT : fiber_of T a) by (rewrite Ea in *; now apply act_fiber).
  pose proof (r_fib _ _ _ _ _ _ R a FT) as F. destruct F as [F1 F2 F3 F4 F5 F6]. simpl. rewrite F2, La. simpl. rewrite upd_same. simpl. eexists. split; [reflexivity|].
  assert (Ha : vh (v a) = t) by (apply (act_here _ _ _ I _ _ Ea)).
  assert (Hm : Kernel.home (Kernel.fib k (code a)) = t).
  { rewrite La in F4. destruct F4 as [F4|[[_ F4]|F4]]; [contradiction|discriminate F4|congruence]. }
  eapply (Rk_upd _ _ _ _ _ _ _ _ _ (Kernel.mkFiber (S (Kernel.epoch (Kernel.fib k (code a)))) false (Kernel.queued (Kernel.fib k (code a))) t (Kernel.sleep (Kernel.fib k (code a))))); [eassumption|eassumption|..]; simpl; rewrite ?upd_same; simpl; try apply R; auto.
  - intros j. rewrite Hm. destruct (Nat.eq_dec j (code a)) as [->|N]; [now rewrite !upd_same|now rewrite !upd_other by auto].
  - rewrite La in *. constructor; simpl; auto.
    + intros y' tp' E1 E2. injection E1 as <-. congruence.
    + discriminate.
  - intros u Iu. rewrite Hm. destruct (Nat.eq_dec u t) as [->|N]; [now rewrite !upd_same|]. rewrite !upd_other by auto. now apply (r_thr _ _ _ _ _ _ R).
Qed.
(** A wake-up that succeeds, by a fiber or a timer. *)
Lemma wake_fm g l f : waits_on (vp (v g)) (ve (v g)) \/ (exists y, vp (v g) = PSusp (ve (v g)) y) -> L g = LNo \/ (L g = LAct /\ armed (vp (v g)) = true) -> inq l = true -> fm (v g) (L g) f ->
  qd (v g) (L g) = false /\ forall sl, fm (mkV (vp (v g)) (S (ve (v g))) (vi (v g)) (vh (v g))) l (Kernel.mkFiber (S (ve (v g))) (Kernel.running f) true (Kernel.home f) sl).
Proof.
  intros Hg Lg Il [F1 F2 F3 F4 F5 F6].
  assert (Pg : vp (v g) = PArmed (ve (v g)) \/ exists y, vp (v g) = PSusp (ve (v g)) y) by (destruct Hg as [[E|[E|[tp E]]]|[y E]]; eauto).
  assert (Q : qd (v g) (L g) = false) by (destruct Lg as [->|[-> _]]; auto; simpl; destruct Pg as [->|[y ->]]; auto). split; auto. intros sl. constructor; simpl; auto.
  - rewrite F2. destruct Lg as [->|[-> A]]; unfold rn; simpl; destruct l; simpl in Il; try discriminate Il; auto.
  - destruct l; auto; discriminate Il.
  - right. right. destruct F4 as [F4|[[F4 _]|F4]]; auto; destruct Pg as [E|[y E]]; rewrite E in F4; discriminate F4.
  - intros y tp E. destruct Pg as [E'|[y' E']]; rewrite E' in E; [discriminate E|]. injection E as E _. lia.
  - intros E. destruct Pg as [E'|[y' E']]; rewrite E' in E; discriminate E.
Qed.
Lemma woken_fiber g : isf g -> waits_on (vp (v g)) (ve (v g)) \/ (exists y, vp (v g) = PSusp (ve (v g)) y) -> fiber_of T g.
Proof.
  intros F H. destruct g as [u| |]; simpl in *; auto. destruct (in_dec Nat.eq_dec u T) as [|N]; auto. destruct (r_out _ _ _ _ _ _ R u N) as (X & _). unfold waits_on in H. rewrite X in H.
  destruct H as [[H|[H|[? H]]]|[? H]]; discriminate H.
Qed.
Lemma sim_wake t a g l : In t T -> a = wa (w t) -> isf a -> isf g -> L a = LAct -> waits_on (vp (v g)) (ve (v g)) \/ (exists y, vp (v g) = PSusp (ve (v g)) y) ->
  L g = LNo \/ (L g = LAct /\ armed (vp (v g)) = true) -> inq l = true ->
  exists k1, exec kdo k [AWake (code a) (code g) (ve (v g))] = Some k1 /\ Rk T (cupd v g (mkV (vp (v g)) (S (ve (v g))) (vi (v g)) (vh (v g)))) (cupd L g l) (tact w) n k1.
Proof.
  intros It Ea Fa Fg La Hg Lg Il. assert (FT : fiber_of T a) by (rewrite Ea in *; now apply act_fiber). pose proof (woken_fiber g Fg Hg) as FG.
  pose proof (r_fib _ _ _ _ _ _ R a FT) as F. destruct F as [F1 F2 F3 F4 F5 F6]. pose proof (r_fib _ _ _ _ _ _ R g FG) as G. destruct (wake_fm g l _ Hg Lg Il G) as [Q W].
  unfold exec, kdo. rewrite F2, La. unfold Kernel.wake. rewrite (f_ep _ _ _ G), Nat.eqb_refl. simpl. eexists. split; [reflexivity|].
  eapply Rk_upd; [eassumption|eassumption|intros; reflexivity|..]; simpl; try apply R; auto. now rewrite (f_qd _ _ _ G), Q, (r_err _ _ _ _ _ _ R).
Qed.
Lemma sim_timer t g y tp : In t T -> wa (w t) = Dp t -> isf g -> vh (v g) = t -> vp (v g) = PSusp (ve (v g)) y -> dl y = Some tp -> tp <= n -> L g = LNo ->
  exists k1, exec kdo k [ASys (Kernel.Timer (code g))] = Some k1 /\ Rk T (cupd v g (mkV (vp (v g)) (S (ve (v g))) (vi (v g)) (vh (v g)))) (cupd L g LRdy) (tact w) n k1.
Proof.
  intros It Ea Fg Hh Hp Dl Htp Lg. assert (Hg : waits_on (vp (v g)) (ve (v g)) \/ (exists y, vp (v g) = PSusp (ve (v g)) y)) by eauto. pose proof (woken_fiber g Fg Hg) as FG.
  pose proof (r_fib _ _ _ _ _ _ R g FG) as G. destruct (wake_fm g LRdy _ Hg (or_introl Lg) eq_refl G) as [Q W].
  pose proof (f_sl _ _ _ G _ _ Hp Dl) as Sl. assert (Hm : Kernel.home (Kernel.fib k (code g)) = t).
  { destruct (f_hm _ _ _ G) as [F4|[[F4 _]|F4]]; [rewrite Hp in F4; discriminate F4..|congruence]. }
  unfold exec, kdo, Kernel.kstep. rewrite Hm, Sl, (r_thr _ _ _ _ _ _ R t It). unfold tact. rewrite Ea, (r_now _ _ _ _ _ _ R). destruct (Nat.leb_spec tp n) as [_|]; [|lia].
  unfold Kernel.wake. simpl. rewrite upd_same. simpl. rewrite (f_ep _ _ _ G), Nat.eqb_refl. simpl. eexists. split; [reflexivity|].
  eapply (Rk_upd _ _ _ _ _ _ _ _ _ (Kernel.mkFiber (S (ve (v g))) (Kernel.running (Kernel.fib k (code g))) true (Kernel.home (Kernel.fib k (code g))) None)); [eassumption|eassumption|..]; simpl; try apply R; auto.
  - intros j. rewrite Hm. destruct (Nat.eq_dec j (code g)) as [->|N]; [now rewrite !upd_same|now rewrite !upd_other by auto].
  - now rewrite (f_qd _ _ _ G), Q, (r_err _ _ _ _ _ _ R).
Qed.
End Sim.
