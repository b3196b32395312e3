(** Proofs about the scheduler: where a context is.  The invariant is stated over the part of the state that matters for it. *)
From Coq Require Import List Arith Bool Lia.
From Verif Require Import Base Sched.
Import ListNotations.

Lemma ctx_eqb_spec a b : reflect (a = b) (ctx_eqb a b).
Proof.
  destruct a, b; simpl; try (constructor; congruence); match goal with |- reflect _ (Nat.eqb ?x ?y) => destruct (Nat.eqb_spec x y) end; constructor; congruence.
Qed.
Lemma ctx_eqb_refl a : ctx_eqb a a = true.
Proof. destruct (ctx_eqb_spec a a); congruence. Qed.
Lemma ctx_dec (a b : ctx) : {a = b} + {a <> b}.
Proof. destruct (ctx_eqb_spec a b); auto. Qed.
Lemma cupd_same {A} (m : ctx -> A) i v : cupd m i v i = v.
Proof. unfold cupd. now rewrite ctx_eqb_refl. Qed.
Lemma cupd_other {A} (m : ctx -> A) i v j : j <> i -> cupd m i v j = m j.
Proof. intros H. unfold cupd. destruct (ctx_eqb_spec j i); congruence. Qed.
Lemma cupd_eq {A} (m : ctx -> A) i v j : j = i -> cupd m i v j = v.
Proof. intros ->. apply cupd_same. Qed.
Global Arguments cupd : simpl never.

Ltac cupdt :=
  repeat match goal with
  | H : context [cupd _ ?i _ ?i] |- _ => rewrite cupd_same in H
  | |- context [cupd _ ?i _ ?i] => rewrite cupd_same
  | N : ?j = ?i, H : context [cupd _ ?i _ ?j] |- _ => rewrite (cupd_eq _ _ _ _ N) in H
  | N : ?j = ?i |- context [cupd _ ?i _ ?j] => rewrite (cupd_eq _ _ _ _ N)
  | N : ?i = ?j, H : context [cupd _ ?i _ ?j] |- _ => rewrite (cupd_eq _ _ _ _ (eq_sym N)) in H
  | N : ?i = ?j |- context [cupd _ ?i _ ?j] => rewrite (cupd_eq _ _ _ _ (eq_sym N))
  | N : ?j <> ?i, H : context [cupd _ ?i _ ?j] |- _ => rewrite (cupd_other _ _ _ _ N) in H
  | N : ?j <> ?i |- context [cupd _ ?i _ ?j] => rewrite (cupd_other _ _ _ _ N)
  | N : ?i <> ?j, H : context [cupd _ ?i _ ?j] |- _ => rewrite (cupd_other _ _ _ _ (not_eq_sym N)) in H
  | N : ?i <> ?j |- context [cupd _ ?i _ ?j] => rewrite (cupd_other _ _ _ _ (not_eq_sym N))
  end.
Ltac cupds := cupdt;
  repeat (match goal with
  | |- context [cupd _ ?i _ ?j] => destruct (ctx_dec j i); [try (is_var j; subst j)|]
  | H : context [cupd _ ?i _ ?j] |- _ => destruct (ctx_dec j i); [try (is_var j; subst j)|]
  end; cupdt).
Lemma upd_eq {A} (m : nat -> A) i v j : j = i -> upd m i v j = v.
Proof. intros ->. apply upd_same. Qed.
Ltac tupdt :=
  repeat match goal with
  | H : context [upd _ ?i _ ?i] |- _ => rewrite upd_same in H
  | |- context [upd _ ?i _ ?i] => rewrite upd_same
  | N : ?j = ?i, H : context [upd _ ?i _ ?j] |- _ => rewrite (upd_eq _ _ _ _ N) in H
  | N : ?j = ?i |- context [upd _ ?i _ ?j] => rewrite (upd_eq _ _ _ _ N)
  | N : ?i = ?j, H : context [upd _ ?i _ ?j] |- _ => rewrite (upd_eq _ _ _ _ (eq_sym N)) in H
  | N : ?i = ?j |- context [upd _ ?i _ ?j] => rewrite (upd_eq _ _ _ _ (eq_sym N))
  | N : ?j <> ?i, H : context [upd _ ?i _ ?j] |- _ => rewrite (upd_other _ _ _ _ N) in H
  | N : ?j <> ?i |- context [upd _ ?i _ ?j] => rewrite (upd_other _ _ _ _ N)
  | N : ?i <> ?j, H : context [upd _ ?i _ ?j] |- _ => rewrite (upd_other _ _ _ _ (not_eq_sym N)) in H
  | N : ?i <> ?j |- context [upd _ ?i _ ?j] => rewrite (upd_other _ _ _ _ (not_eq_sym N))
  end.
Ltac tupds := tupdt;
  repeat (match goal with
  | |- context [upd _ ?i _ ?j] => destruct (Nat.eq_dec j i); [try (is_var j; subst j)|]
  | H : context [upd _ ?i _ ?j] |- _ => destruct (Nat.eq_dec j i); [try (is_var j; subst j)|]
  end; tupdt).

Lemma mem_In c l : mem c l = true <-> In c l.
Proof.
  unfold mem. rewrite existsb_exists. split.
  - intros (x & H & E). destruct (ctx_eqb_spec c x); congruence.
  - intros H. exists c. split; auto. apply ctx_eqb_refl.
Qed.
Lemma mem_false c l : mem c l = false <-> ~ In c l.
Proof. rewrite <- mem_In. destruct (mem c l); split; congruence. Qed.
Lemma remove_In c d l : In d (remove c l) <-> In d l /\ d <> c.
Proof. unfold remove. rewrite filter_In. destruct (ctx_eqb_spec c d); split; simpl; intuition congruence. Qed.
Lemma remove_NoDup c l : NoDup l -> NoDup (remove c l).
Proof. apply NoDup_filter. Qed.

(** ** Views *)
Record vw := mkV { vp : pc; ve : nat; vi : list nat; vh : tid }.
Record tw := mkW { wa : ctx; wr : list ctx; wm : list ctx; wt : list ctx; ws : bool }.
Definition V (s : state) (c : ctx) : vw := let x := cx s c in mkV (pcc x) (ep x) (iss x) (home x).
Definition W (s : state) (t : tid) : tw := let x := th s t in mkW (act x) (rq x) (rrq x) (tmp x) (shut x).

Definition pushing (p : pc) : option ctx := match p with PPush g _ => Some g | _ => None end.
Definition armed (p : pc) : bool := match p with PArmed _ => true | _ => false end.

(** Program counters at which a context is executing. *)
Definition plain (p : pc) : bool :=
  match p with
  | PIdle | PNote _ _ | PJoin _ _ | PRel _ _ | PExit | PTerm | PLeave | PShut | PGone
  | DTop | DRel | DSwap | DDrain | DSleep _ | DPick | DIdle _ | DFin => true
  | _ => false
  end.

(** Which contexts can be at which program counter. *)
Definition kuser (k : kont) (c : ctx) : Prop :=
  match k with KUser => match c with Dp _ => False | _ => True end | KTerm => match c with Wk _ => True | _ => False end | KDisp _ => False end.
Definition kind (c : ctx) (p : pc) : Prop :=
  match p with
  | PNone | PNew | PExit | PTerm | PLeave | PDead => match c with Wk _ => True | _ => False end
  | PShut | PShut2 | PGone => match c with Mn _ => True | _ => False end
  | DTop | DRel | DSwap | DDrain | DSleep _ | DPick | DRes | DIdle _ | DFin | DGone => match c with Dp _ => True | _ => False end
  | PPush _ k | PNote _ k => kuser k c
  | _ => match c with Dp _ => False | _ => True end
  end.

Inductive place := LNo | LAct | LRdy | LRem | LTmp | LFly (a : ctx).

Definition pcok (x : vw) (l : place) : Prop :=
  match vp x with
  | PNone | PDead | DGone => l = LNo
  | PNew | PYield | DRes => l = LAct \/ l = LRdy
  | PArmed e => (ve x = e /\ l = LAct) \/ (ve x = S e /\ (l = LRem \/ exists a, l = LFly a))
  | PSusp e _ => (ve x = e /\ l = LNo) \/ (ve x = S e /\ l <> LNo)
  | PShut2 => l = LNo \/ l = LAct
  | _ => l = LAct
  end.

Definition waits_on (p : pc) (e : nat) : Prop := p = PArmed e \/ p = PSusp e WBlock \/ exists tp, p = PSusp e (WTimed tp).

Record IA (v : ctx -> vw) (w : tid -> tw) (L : ctx -> place) : Prop := {
  a_act : forall t, vh (v (wa (w t))) = t /\ (L (wa (w t)) = LAct \/ armed (vp (v (wa (w t)))) = true);
  a_run : forall c, L c = LAct \/ armed (vp (v c)) = true -> wa (w (vh (v c))) = c;
  a_rq : forall t c, In c (wr (w t)) <-> L c = LRdy /\ vh (v c) = t;
  a_rrq : forall t c, In c (wm (w t)) <-> L c = LRem /\ vh (v c) = t;
  a_tmp : forall t c, In c (wt (w t)) <-> L c = LTmp /\ vh (v c) = t;
  a_nd : forall t, NoDup (wr (w t)) /\ NoDup (wm (w t)) /\ NoDup (wt (w t));
  a_fly : forall a c, pushing (vp (v a)) = Some c <-> L c = LFly a;
  a_far : forall a c, pushing (vp (v a)) = Some c -> vh (v c) <> vh (v a);
  a_pc : forall c, pcok (v c) (L c);
  a_iss : forall c e, In e (vi (v c)) -> e <= ve (v c) /\ (e = ve (v c) -> waits_on (vp (v c)) e);
  a_tmpd : forall t, wt (w t) <> [] -> vp (v (Dp t)) = DDrain;
  a_kind : forall c, kind c (vp (v c));
  a_home : forall t, vh (v (Dp t)) = t /\ vh (v (Mn t)) = t;
  a_fin : forall t, vp (v (Dp t)) = DGone -> wa (w t) = Mn t /\ (vp (v (Mn t)) = PShut2 \/ vp (v (Mn t)) = PGone);
  a_sh : forall t, ws (w t) = true <-> (vp (v (Mn t)) = PShut \/ vp (v (Mn t)) = PShut2 \/ vp (v (Mn t)) = PGone);
  a_dfin : forall t, vp (v (Dp t)) = DFin -> ws (w t) = true;
  a_shut : forall t, (vp (v (Mn t)) = PShut2 /\ wa (w t) = Mn t) \/ vp (v (Mn t)) = PGone -> vp (v (Dp t)) = DGone
}.

Definition spc (x : vw) (p : pc) : vw := mkV p (ve x) (vi x) (vh x).

(** ** Transitions of the views *)
Inductive vstep (v : ctx -> vw) (w : tid -> tw) : (ctx -> vw) -> (tid -> tw) -> Prop :=
| VSame : vstep v w v w
| VPc t a p :   (* the active context goes on *)
    a = wa (w t) -> plain p = true -> armed (vp (v a)) = false -> pushing (vp (v a)) = None -> kind a p ->
    (vp (v a) = DDrain -> wt (w t) = []) -> (p = PGone -> vp (v a) = PShut2) -> (vp (v a) = PShut2 -> p = PGone) -> vp (v a) <> PGone -> p <> PShut -> vp (v a) <> PShut ->
    (p = DFin -> ws (w t) = true) ->
    vstep v w (cupd v a (spc (v a) p)) w
| VShut t a :
    a = wa (w t) -> vp (v a) = PIdle -> kind a PShut ->
    vstep v w (cupd v a (spc (v a) PShut)) (upd w t (mkW (wa (w t)) (wr (w t)) (wm (w t)) (wt (w t)) true))
| VArm t a :
    a = wa (w t) -> vp (v a) = PIdle -> 
    vstep v w (cupd v a (mkV (PArmed (S (ve (v a)))) (S (ve (v a))) (S (ve (v a)) :: vi (v a)) (vh (v a)))) w
| VYield t a p c r :   (* switched out, ready *)
    a = wa (w t) -> wr (w t) = c :: r -> (vp (v a) = PIdle /\ p = PYield) \/ (vp (v a) = DPick /\ p = DRes) ->
    vstep v w (cupd v a (spc (v a) p)) (upd w t (mkW c (r ++ [a]) (wm (w t)) (wt (w t)) (ws (w t))))
| VBlock t a y i c r :   (* switched out, blocked with a new waker *)
    a = wa (w t) -> wr (w t) = c :: r -> vp (v a) = PIdle \/ (exists h d, vp (v a) = PJoin h d) ->
    i = vi (v a) \/ (i = S (ve (v a)) :: vi (v a) /\ exists tp, y = WTimed tp) ->
    vstep v w (cupd v a (mkV (PSusp (S (ve (v a))) y) (S (ve (v a))) i (vh (v a)))) (upd w t (mkW c r (wm (w t)) (wt (w t)) (ws (w t))))
| VSusp t a e c r :   (* switched out, blocked with a waker created earlier *)
    a = wa (w t) -> wr (w t) = c :: r -> vp (v a) = PArmed e ->
    vstep v w (cupd v a (spc (v a) (PSusp e WBlock))) (upd w t (mkW c r (wm (w t)) (wt (w t)) (ws (w t))))
| VLeave t a p c r :   (* switched out for ever, or until shutdown *)
    a = wa (w t) -> wr (w t) = c :: r -> (vp (v a) = PLeave /\ p = PDead) \/ (vp (v a) = PShut /\ p = PShut2) ->
    vstep v w (cupd v a (spc (v a) p)) (upd w t (mkW c r (wm (w t)) (wt (w t)) (ws (w t))))
| VWakeL t a g k :   (* a context of the own thread is woken *)
    a = wa (w t) -> a <> g -> waits_on (vp (v g)) (ve (v g)) \/ (exists y, vp (v g) = PSusp (ve (v g)) y) -> vh (v g) = t ->
    vp (v a) = kpc k ->
    vstep v w (cupd v g (mkV (vp (v g)) (S (ve (v g))) (vi (v g)) (vh (v g)))) (upd w t (mkW (wa (w t)) (wr (w t) ++ [g]) (wm (w t)) (wt (w t)) (ws (w t))))
| VWakeR t a g k :   (* a context of another thread is woken *)
    a = wa (w t) -> a <> g -> waits_on (vp (v g)) (ve (v g)) \/ (exists y, vp (v g) = PSusp (ve (v g)) y) -> vh (v g) <> t ->
    vp (v a) = kpc k -> kuser k a ->
    vstep v w (cupd (cupd v g (mkV (vp (v g)) (S (ve (v g))) (vi (v g)) (vh (v g)))) a (spc (v a) (PPush g k))) w
| VPush t a g k u :
    a = wa (w t) -> vp (v a) = PPush g k -> u = vh (v g) ->
    vstep v w (cupd v a (spc (v a) (PNote u k))) (upd w u (mkW (wa (w u)) (wr (w u)) (wm (w u) ++ [g]) (wt (w u)) (ws (w u))))
| VSwap t :
    wa (w t) = Dp t -> vp (v (Dp t)) = DSwap ->
    vstep v w (cupd v (Dp t) (spc (v (Dp t)) DDrain)) (upd w t (mkW (wa (w t)) (wr (w t)) [] (wm (w t)) (ws (w t))))
| VDrain t c r :
    wa (w t) = Dp t -> vp (v (Dp t)) = DDrain -> wt (w t) = c :: r ->
    vstep v w v (upd w t (mkW (wa (w t)) (wr (w t) ++ [c]) (wm (w t)) r (ws (w t))))
| VPost t a n :
    a = wa (w t) -> vp (v a) = PIdle -> vp (v (Wk n)) = PNone ->
    vstep v w (cupd v (Wk n) (mkV PNew 0 [] t)) (upd w t (mkW (wa (w t)) (wr (w t) ++ [Wk n]) (wm (w t)) (wt (w t)) (ws (w t))))
| VDisp t a n :
    a = wa (w t) -> vp (v a) = PIdle -> vp (v (Wk n)) = PNone ->
    vstep v w (cupd (cupd v (Wk n) (mkV PNew 0 [] t)) a (spc (v a) PYield)) (upd w t (mkW (Wk n) (wr (w t) ++ [a]) (wm (w t)) (wt (w t)) (ws (w t))))
| VEnd t :
    wa (w t) = Dp t -> vp (v (Dp t)) = DFin ->
    vstep v w (cupd v (Dp t) (spc (v (Dp t)) DGone)) (upd w t (mkW (Mn t) (wr (w t)) (wm (w t)) (wt (w t)) (ws (w t)))).


Lemma ia_ext v w L v' w' : IA v w L -> (forall c, v' c = v c) -> (forall t, w' t = w t) -> IA v' w' L.
Proof.
  intros I Hv Hw. destruct I. constructor; intros; rewrite ?Hv, ?Hw in *; auto.
Qed.

Lemma nodup_app_one {A} (l : list A) x : NoDup l -> ~ In x l -> NoDup (l ++ [x]).
Proof.
  intros H N. induction H; simpl; [repeat constructor; auto|]. constructor.
  - rewrite in_app_iff. simpl. simpl in N. intuition congruence.
  - apply IHNoDup. simpl in N. tauto.
Qed.

Section Step.
Variables (v : ctx -> vw) (w : tid -> tw) (L : ctx -> place).
Hypothesis I : IA v w L.

Lemma act_here t a : a = wa (w t) -> vh (v a) = t.
Proof. intros ->. apply (a_act _ _ _ I). Qed.
Lemma act_loc t a : a = wa (w t) -> armed (vp (v a)) = false -> L a = LAct.
Proof. intros -> H. destruct (a_act _ _ _ I t) as [_ [X|X]]; congruence. Qed.
Lemma rq_loc t c : In c (wr (w t)) -> L c = LRdy.
Proof. intros H. apply (a_rq _ _ _ I) in H. tauto. Qed.
Lemma rq_home t c : In c (wr (w t)) -> vh (v c) = t.
Proof. intros H. apply (a_rq _ _ _ I) in H. tauto. Qed.
Lemma act_uniq t c : L c = LAct -> vh (v c) = t -> c = wa (w t).
Proof. intros H <-. symmetry. apply (a_run _ _ _ I). auto. Qed.
End Step.

Ltac ia_old :=
  match goal with
  | I : IA _ _ _ |- forall t, vh _ = t /\ _ => idtac
  | _ => idtac
  end.

Lemma ia_pc v w L a p t : IA v w L ->
    a = wa (w t) -> plain p = true -> armed (vp (v a)) = false -> pushing (vp (v a)) = None -> kind a p ->
    (vp (v a) = DDrain -> wt (w t) = []) -> (p = PGone -> vp (v a) = PShut2) -> (vp (v a) = PShut2 -> p = PGone) -> vp (v a) <> PGone -> p <> PShut -> vp (v a) <> PShut ->
    (p = DFin -> ws (w t) = true) ->
    IA (cupd v a (spc (v a) p)) w L.
Proof.
  intros I Ea Hp Ha Hq Hk Hd Hg Hs Hn Hns Hns2 Hf. pose proof (act_here _ _ _ I _ _ Ea) as Hh. pose proof (act_loc _ _ _ I _ _ Ea Ha) as Hl.
  assert (Pa : armed p = false) by (destruct p; auto; discriminate Hp).
  assert (Pp : pushing p = None) by (destruct p; auto; discriminate Hp).
  assert (Vh : forall c, vh (cupd v a (spc (v a) p) c) = vh (v c)) by (intros c; cupds; auto).
  assert (Va : forall c, armed (vp (cupd v a (spc (v a) p) c)) = armed (vp (v c))) by (intros c; cupds; simpl; congruence).
  assert (Vq : forall c, pushing (vp (cupd v a (spc (v a) p) c)) = pushing (vp (v c))) by (intros c; cupds; simpl; congruence).
  constructor; intros; rewrite ?Vh, ?Va, ?Vq in *; try (apply I; auto; fail).
  - cupds; [|apply I]. unfold pcok. simpl. destruct p; try discriminate Hp; auto.
  - cupds; simpl in *; [|now apply I]. destruct (a_iss _ _ _ I _ _ H) as [X Y]. split; auto. intros E0. pose proof (Y E0) as E.
    destruct E as [E|[E|(tp & E)]]; [rewrite E in Ha; discriminate Ha| |].
    all: exfalso; pose proof (a_pc _ _ _ I a) as Z; unfold pcok in Z; rewrite E in Z; destruct Z as [[Z1 Z2]|[Z1 Z2]]; [congruence|lia].
  - pose proof (a_tmpd _ _ _ I _ H) as X. cupds; [|auto]. destruct (a_home _ _ _ I t0) as [Y _]. exfalso. apply H. rewrite e in *. replace t0 with t by congruence. auto.
  - cupds; [auto|apply I].
  - destruct (ctx_dec (Dp t0) a) as [E|E].
    + rewrite (cupd_eq _ _ _ _ E) in H. simpl in H. subst p. discriminate Hp.
    + rewrite cupd_other in H by auto. destruct (a_fin _ _ _ I _ H) as [X Y]. split; auto. cupds; [|auto]. simpl. right. apply Hs.
      rewrite e in *. destruct Y; auto. contradiction.
  - rewrite (a_sh _ _ _ I). cupds; [|tauto]. simpl. rewrite e. split; intros X.
    + destruct X as [X|[X|X]]; try contradiction. auto.
    + destruct X as [X|[X|X]]; try contradiction; [subst p; discriminate Hp|auto].
  - destruct (ctx_dec (Dp t0) a) as [E|E]; [rewrite (cupd_eq _ _ _ _ E) in H|rewrite cupd_other in H by auto; now apply (a_dfin _ _ _ I)]. destruct (a_home _ _ _ I t0) as [Y _]. rewrite E in *. replace t0 with t by congruence. auto.
  - assert (X : vp (v (Dp t0)) = DGone).
    { destruct (ctx_dec (Mn t0) a) as [E|E]; cupds; simpl in *; try (now apply I).
      apply (a_shut _ _ _ I). left. destruct H as [[H _]|H]; [subst p; discriminate Hp|]. apply Hg in H. rewrite E. split; auto.
      destruct (a_home _ _ _ I t0) as [_ Y]. rewrite E in Y. congruence. }
    destruct (ctx_dec (Dp t0) a) as [E|E]; [|now rewrite cupd_other by auto].
    destruct (a_fin _ _ _ I _ X) as [Y _]. destruct (a_home _ _ _ I t0) as [Z _]. rewrite E in Z. congruence.
Qed.

(** Facts about the head of the ready queue. *)
Lemma head_facts v w L t a c r : IA v w L -> a = wa (w t) -> wr (w t) = c :: r -> 
  L c = LRdy /\ vh (v c) = t /\ vh (v a) = t /\ c <> a /\ ~ In c r /\ ~ In a r /\ NoDup r /\ armed (vp (v c)) = false /\ pushing (vp (v c)) = None /\
  (forall x, In x r <-> L x = LRdy /\ vh (v x) = t /\ x <> c).
Proof.
  intros I Ea Er. assert (Hc : In c (wr (w t))) by (rewrite Er; now left).
  pose proof (proj1 (a_rq _ _ _ I t c) Hc) as [Lc Hh]. pose proof (act_here _ _ _ I _ _ Ea) as Ha.
  destruct (a_nd _ _ _ I t) as [N _]. rewrite Er in N. inversion N; subst x l.
  pose proof (a_pc _ _ _ I c) as P. unfold pcok in P.
  assert (Na : armed (vp (v c)) = false) by (destruct (vp (v c)); auto; destruct P as [[_ P]|[_ [P|[? P]]]]; congruence).
  assert (Np : pushing (vp (v c)) = None) by (destruct (vp (v c)); auto; congruence).
  assert (Nc : c <> a).
  { intros E. destruct (a_act _ _ _ I t) as [_ [X|X]]; rewrite <- Ea, <- E in X; congruence. }
  assert (Hr : forall x, In x r <-> L x = LRdy /\ vh (v x) = t /\ x <> c).
  { intros x. pose proof (a_rq _ _ _ I t x) as X. rewrite Er in X. simpl in X. split.
    - intros Hx. assert (x <> c) by congruence. tauto.
    - intros (X1 & X2 & X3). destruct (proj2 X (conj X1 X2)); congruence. }
  splits; auto. intros Hx. apply Hr in Hx. destruct Hx as (X1 & _). destruct (a_act _ _ _ I t) as [_ [X|X]]; rewrite <- Ea in X; [congruence|].
  pose proof (a_pc _ _ _ I a) as P'. unfold pcok in P'. destruct (vp (v a)); try discriminate X. destruct P' as [[_ P']|[_ [P'|[? P']]]]; congruence.
Qed.


Definition iss_ok (x : vw) : Prop := forall e, In e (vi x) -> e <= ve x /\ (e = ve x -> waits_on (vp x) e).

Lemma ia_switch v w L t a x la q c r : IA v w L ->
  a = wa (w t) -> wr (w t) = c :: r -> pushing (vp (v a)) = None -> vh x = t -> armed (vp x) = false -> pushing (vp x) = None ->
  pcok x la -> iss_ok x -> kind a (vp x) ->
  (la = LRdy /\ L a = LAct /\ q = r ++ [a]) \/ (la = LNo /\ L a = LAct /\ q = r) \/ (la = L a /\ L a <> LAct /\ q = r) ->
  vp (v a) <> DDrain -> vp (v a) <> PShut2 -> vp (v a) <> PGone -> vp x <> DGone -> vp x <> DFin -> vp x <> PGone -> vp x <> PShut ->
  (vp x = PShut2 <-> vp (v a) = PShut) ->
  IA (cupd v a x) (upd w t (mkW c q (wm (w t)) (wt (w t)) (ws (w t)))) (cupd (cupd L a la) c LAct).
Proof.
  intros I Ea Er Qa Hx Ax Qx Px Ix Kx Hl N1 N2 N3 N4 N5 N6 N7 Hsh.
  destruct (head_facts _ _ _ _ _ _ _ I Ea Er) as (Lc & Hc & Hh & Nc & D1 & D2 & D3 & Ac & Qc & Hr).
  assert (Vh : forall c, vh (cupd v a x c) = vh (v c)) by (intros y; cupds; congruence).
  assert (Vq : forall c, pushing (vp (cupd v a x c)) = pushing (vp (v c))) by (intros y; cupds; simpl; congruence).
  assert (Lo : forall y, y <> a -> y <> c -> cupd (cupd L a la) c LAct y = L y) by (intros y Y1 Y2; rewrite !cupd_other; auto).
  assert (L_a : cupd (cupd L a la) c LAct a = la) by (rewrite cupd_other, cupd_same; auto).
  assert (L_c : cupd (cupd L a la) c LAct c = LAct) by apply cupd_same.
  assert (Va : forall y, y <> a -> cupd v a x y = v y) by (intros; now rewrite cupd_other).
  assert (V_a : cupd v a x a = x) by apply cupd_same.
  assert (Hla : la = L a \/ L a = LAct) by tauto.
  assert (Naf : forall y, L a <> LFly y -> la <> LFly y) by (intros y Y; destruct Hl as [(-> & _)|[(-> & _)|(-> & _)]]; congruence).
  remember (cupd v a x) as v' eqn:Ev'. remember (cupd (cupd L a la) c LAct) as L' eqn:EL'. clear Ev' EL'.
  constructor; intros; rewrite ?Vh, ?Vq in *; try (apply I; auto; fail).
  - tupds; simpl; [auto|]. destruct (a_act _ _ _ I t0) as [X Y]. assert (wa (w t0) <> a) by (intros E; rewrite E in X; congruence).
    split; auto. rewrite Va by auto. destruct (ctx_dec (wa (w t0)) c) as [E|E]; [rewrite E; auto|]. rewrite Lo by auto. auto.
  - destruct (ctx_dec c0 a) as [->|E].
    + rewrite L_a, V_a in H. destruct H as [H|H]; [|congruence]. destruct Hl as [(-> & _)|[(-> & _)|(-> & X & _)]]; congruence.
    + rewrite Va in H by auto. destruct (ctx_dec c0 c) as [->|E2]; [rewrite upd_eq; auto|]. rewrite Lo in H by auto.
      pose proof (a_run _ _ _ I c0 H) as X. tupds; auto. simpl. exfalso. congruence.
  - destruct (ctx_dec c0 a) as [->|Y1]; [rewrite L_a|destruct (ctx_dec c0 c) as [->|Y2]; [rewrite L_c|rewrite Lo by auto]].
    + tupds; simpl.
      * destruct Hl as [(-> & X & ->)|[(-> & X & ->)|(-> & X & ->)]].
        -- rewrite in_app_iff. simpl. intuition.
        -- split; [contradiction|intros [? _]; discriminate].
        -- split; [contradiction|]. intros [Y _]. destruct (a_act _ _ _ I t) as [_ [Z|Z]]; rewrite <- Ea in Z; [congruence|].
           pose proof (a_pc _ _ _ I a) as P. unfold pcok in P. destruct (vp (v a)); try discriminate Z. destruct P as [[_ P]|[_ [P|[? P]]]]; congruence.
      * rewrite (a_rq _ _ _ I). intuition; congruence.
    + tupds; simpl.
      * split; [|intros [? _]; discriminate]. intros X. destruct Hl as [(-> & _ & ->)|[(-> & _ & ->)|(-> & _ & ->)]]; try contradiction.
        apply in_app_iff in X. simpl in X. destruct X as [X|[X|[]]]; [contradiction|congruence].
      * rewrite (a_rq _ _ _ I). intuition; congruence.
    + tupds; simpl; [|apply I]. rewrite <- (a_rq _ _ _ I t), Er. simpl.
      destruct Hl as [(_ & _ & ->)|[(_ & _ & ->)|(_ & _ & ->)]]; rewrite ?in_app_iff; simpl; intuition congruence.
  - assert (X : wm (upd w t (mkW c q (wm (w t)) (wt (w t)) (ws (w t))) t0) = wm (w t0)) by (tupds; auto). rewrite X, (a_rrq _ _ _ I).
    destruct (ctx_dec c0 a) as [->|Y1]; [rewrite L_a|destruct (ctx_dec c0 c) as [->|Y2]; [rewrite L_c|rewrite Lo by auto]]; intuition; try congruence;
      destruct Hl as [(E1 & E2 & _)|[(E1 & E2 & _)|(E1 & E2 & _)]]; congruence.
  - assert (X : wt (upd w t (mkW c q (wm (w t)) (wt (w t)) (ws (w t))) t0) = wt (w t0)) by (tupds; auto). rewrite X, (a_tmp _ _ _ I).
    destruct (ctx_dec c0 a) as [->|Y1]; [rewrite L_a|destruct (ctx_dec c0 c) as [->|Y2]; [rewrite L_c|rewrite Lo by auto]]; intuition; try congruence;
      destruct Hl as [(E1 & E2 & _)|[(E1 & E2 & _)|(E1 & E2 & _)]]; congruence.
  - destruct (a_nd _ _ _ I t0) as (Y1 & Y2 & Y3). tupds; simpl; splits; auto.
    destruct Hl as [(_ & _ & ->)|[(_ & _ & ->)|(_ & _ & ->)]]; auto. now apply nodup_app_one.
  - rewrite (a_fly _ _ _ I). destruct (ctx_dec c0 a) as [->|Y1]; [rewrite L_a|destruct (ctx_dec c0 c) as [->|Y2]; [rewrite L_c|rewrite Lo by auto; tauto]]; intuition; try congruence.
    all: destruct Hl as [(E1 & E2 & _)|[(E1 & E2 & _)|(E1 & E2 & _)]]; congruence.
  - destruct (ctx_dec c0 a) as [->|Y1]; [now rewrite L_a, V_a|]. rewrite Va by auto. destruct (ctx_dec c0 c) as [->|Y2]; [rewrite L_c|rewrite Lo by auto; apply I].
    pose proof (a_pc _ _ _ I c) as P. unfold pcok in *. rewrite Lc in P. destruct (vp (v c)); auto; try congruence.
    + destruct P as [[P1 P2]|[P1 [P2|[? P2]]]]; congruence.
    + destruct P as [[P1 P2]|[P1 P2]]; [congruence|]. right. split; auto. discriminate.
  - destruct (ctx_dec c0 a) as [->|Y1]; [rewrite V_a in *|rewrite Va in * by auto; now apply I]. now apply Ix.
  - assert (X : wt (w t0) <> []) by (intros Y; apply H; tupds; auto). apply (a_tmpd _ _ _ I) in X.
    rewrite Va; auto. intros E. rewrite E in X. contradiction.
  - destruct (ctx_dec c0 a) as [->|Y1]; [now rewrite V_a|rewrite Va by auto; apply I].
  - assert (X : vp (v (Dp t0)) = DGone).
    { destruct (ctx_dec (Dp t0) a) as [E|E]; [rewrite E, V_a in H; contradiction|rewrite Va in H; auto]. }
    destruct (a_fin _ _ _ I _ X) as [Y1 Y2]. assert (Nt : t0 <> t).
    { intros ->. rewrite <- Ea in Y1. rewrite <- Y1 in Y2. tauto. }
    tupds. split; auto. rewrite Va; auto. intros E. rewrite E in Y2. tauto.
  - assert (X : ws (upd w t (mkW c q (wm (w t)) (wt (w t)) (ws (w t))) t0) = ws (w t0)) by (tupds; auto). rewrite X, (a_sh _ _ _ I).
    destruct (ctx_dec (Mn t0) a) as [E|E]; [rewrite E, V_a in *|now rewrite Va]. tauto.
  - assert (X : ws (upd w t (mkW c q (wm (w t)) (wt (w t)) (ws (w t))) t0) = ws (w t0)) by (tupds; auto). rewrite X.
    destruct (ctx_dec (Dp t0) a) as [E|E]; [rewrite E, V_a in H; contradiction|rewrite Va in H by auto; now apply (a_dfin _ _ _ I)].
  - assert (X : vp (v (Dp t0)) = DGone).
    { apply (a_shut _ _ _ I). destruct (ctx_dec (Mn t0) a) as [E|E].
      - rewrite E, V_a in H. destruct H as [[_ H]|H]; [|contradiction]. exfalso. tupds; simpl in *; [congruence|].
        destruct (a_act _ _ _ I t0) as [X _]. rewrite H in X. congruence.
      - rewrite Va in H by auto. destruct H as [[H1 H2]|H]; [|auto]. tupds; auto. simpl in H2. exfalso.
        pose proof (a_pc _ _ _ I c) as P. unfold pcok in P. rewrite H2, H1 in P. destruct P; congruence. }
    rewrite Va; auto. intros E. destruct (a_fin _ _ _ I _ X) as [Y1 Y2]. destruct (a_home _ _ _ I t0) as [Z _]. rewrite E in Z. replace t0 with t in * by congruence.
    rewrite <- Ea in Y1. rewrite <- Y1 in Y2. tauto.
Qed.

Definition special (p : pc) : bool := match p with DGone | DFin | PGone | PShut2 | PShut | DDrain => true | _ => false end.
Lemma special_no p : special p = false -> p <> DGone /\ p <> DFin /\ p <> PGone /\ p <> PShut2 /\ p <> PShut /\ p <> DDrain.
Proof. destruct p; simpl; intros; splits; congruence. Qed.

Ltac special_facts H := let X1 := fresh "X" in let X2 := fresh "X" in let X3 := fresh "X" in let X4 := fresh "X" in let X5 := fresh "X" in let X6 := fresh "X" in
  destruct (special_no _ H) as (X1 & X2 & X3 & X4 & X5 & X6).

(** A context that was nowhere is put at the end of a ready queue. *)
Lemma ia_ready v w L t g x : IA v w L ->
  L g = LNo -> vh x = t -> vh x = vh (v g) \/ (exists n, g = Wk n) ->
  armed (vp (v g)) = false -> armed (vp x) = false -> pushing (vp (v g)) = None -> pushing (vp x) = None ->
  pcok x LRdy -> iss_ok x -> kind g (vp x) -> special (vp (v g)) = false -> special (vp x) = false ->
  IA (cupd v g x) (upd w t (mkW (wa (w t)) (wr (w t) ++ [g]) (wm (w t)) (wt (w t)) (ws (w t)))) (cupd L g LRdy).
Proof.
  intros I Lg Hx Hw Ag Ax Qg Qx Px Ix Kx S1 S2. special_facts S1. special_facts S2.
  assert (Hhm : forall t0, vh x = vh (v g) \/ (Mn t0 <> g /\ Dp t0 <> g)) by (intros; destruct Hw as [?|[n ->]]; auto; right; split; discriminate).
  assert (Vq : forall c, pushing (vp (cupd v g x c)) = pushing (vp (v c))) by (intros y; cupds; simpl; congruence).
  assert (Va : forall y, y <> g -> cupd v g x y = v y) by (intros; now rewrite cupd_other).
  assert (V_g : cupd v g x g = x) by apply cupd_same.
  assert (Lo : forall y, y <> g -> cupd L g LRdy y = L y) by (intros; now rewrite cupd_other).
  assert (L_g : cupd L g LRdy g = LRdy) by apply cupd_same.
  assert (Ngo : forall t, wa (w t) <> g) by (intros u E; destruct (a_act _ _ _ I u) as [_ [Z|Z]]; rewrite E in Z; congruence).
  assert (Ng : ~ In g (wr (w t))) by (rewrite (a_rq _ _ _ I); intuition congruence).
  remember (cupd v g x) as v' eqn:Ev'. remember (cupd L g LRdy) as L' eqn:EL'. clear Ev' EL'.
  assert (Wa : forall u, wa (upd w t (mkW (wa (w t)) (wr (w t) ++ [g]) (wm (w t)) (wt (w t)) (ws (w t))) u) = wa (w u)) by (intros u; tupds; auto).
  assert (Wm : forall u, wm (upd w t (mkW (wa (w t)) (wr (w t) ++ [g]) (wm (w t)) (wt (w t)) (ws (w t))) u) = wm (w u)) by (intros u; tupds; auto).
  assert (Wt : forall u, wt (upd w t (mkW (wa (w t)) (wr (w t) ++ [g]) (wm (w t)) (wt (w t)) (ws (w t))) u) = wt (w u)) by (intros u; tupds; auto).
  assert (Wsh : forall u, ws (upd w t (mkW (wa (w t)) (wr (w t) ++ [g]) (wm (w t)) (wt (w t)) (ws (w t))) u) = ws (w u)) by (intros u; tupds; auto).
  constructor; intros; rewrite ?Wa, ?Wm, ?Wt, ?Wsh, ?Vq in *.
  - rewrite Va, Lo by auto. apply I.
  - destruct (ctx_dec c g) as [->|E]; [rewrite V_g, L_g in H; destruct H; congruence|]. rewrite Va, Lo in * by auto. now apply I.
  - destruct (ctx_dec c g) as [->|E]; [rewrite V_g, L_g|rewrite Va, Lo by auto].
    + tupds; simpl; rewrite ?in_app_iff; simpl; [intuition|]. rewrite (a_rq _ _ _ I). split; intros [Y1 Y2]; congruence.
    + rewrite <- (a_rq _ _ _ I). tupds; simpl; rewrite ?in_app_iff; simpl; intuition congruence.
  - rewrite (a_rrq _ _ _ I). destruct (ctx_dec c g) as [->|E]; [rewrite V_g, L_g|rewrite Va, Lo by auto; tauto]. split; intros [Y1 Y2]; congruence.
  - rewrite (a_tmp _ _ _ I). destruct (ctx_dec c g) as [->|E]; [rewrite V_g, L_g|rewrite Va, Lo by auto; tauto]. split; intros [Y1 Y2]; congruence.
  - destruct (a_nd _ _ _ I t0) as (Y1 & Y2 & Y3). tupds; simpl; splits; auto. now apply nodup_app_one.
  - rewrite (a_fly _ _ _ I). destruct (ctx_dec c g) as [->|E]; [rewrite L_g|rewrite Lo by auto; tauto]. split; congruence.
  - assert (c <> g) by (intros ->; apply (a_fly _ _ _ I) in H; congruence). assert (a <> g) by (intros ->; congruence). rewrite !Va by auto. now apply I.
  - destruct (ctx_dec c g) as [->|E]; [now rewrite V_g, L_g|]. rewrite Va, Lo by auto. apply I.
  - destruct (ctx_dec c g) as [->|E]; [rewrite V_g in *; now apply Ix|]. rewrite Va in * by auto. now apply I.
  - pose proof (a_tmpd _ _ _ I _ H) as Y. rewrite Va; auto. intros E. rewrite E in Y. congruence.
  - destruct (ctx_dec c g) as [->|E]; [now rewrite V_g|]. rewrite Va by auto. apply I.
  - destruct (a_home _ _ _ I t0) as [Y1 Y2]. split.
    + destruct (ctx_dec (Dp t0) g) as [E|E]; [rewrite E, V_g|now rewrite Va]. rewrite E in Y1. destruct (Hhm t0) as [Z|[_ Z]]; congruence.
    + destruct (ctx_dec (Mn t0) g) as [E|E]; [rewrite E, V_g|now rewrite Va]. rewrite E in Y2. destruct (Hhm t0) as [Z|[Z _]]; congruence.
  - assert (E : Dp t0 <> g) by (intros E; rewrite E, V_g in H; congruence). rewrite Va in H by auto. destruct (a_fin _ _ _ I _ H) as [Y1 Y2]. split; auto.
    rewrite Va; auto. intros E2. rewrite E2 in Y2. intuition.
  - rewrite (a_sh _ _ _ I). destruct (ctx_dec (Mn t0) g) as [E|E]; [rewrite E, V_g|now rewrite Va]. intuition congruence.
  - assert (E : Dp t0 <> g) by (intros E; rewrite E, V_g in H; congruence). rewrite Va in H by auto. now apply (a_dfin _ _ _ I).
  - assert (E : Mn t0 <> g) by (intros E; rewrite E, V_g in H; intuition congruence). rewrite Va in H by auto. pose proof (a_shut _ _ _ I _ H) as Y. rewrite Va; auto.
    intros E2. rewrite E2 in Y. congruence.
Qed.

Lemma ia_arm v w L t a : IA v w L -> a = wa (w t) -> vp (v a) = PIdle ->
  IA (cupd v a (mkV (PArmed (S (ve (v a)))) (S (ve (v a))) (S (ve (v a)) :: vi (v a)) (vh (v a)))) w L.
Proof.
  intros I Ea Hp. set (x := mkV _ _ _ _).
  assert (La : L a = LAct) by (eapply act_loc; eauto; now rewrite Hp).
  assert (Vh : forall c, vh (cupd v a x c) = vh (v c)) by (intros y; cupds; auto).
  assert (Vq : forall c, pushing (vp (cupd v a x c)) = pushing (vp (v c))) by (intros y; cupds; auto; rewrite Hp; auto).
  assert (Va : forall y, y <> a -> cupd v a x y = v y) by (intros; now rewrite cupd_other).
  assert (V_a : cupd v a x a = x) by apply cupd_same.
  remember (cupd v a x) as v' eqn:Ev'. clear Ev'.
  constructor; intros; rewrite ?Vh, ?Vq in *; try (apply I; auto; fail).
  - split; [apply I|]. destruct (ctx_dec (wa (w t0)) a) as [E|E]; [rewrite E, V_a; auto|]. rewrite Va by auto. apply I.
  - destruct (ctx_dec c a) as [->|E]; [apply I; auto|]. rewrite Va in H by auto. now apply I.
  - destruct (ctx_dec c a) as [->|E]; [rewrite V_a|rewrite Va by auto; apply I]. left. simpl. auto.
  - destruct (ctx_dec c a) as [->|E]; [rewrite V_a in *|rewrite Va in * by auto; now apply I]. simpl in *. destruct H as [<-|H].
    + split; auto. intros _. now left.
    + destruct (a_iss _ _ _ I _ _ H) as [Y _]. split; [lia|]. intros ->. lia.
  - pose proof (a_tmpd _ _ _ I _ H) as Y. rewrite Va; auto. intros E. rewrite E in Y. congruence.
  - destruct (ctx_dec c a) as [->|E]; [rewrite V_a|rewrite Va by auto; apply I]. pose proof (a_kind _ _ _ I a) as K. rewrite Hp in K. exact K.
  - assert (E : Dp t0 <> a) by (intros E; rewrite E, V_a in H; discriminate H). rewrite Va in H by auto. destruct (a_fin _ _ _ I _ H) as [Y1 Y2]. split; auto.
    rewrite Va; auto. intros E2. rewrite E2, Hp in Y2. intuition discriminate.
  - rewrite (a_sh _ _ _ I). destruct (ctx_dec (Mn t0) a) as [E|E]; [rewrite E, V_a, Hp|now rewrite Va]. simpl. intuition congruence.
  - assert (E : Dp t0 <> a) by (intros E; rewrite E, V_a in H; discriminate H). rewrite Va in H by auto. now apply (a_dfin _ _ _ I).
  - assert (E : Mn t0 <> a) by (intros E; rewrite E, V_a in H; simpl in H; intuition discriminate). rewrite Va in H by auto. pose proof (a_shut _ _ _ I _ H) as Y. rewrite Va; auto.
    intros E2. rewrite E2, Hp in Y. discriminate Y.
Qed.

Lemma ia_shut v w L t a : IA v w L -> a = wa (w t) -> vp (v a) = PIdle -> kind a PShut ->
  IA (cupd v a (spc (v a) PShut)) (upd w t (mkW (wa (w t)) (wr (w t)) (wm (w t)) (wt (w t)) true)) L.
Proof.
  intros I Ea Hp Hk.
  assert (La : L a = LAct) by (eapply act_loc; eauto; now rewrite Hp). pose proof (act_here _ _ _ I _ _ Ea) as Hh.
  set (x := spc (v a) PShut).
  assert (Hx : vp x = PShut /\ ve x = ve (v a) /\ vi x = vi (v a) /\ vh x = vh (v a)) by auto. destruct Hx as (x1 & x2 & x3 & x4).
  assert (Vh : forall c, vh (cupd v a x c) = vh (v c)) by (intros y; cupds; auto).
  assert (Vq : forall c, pushing (vp (cupd v a x c)) = pushing (vp (v c))) by (intros y; cupds; auto; rewrite Hp; auto).
  assert (Vr : forall c, armed (vp (cupd v a x c)) = armed (vp (v c))) by (intros y; cupds; auto; rewrite Hp; auto).
  assert (Va : forall y, y <> a -> cupd v a x y = v y) by (intros; now rewrite cupd_other).
  assert (V_a : cupd v a x a = x) by apply cupd_same. clearbody x.
  remember (cupd v a x) as v' eqn:Ev'. clear Ev'.
  assert (Wa : forall u, wa (upd w t (mkW (wa (w t)) (wr (w t)) (wm (w t)) (wt (w t)) true) u) = wa (w u)) by (intros u; tupds; auto).
  assert (Wr : forall u, wr (upd w t (mkW (wa (w t)) (wr (w t)) (wm (w t)) (wt (w t)) true) u) = wr (w u)) by (intros u; tupds; auto).
  assert (Wm : forall u, wm (upd w t (mkW (wa (w t)) (wr (w t)) (wm (w t)) (wt (w t)) true) u) = wm (w u)) by (intros u; tupds; auto).
  assert (Wt : forall u, wt (upd w t (mkW (wa (w t)) (wr (w t)) (wm (w t)) (wt (w t)) true) u) = wt (w u)) by (intros u; tupds; auto).
  destruct a as [u| |]; try contradiction. assert (u = t) by (destruct (a_home _ _ _ I u); congruence). subst u.
  constructor; intros; rewrite ?Wa, ?Wr, ?Wm, ?Wt, ?Vh, ?Vq, ?Vr in *; try (apply I; auto; fail).
  - destruct (ctx_dec c (Mn t)) as [->|E]; [rewrite V_a|rewrite Va by auto; apply I]. unfold pcok. now rewrite x1.
  - destruct (ctx_dec c (Mn t)) as [->|E]; [rewrite V_a in *|rewrite Va in * by auto; now apply I]. rewrite x2, x3 in *. destruct (a_iss _ _ _ I _ _ H) as [Y1 Y2]. split; auto.
    intros Y. apply Y2 in Y. unfold waits_on in Y. rewrite Hp in Y. destruct Y as [Y|[Y|[? Y]]]; discriminate Y.
  - rewrite Va by discriminate. now apply I.
  - destruct (ctx_dec c (Mn t)) as [->|E]; [rewrite V_a, x1; auto|rewrite Va by auto; apply I].
  - rewrite Va in H by discriminate. destruct (a_fin _ _ _ I _ H) as [Y1 Y2]. split; auto. rewrite Va; auto. intros [= ->]. rewrite Hp in Y2. intuition discriminate.
  - destruct (Nat.eq_dec t0 t) as [->|E].
    + rewrite upd_same, V_a, x1. simpl. tauto.
    + rewrite upd_other by auto. rewrite Va by congruence. apply I.
  - rewrite Va in H by discriminate. apply (a_dfin _ _ _ I) in H. tupds; auto.
  - assert (E : Mn t0 <> Mn t) by (intros [= ->]; rewrite V_a, x1 in H; intuition discriminate). rewrite Va in * by (auto; discriminate). now apply I.
Qed.

(** Waking a context of another thread. *)
Lemma ia_wake_far v w L t a g k : IA v w L ->
  a = wa (w t) -> a <> g -> waits_on (vp (v g)) (ve (v g)) \/ (exists y, vp (v g) = PSusp (ve (v g)) y) -> vh (v g) <> t ->
  vp (v a) = kpc k -> kuser k a ->
  IA (cupd (cupd v g (mkV (vp (v g)) (S (ve (v g))) (vi (v g)) (vh (v g)))) a (spc (v a) (PPush g k))) w (cupd L g (LFly a)).
Proof.
  intros I Ea Nag Hg Hh Hk Ku.
  assert (Aa : armed (vp (v a)) = false) by (rewrite Hk; destruct k; auto).
  assert (Qa : pushing (vp (v a)) = None) by (rewrite Hk; destruct k; auto).
  assert (La : L a = LAct) by (eapply act_loc; eauto). pose proof (act_here _ _ _ I _ _ Ea) as Ha.
  assert (Pg : vp (v g) = PArmed (ve (v g)) \/ exists y, vp (v g) = PSusp (ve (v g)) y) by (destruct Hg as [[E|[E|[tp E]]]|[y E]]; eauto).
  assert (Lg : L g = LNo \/ (L g = LAct /\ armed (vp (v g)) = true)).
  { pose proof (a_pc _ _ _ I g) as P. unfold pcok in P. destruct Pg as [E|[y E]]; rewrite E in P.
    - destruct P as [[_ P]|[P _]]; [|lia]. right. split; auto. now rewrite E.
    - destruct P as [[_ P]|[P _]]; [auto|lia]. }
  assert (Qg : pushing (vp (v g)) = None) by (destruct Pg as [E|[y E]]; rewrite E; auto).
  assert (Sg : special (vp (v g)) = false) by (destruct Pg as [E|[y E]]; rewrite E; auto). special_facts Sg.
  assert (Sa : special (vp (v a)) = false) by (rewrite Hk; destruct k; auto). special_facts Sa.
  set (x := mkV _ _ _ _). set (z := spc _ _).
  assert (Hz : vp z = PPush g k /\ ve z = ve (v a) /\ vi z = vi (v a) /\ vh z = vh (v a)) by auto. destruct Hz as (z1 & z2 & z3 & z4).
  assert (Hx : vp x = vp (v g) /\ ve x = S (ve (v g)) /\ vi x = vi (v g) /\ vh x = vh (v g)) by auto. destruct Hx as (x1 & x2 & x3 & x4).
  assert (V_a : cupd (cupd v g x) a z a = z) by apply cupd_same.
  assert (V_g : cupd (cupd v g x) a z g = x) by (rewrite cupd_other, cupd_same; auto).
  assert (Va : forall y, y <> a -> y <> g -> cupd (cupd v g x) a z y = v y) by (intros; now rewrite !cupd_other).
  assert (Lo : forall y, y <> g -> cupd L g (LFly a) y = L y) by (intros; now rewrite cupd_other).
  assert (L_g : cupd L g (LFly a) g = LFly a) by apply cupd_same. clearbody x z.
  remember (cupd (cupd v g x) a z) as v' eqn:Ev'. remember (cupd L g (LFly a)) as L' eqn:EL'. clear Ev' EL'.
  assert (Vc : forall y, y = a \/ y = g \/ (y <> a /\ y <> g)) by (intros y; destruct (ctx_dec y a), (ctx_dec y g); auto).
  assert (Vh : forall y, vh (v' y) = vh (v y)) by (intros y; destruct (Vc y) as [->|[->|[Y1 Y2]]]; [rewrite V_a|rewrite V_g|rewrite Va by auto]; auto).
  assert (Vr : forall y, armed (vp (v' y)) = armed (vp (v y))) by (intros y; destruct (Vc y) as [->|[->|[Y1 Y2]]]; [rewrite V_a, z1, Aa|rewrite V_g, x1|rewrite Va by auto]; auto).
  constructor; intros; rewrite ?Vh, ?Vr in *; try (apply I; auto; fail).
  - destruct (a_act _ _ _ I t0) as [Y1 Y2]. split; auto. destruct (ctx_dec (wa (w t0)) g) as [E|E]; [|rewrite Lo; auto]. right. rewrite E in *. destruct Lg as [Y|[_ Y]]; auto.
    destruct Y2; congruence.
  - destruct (ctx_dec c g) as [->|E]; [rewrite L_g in H|rewrite Lo in H by auto; now apply I]. destruct H as [H|H]; [discriminate H|]. apply I; auto.
  - rewrite (a_rq _ _ _ I). destruct (ctx_dec c g) as [->|E]; [rewrite L_g|now rewrite Lo]. split; intros [Y _]; [destruct Lg as [Z|[Z _]]|]; congruence.
  - rewrite (a_rrq _ _ _ I). destruct (ctx_dec c g) as [->|E]; [rewrite L_g|now rewrite Lo]. split; intros [Y _]; [destruct Lg as [Z|[Z _]]|]; congruence.
  - rewrite (a_tmp _ _ _ I). destruct (ctx_dec c g) as [->|E]; [rewrite L_g|now rewrite Lo]. split; intros [Y _]; [destruct Lg as [Z|[Z _]]|]; congruence.
  - destruct (ctx_dec c g) as [->|E].
    + rewrite L_g. destruct (Vc a0) as [->|[->|[Y1 Y2]]]; [rewrite V_a, z1|rewrite V_g, x1|rewrite Va by auto].
      * simpl. tauto.
      * split; congruence.
      * rewrite (a_fly _ _ _ I). split; [destruct Lg as [Z|[Z _]]|]; congruence.
    + rewrite Lo by auto. rewrite <- (a_fly _ _ _ I). destruct (Vc a0) as [->|[->|[Y1 Y2]]]; [rewrite V_a, z1|rewrite V_g, x1|rewrite Va by auto]; try tauto.
      simpl. split; congruence.
  - destruct (Vc a0) as [->|[->|[Y1 Y2]]]; [rewrite V_a, z1 in H|rewrite V_g, x1 in H|rewrite Va in H by auto; now apply I].
    + simpl in H. injection H as <-. congruence.
    + congruence.
  - destruct (Vc c) as [->|[->|[Y1 Y2]]]; [rewrite V_a, Lo by auto|rewrite V_g, L_g|rewrite Va, Lo by auto; apply I].
    + unfold pcok. now rewrite z1.
    + unfold pcok. rewrite x1, x2. destruct Pg as [E|[y E]]; rewrite E.
      * right. eauto.
      * right. split; auto. discriminate.
  - destruct (Vc c) as [->|[->|[Y1 Y2]]]; [rewrite V_a in *|rewrite V_g in *|rewrite Va in * by auto; now apply I].
    + rewrite z2, z3 in *. destruct (a_iss _ _ _ I _ _ H) as [Y1 Y2]. split; auto. intros Y. apply Y2 in Y. unfold waits_on in Y. rewrite Hk in Y.
      destruct k; simpl in Y; destruct Y as [Y|[Y|[? Y]]]; discriminate Y.
    + rewrite x2, x3 in *. destruct (a_iss _ _ _ I _ _ H) as [Y1 Y2]. split; lia.
  - pose proof (a_tmpd _ _ _ I _ H) as Y. rewrite Va; auto; intros E; rewrite E in Y; congruence.
  - destruct (Vc c) as [->|[->|[Y1 Y2]]]; [rewrite V_a, z1; auto|rewrite V_g, x1|rewrite Va by auto]; apply I.
  - assert (E : vp (v (Dp t0)) = DGone). { destruct (Vc (Dp t0)) as [E|[E|[Y1 Y2]]]; [rewrite E, V_a, z1 in H; discriminate H|rewrite E, V_g in H; congruence|rewrite Va in H by auto; auto]. }
    destruct (a_fin _ _ _ I _ E) as [Y1 Y2]. split; auto. rewrite Va; auto; intros E2; rewrite E2 in Y2; intuition.
  - rewrite (a_sh _ _ _ I). destruct (Vc (Mn t0)) as [E|[E|[Y1 Y2]]]; [rewrite E, V_a, z1|rewrite E, V_g, x1|rewrite Va by auto]; try tauto. intuition discriminate.
  - assert (E : vp (v (Dp t0)) = DFin). { destruct (Vc (Dp t0)) as [E|[E|[Y1 Y2]]]; [rewrite E, V_a, z1 in H; discriminate H|rewrite E, V_g in H; congruence|rewrite Va in H by auto; auto]. }
    now apply (a_dfin _ _ _ I).
  - assert (E : vp (v (Dp t0)) = DGone).
    { apply (a_shut _ _ _ I). destruct (Vc (Mn t0)) as [E|[E|[Y1 Y2]]]; [rewrite E, V_a, z1 in H; intuition discriminate|rewrite E, V_g, x1 in H; intuition congruence|rewrite Va in H by auto; auto]. }
    rewrite Va; auto; intros E2; rewrite E2 in E; congruence.
Qed.


Lemma ia_push v w L t a g k u : IA v w L -> a = wa (w t) -> vp (v a) = PPush g k -> u = vh (v g) ->
  IA (cupd v a (spc (v a) (PNote u k))) (upd w u (mkW (wa (w u)) (wr (w u)) (wm (w u) ++ [g]) (wt (w u)) (ws (w u)))) (cupd L g LRem).
Proof.
  intros I Ea Hp Hu.
  assert (Aa : armed (vp (v a)) = false) by now rewrite Hp.
  assert (Qa : pushing (vp (v a)) = Some g) by now rewrite Hp.
  assert (Lg : L g = LFly a) by now apply (a_fly _ _ _ I).
  assert (La : L a = LAct) by (eapply act_loc; eauto). assert (Nag : a <> g) by congruence.
  set (x := spc _ _).
  assert (Hx : vp x = PNote u k /\ ve x = ve (v a) /\ vi x = vi (v a) /\ vh x = vh (v a)) by auto. destruct Hx as (x1 & x2 & x3 & x4).
  assert (V_a : cupd v a x a = x) by apply cupd_same.
  assert (Va : forall y, y <> a -> cupd v a x y = v y) by (intros; now rewrite cupd_other).
  assert (Lo : forall y, y <> g -> cupd L g LRem y = L y) by (intros; now rewrite cupd_other).
  assert (L_g : cupd L g LRem g = LRem) by apply cupd_same. clearbody x.
  remember (cupd v a x) as v' eqn:Ev'. remember (cupd L g LRem) as L' eqn:EL'. clear Ev' EL'.
  assert (Vh : forall y, vh (v' y) = vh (v y)) by (intros y; destruct (ctx_dec y a) as [->|E]; [rewrite V_a|rewrite Va by auto]; auto).
  assert (Vr : forall y, armed (vp (v' y)) = armed (vp (v y))) by (intros y; destruct (ctx_dec y a) as [->|E]; [rewrite V_a, x1, Aa|rewrite Va by auto]; auto).
  set (wu := mkW _ _ _ _ _).
  assert (Wa : forall q, wa (upd w u wu q) = wa (w q)) by (intros q; tupds; auto).
  assert (Wr : forall q, wr (upd w u wu q) = wr (w q)) by (intros q; tupds; auto).
  assert (Wt : forall q, wt (upd w u wu q) = wt (w q)) by (intros q; tupds; auto).
  assert (Wsh : forall q, ws (upd w u wu q) = ws (w q)) by (intros q; tupds; auto).
  assert (Wm : forall q c, In c (wm (upd w u wu q)) <-> In c (wm (w q)) \/ (q = u /\ c = g)).
  { intros q c. tupds; unfold wu; simpl; rewrite ?in_app_iff; simpl; intuition. }
  assert (Wn : NoDup (wm (w u) ++ [g])) by (apply nodup_app_one; [apply I|]; rewrite (a_rrq _ _ _ I); intros [Y _]; congruence).
  constructor; intros; rewrite ?Vh, ?Vr, ?Wa, ?Wr, ?Wt, ?Wsh, ?Wm in *; try (apply I; auto; fail).
  - destruct (a_act _ _ _ I t0) as [Y1 Y2]. split; auto. destruct (ctx_dec (wa (w t0)) g) as [E|E]; [|rewrite Lo; auto]. rewrite E in *. right. destruct Y2; congruence.
  - destruct (ctx_dec c g) as [->|E]; [rewrite L_g in H|rewrite Lo in H by auto; now apply I]. destruct H as [H|H]; [discriminate H|]. apply I; auto.
  - rewrite (a_rq _ _ _ I). destruct (ctx_dec c g) as [->|E]; [rewrite L_g|now rewrite Lo]. split; intros [Y _]; congruence.
  - rewrite (a_rrq _ _ _ I). destruct (ctx_dec c g) as [->|E]; [rewrite L_g|rewrite Lo by auto]; intuition congruence.
  - rewrite (a_tmp _ _ _ I). destruct (ctx_dec c g) as [->|E]; [rewrite L_g|now rewrite Lo]. split; intros [Y _]; congruence.
  - destruct (a_nd _ _ _ I t0) as (Y1 & Y2 & Y3). tupds; unfold wu; simpl; splits; auto.
  - destruct (ctx_dec a0 a) as [->|E]; [rewrite V_a, x1|rewrite Va, (a_fly _ _ _ I) by auto].
    + simpl. split; [discriminate|]. destruct (ctx_dec c g) as [->|E]; [rewrite L_g|rewrite Lo by auto]; [discriminate|]. intros Y. apply (a_fly _ _ _ I) in Y. congruence.
    + destruct (ctx_dec c g) as [->|E2]; [rewrite L_g|rewrite Lo by auto; tauto]. split; congruence.
  - destruct (ctx_dec a0 a) as [->|E]; [rewrite V_a, x1 in H; discriminate H|rewrite Va in H by auto; now apply I].
  - destruct (ctx_dec c a) as [->|E]; [rewrite V_a, Lo by auto; unfold pcok; now rewrite x1|]. rewrite Va by auto.
    destruct (ctx_dec c g) as [->|E2]; [rewrite L_g|rewrite Lo by auto; apply I].
    pose proof (a_pc _ _ _ I g) as P. unfold pcok in *. rewrite Lg in P. destruct (vp (v g)); try discriminate P; try (destruct P as [P|P]; discriminate P).
    + destruct P as [[_ P]|[P _]]; [discriminate P|auto].
    + destruct P as [[_ P]|[P _]]; [discriminate P|right; split; auto; discriminate].
  - destruct (ctx_dec c a) as [->|E]; [rewrite V_a in *|rewrite Va in * by auto; now apply I].
    rewrite x2, x3 in *. destruct (a_iss _ _ _ I _ _ H) as [Y1 Y2]. split; auto. intros Y. apply Y2 in Y. unfold waits_on in Y. rewrite Hp in Y.
    destruct Y as [Y|[Y|[? Y]]]; discriminate Y.
  - pose proof (a_tmpd _ _ _ I _ H) as Y. rewrite Va; auto; intros E; rewrite E in Y; congruence.
  - destruct (ctx_dec c a) as [->|E]; [rewrite V_a, x1|rewrite Va by auto; apply I]. pose proof (a_kind _ _ _ I a) as K. rewrite Hp in K. exact K.
  - assert (E : Dp t0 <> a) by (intros E; rewrite E, V_a, x1 in H; discriminate H). rewrite Va in H by auto. destruct (a_fin _ _ _ I _ H) as [Y1 Y2]. split; auto.
    rewrite Va; auto. intros E2. rewrite E2, Hp in Y2. destruct Y2; discriminate.
  - rewrite (a_sh _ _ _ I). destruct (ctx_dec (Mn t0) a) as [E|E]; [rewrite E, V_a, x1, Hp|now rewrite Va]. split; intros [Y|[Y|Y]]; discriminate Y.
  - assert (E : Dp t0 <> a) by (intros E; rewrite E, V_a, x1 in H; discriminate H). rewrite Va in H by auto. now apply (a_dfin _ _ _ I).
  - assert (E : Mn t0 <> a) by (intros E; rewrite E, V_a, x1 in H; destruct H as [[H _]|H]; discriminate H). rewrite Va in H by auto. pose proof (a_shut _ _ _ I _ H) as Y. rewrite Va; auto.
    intros E2. rewrite E2, Hp in Y. discriminate Y.
Qed.

Lemma ia_swap v w L t : IA v w L -> wa (w t) = Dp t -> vp (v (Dp t)) = DSwap ->
  IA (cupd v (Dp t) (spc (v (Dp t)) DDrain)) (upd w t (mkW (wa (w t)) (wr (w t)) [] (wm (w t)) (ws (w t))))
     (fun c => if mem c (wm (w t)) then LTmp else L c).
Proof.
  intros I Ea Hp. symmetry in Ea. remember (Dp t) as a eqn:Eat.
  assert (Aa : armed (vp (v a)) = false) by now rewrite Hp.
  assert (La : L a = LAct) by (eapply act_loc; eauto).
  assert (Et : wt (w t) = []) by (destruct (wt (w t)) eqn:E; auto; pose proof (a_tmpd _ _ _ I t) as Y; rewrite E, <- Eat in Y; rewrite Y in Hp by discriminate; discriminate Hp).
  set (x := spc _ _).
  assert (Hx : vp x = DDrain /\ ve x = ve (v a) /\ vi x = vi (v a) /\ vh x = vh (v a)) by auto. destruct Hx as (x1 & x2 & x3 & x4).
  assert (V_a : cupd v a x a = x) by apply cupd_same.
  assert (Va : forall y, y <> a -> cupd v a x y = v y) by (intros; now rewrite cupd_other).
  set (L' := fun c => if mem c (wm (w t)) then LTmp else L c).
  assert (Lm : forall y, L y = LRem -> vh (v y) = t -> L' y = LTmp) by (intros y Y1 Y2; unfold L'; rewrite (proj2 (mem_In _ _)); auto; now apply (a_rrq _ _ _ I)).
  assert (Ln : forall y, L y <> LRem \/ vh (v y) <> t -> L' y = L y).
  { intros y Y. unfold L'. destruct (mem y (wm (w t))) eqn:E; auto. apply mem_In in E. apply (a_rrq _ _ _ I) in E. tauto. }
  assert (Ld : forall y, (L y = LRem /\ vh (v y) = t) \/ (L y <> LRem \/ vh (v y) <> t)).
  { intros y. destruct (Nat.eq_dec (vh (v y)) t); [|auto]. destruct (L y); auto; right; left; discriminate. }
  clearbody x L'. remember (cupd v a x) as v' eqn:Ev'. clear Ev'.
  assert (Vh : forall y, vh (v' y) = vh (v y)) by (intros y; destruct (ctx_dec y a) as [->|E]; [rewrite V_a|rewrite Va by auto]; auto).
  assert (Vr : forall y, armed (vp (v' y)) = armed (vp (v y))) by (intros y; destruct (ctx_dec y a) as [->|E]; [rewrite V_a, x1, Aa|rewrite Va by auto]; auto).
  assert (Vq : forall y, pushing (vp (v' y)) = pushing (vp (v y))) by (intros y; destruct (ctx_dec y a) as [->|E]; [rewrite V_a, x1, Hp|rewrite Va by auto]; auto).
  set (wu := mkW _ _ _ _ _).
  assert (Wa : forall q, wa (upd w t wu q) = wa (w q)) by (intros q; tupds; auto).
  assert (Wr : forall q, wr (upd w t wu q) = wr (w q)) by (intros q; tupds; auto).
  assert (Wsh : forall q, ws (upd w t wu q) = ws (w q)) by (intros q; tupds; auto).
  assert (Leq : forall y p, p <> LRem -> p <> LTmp -> (L' y = p <-> L y = p)).
  { intros y p Y1 Y2. destruct (Ld y) as [[D1 D2]|D]; [rewrite (Lm y D1 D2)|rewrite (Ln y D); tauto]. split; congruence. }
  constructor; intros; rewrite ?Vh, ?Vr, ?Vq, ?Wa, ?Wr, ?Wsh in *; rewrite ?Leq in * by discriminate; try (apply I; auto; fail).
  - tupds; unfold wu; simpl.
    + split; [contradiction|]. intros [Y1 Y2]. destruct (Ld c) as [[D1 D2]|D]; [rewrite (Lm c D1 D2) in Y1; discriminate Y1|]. rewrite (Ln c D) in Y1. tauto.
    + rewrite (a_rrq _ _ _ I). destruct (Ld c) as [[D1 D2]|D]; [rewrite (Lm c D1 D2)|rewrite (Ln c D); tauto]. split; intros [? ?]; congruence.
  - tupds; unfold wu; simpl.
    + rewrite (a_rrq _ _ _ I). destruct (Ld c) as [[D1 D2]|D]; [rewrite (Lm c D1 D2); tauto|rewrite (Ln c D)].
      split; [intros [? ?]; exfalso; tauto|]. intros Y. apply (a_tmp _ _ _ I) in Y. rewrite Et in Y. contradiction.
    + rewrite (a_tmp _ _ _ I). destruct (Ld c) as [[D1 D2]|D]; [rewrite (Lm c D1 D2)|rewrite (Ln c D); tauto]. split; intros [? ?]; congruence.
  - destruct (a_nd _ _ _ I t0) as (Y1 & Y2 & Y3). tupds; unfold wu; simpl; splits; auto. constructor.
  - destruct (ctx_dec c a) as [->|E]; [rewrite V_a; unfold pcok; rewrite x1; apply Leq; auto; discriminate|]. rewrite Va by auto.
    destruct (Ld c) as [[D1 D2]|D]; [rewrite (Lm c D1 D2)|rewrite (Ln c D); apply I].
    pose proof (a_pc _ _ _ I c) as P. unfold pcok in *. rewrite D1 in P. destruct (vp (v c)) eqn:Ev; try discriminate P; try (destruct P as [P|P]; discriminate P).
    + exfalso. assert (Y : armed (vp (v c)) = true) by now rewrite Ev. apply E. pose proof (a_run _ _ _ I c (or_intror Y)) as Z. congruence.
    + destruct P as [[_ P]|[P _]]; [discriminate P|right; split; auto; discriminate].
  - destruct (ctx_dec c a) as [->|E]; [rewrite V_a in *|rewrite Va in * by auto; now apply I].
    rewrite x2, x3 in *. destruct (a_iss _ _ _ I _ _ H) as [Y1 Y2]. split; auto. intros Y. apply Y2 in Y. unfold waits_on in Y. rewrite Hp in Y.
    destruct Y as [Y|[Y|[? Y]]]; discriminate Y.
  - destruct (Nat.eq_dec t0 t) as [->|E]; [rewrite <- Eat, V_a; auto|]. rewrite upd_other in H by auto. rewrite Va; [now apply I|congruence].
  - destruct (ctx_dec c a) as [->|E]; [rewrite V_a, x1, Eat; exact Logic.I|rewrite Va by auto; apply I].
  - assert (E : Dp t0 <> a) by (intros E; rewrite E, V_a, x1 in H; discriminate H). rewrite Va in H by auto. destruct (a_fin _ _ _ I _ H) as [Y1 Y2]. split; auto.
    rewrite Va; auto. congruence.
  - rewrite (a_sh _ _ _ I). rewrite Va by congruence. tauto.
  - assert (E : Dp t0 <> a) by (intros E; rewrite E, V_a, x1 in H; discriminate H). rewrite Va in H by auto. now apply (a_dfin _ _ _ I).
  - rewrite (Va (Mn t0)) in H by congruence. pose proof (a_shut _ _ _ I _ H) as Y. rewrite Va; auto. intros E2. rewrite E2, Hp in Y. discriminate Y.
Qed.

Lemma ia_drain v w L t c r : IA v w L -> wa (w t) = Dp t -> vp (v (Dp t)) = DDrain -> wt (w t) = c :: r ->
  IA v (upd w t (mkW (wa (w t)) (wr (w t) ++ [c]) (wm (w t)) r (ws (w t)))) (cupd L c LRdy).
Proof.
  intros I Ea Hp Hc.
  assert (Ic : In c (wt (w t))) by (rewrite Hc; now left). pose proof (proj1 (a_tmp _ _ _ I _ _) Ic) as [Lc Hh].
  destruct (a_nd _ _ _ I t) as (D1 & D2 & D3). rewrite Hc in D3. inversion D3; subst x l.
  assert (Lo : forall y, y <> c -> cupd L c LRdy y = L y) by (intros; now rewrite cupd_other).
  assert (L_g : cupd L c LRdy c = LRdy) by apply cupd_same. remember (cupd L c LRdy) as L' eqn:EL'. clear EL'.
  set (wu := mkW _ _ _ _ _).
  assert (Wa : forall q, wa (upd w t wu q) = wa (w q)) by (intros q; tupds; auto).
  assert (Wm : forall q, wm (upd w t wu q) = wm (w q)) by (intros q; tupds; auto).
  assert (Wsh : forall q, ws (upd w t wu q) = ws (w q)) by (intros q; tupds; auto).
  assert (Na : armed (vp (v c)) = false).
  { pose proof (a_pc _ _ _ I c) as P. unfold pcok in P. destruct (vp (v c)); auto. destruct P as [[_ P]|[_ [P|[? P]]]]; congruence. }
  constructor; intros; rewrite ?Wa, ?Wm, ?Wsh in *; try (apply I; auto; fail).
  - destruct (a_act _ _ _ I t0) as [Y1 Y2]. split; auto. rewrite Lo; auto. intros E. rewrite E in Y2. destruct Y2; congruence.
  - apply I. destruct (ctx_dec c0 c) as [->|E]; [rewrite L_g in H|rewrite Lo in H by auto; auto]. destruct H; congruence.
  - destruct (ctx_dec c0 c) as [->|E]; [rewrite L_g|rewrite Lo, <- (a_rq _ _ _ I) by auto].
    + tupds; unfold wu; simpl; [rewrite in_app_iff; simpl; tauto|]. rewrite (a_rq _ _ _ I). split; intros [? ?]; congruence.
    + tupds; unfold wu; simpl; [rewrite in_app_iff; simpl|]; intuition congruence.
  - rewrite (a_rrq _ _ _ I). destruct (ctx_dec c0 c) as [->|E]; [rewrite L_g|rewrite Lo by auto; tauto]. split; intros [? ?]; congruence.
  - destruct (ctx_dec c0 c) as [->|E]; [rewrite L_g|rewrite Lo, <- (a_tmp _ _ _ I) by auto].
    + tupds; unfold wu; simpl; [|rewrite (a_tmp _ _ _ I)]; split; try tauto; intros [? ?]; congruence.
    + tupds; unfold wu; simpl; [|tauto]. rewrite Hc. simpl. intuition congruence.
  - destruct (a_nd _ _ _ I t0) as (Y1 & Y2 & Y3). tupds; unfold wu; simpl; splits; auto. apply nodup_app_one; auto. rewrite (a_rq _ _ _ I). intros [? ?]; congruence.
  - rewrite (a_fly _ _ _ I). destruct (ctx_dec c0 c) as [->|E]; [rewrite L_g|rewrite Lo by auto; tauto]. split; congruence.
  - destruct (ctx_dec c0 c) as [->|E]; [rewrite L_g|rewrite Lo by auto; apply I].
    pose proof (a_pc _ _ _ I c) as P. unfold pcok in *. rewrite Lc in P. destruct (vp (v c)) eqn:Ev; try discriminate P; try (destruct P as [P|P]; discriminate P); try discriminate Na.
    destruct P as [[_ P]|[P _]]; [discriminate P|right; split; auto; discriminate].
  - destruct (Nat.eq_dec t0 t) as [->|E]; auto. rewrite upd_other in H by auto. now apply I.
  - now apply (a_dfin _ _ _ I).
Qed.

Lemma ia_disp v w L t a n : IA v w L -> a = wa (w t) -> vp (v a) = PIdle -> vp (v (Wk n)) = PNone ->
  IA (cupd (cupd v (Wk n) (mkV PNew 0 [] t)) a (spc (v a) PYield)) (upd w t (mkW (Wk n) (wr (w t) ++ [a]) (wm (w t)) (wt (w t)) (ws (w t))))
     (cupd (cupd L (Wk n) LAct) a LRdy).
Proof.
  intros I Ea Hp Hn.
  assert (Aa : armed (vp (v a)) = false) by now rewrite Hp.
  assert (La : L a = LAct) by (eapply act_loc; eauto). pose proof (act_here _ _ _ I _ _ Ea) as Hh.
  pose proof (a_pc _ _ _ I (Wk n)) as Ln. unfold pcok in Ln. rewrite Hn in Ln. assert (Nan : a <> Wk n) by congruence.
  set (x := mkV _ _ _ _). set (z := spc _ _). 
  assert (Hx : vp x = PNew /\ ve x = 0 /\ vi x = [] /\ vh x = t) by auto. destruct Hx as (x1 & x2 & x3 & x4).
  assert (Hz : vp z = PYield /\ ve z = ve (v a) /\ vi z = vi (v a) /\ vh z = vh (v a)) by auto. destruct Hz as (z1 & z2 & z3 & z4).
  assert (V_a : cupd (cupd v (Wk n) x) a z a = z) by apply cupd_same.
  assert (V_n : cupd (cupd v (Wk n) x) a z (Wk n) = x) by (rewrite cupd_other, cupd_same; auto).
  assert (Va : forall y, y <> a -> y <> Wk n -> cupd (cupd v (Wk n) x) a z y = v y) by (intros; now rewrite !cupd_other).
  assert (L_a : cupd (cupd L (Wk n) LAct) a LRdy a = LRdy) by apply cupd_same.
  assert (L_n : cupd (cupd L (Wk n) LAct) a LRdy (Wk n) = LAct) by (rewrite cupd_other, cupd_same; auto).
  assert (Lo : forall y, y <> a -> y <> Wk n -> cupd (cupd L (Wk n) LAct) a LRdy y = L y) by (intros; now rewrite !cupd_other).
  clearbody x z. remember (cupd (cupd v (Wk n) x) a z) as v' eqn:Ev'. remember (cupd (cupd L (Wk n) LAct) a LRdy) as L' eqn:EL'. clear Ev' EL'.
  set (wu := mkW _ _ _ _ _).
  assert (Wm : forall q, wm (upd w t wu q) = wm (w q)) by (intros q; tupds; auto).
  assert (Wt : forall q, wt (upd w t wu q) = wt (w q)) by (intros q; tupds; auto).
  assert (Wsh : forall q, ws (upd w t wu q) = ws (w q)) by (intros q; tupds; auto).
  assert (Vc : forall y, y = a \/ y = Wk n \/ (y <> a /\ y <> Wk n)) by (intros y; destruct (ctx_dec y a), (ctx_dec y (Wk n)); auto).
  assert (Ny : forall q, wa (w q) <> Wk n) by (intros q E; destruct (a_act _ _ _ I q) as [_ [Z|Z]]; rewrite E in Z; [congruence|rewrite Hn in Z; discriminate Z]).
  assert (Vq : forall y, pushing (vp (v' y)) = pushing (vp (v y))) by (intros y; destruct (Vc y) as [->|[->|[Y1 Y2]]]; [rewrite V_a, z1, Hp|rewrite V_n, x1, Hn|rewrite Va by auto]; auto).
  assert (Vh : forall y, y <> Wk n -> vh (v' y) = vh (v y)) by (intros y E; destruct (Vc y) as [->|[->|[Y1 Y2]]]; [rewrite V_a|congruence|rewrite Va by auto]; auto).
  constructor; intros; rewrite ?Wm, ?Wt, ?Wsh, ?Vq in *; try (apply I; auto; fail).
  - tupds; unfold wu; simpl; [rewrite V_n; auto|]. assert (wa (w t0) <> a) by (intros E; destruct (a_act _ _ _ I t0) as [Y _]; rewrite E in Y; congruence).
    rewrite Va, Lo by auto. apply I.
  - destruct (Vc c) as [->|[->|[Y1 Y2]]].
    + rewrite L_a, V_a, z1 in H. destruct H; discriminate.
    + rewrite V_n, x4. rewrite upd_same. auto.
    + rewrite Va, Lo in * by auto. pose proof (a_run _ _ _ I _ H) as Y. destruct (Nat.eq_dec (vh (v c)) t) as [E|E]; [|now rewrite upd_other]. congruence.
  - destruct (Vc c) as [->|[->|[Y1 Y2]]].
    + rewrite L_a, V_a, z4. tupds; unfold wu; simpl; [rewrite in_app_iff; simpl; intuition|]. rewrite (a_rq _ _ _ I). split; intros [? ?]; congruence.
    + rewrite L_n. assert (~ In (Wk n) (wr (w t0))) by (rewrite (a_rq _ _ _ I); intros [? _]; congruence).
      split; [|intros [? _]; discriminate]. tupds; unfold wu; simpl; [rewrite in_app_iff; simpl; intros [Y|[Y|[]]]; [tauto|congruence]|tauto].
    + rewrite Va, Lo, <- (a_rq _ _ _ I) by auto. tupds; unfold wu; simpl; [rewrite in_app_iff; simpl; intuition congruence|tauto].
  - rewrite (a_rrq _ _ _ I). destruct (Vc c) as [->|[->|[Y1 Y2]]]; [rewrite L_a|rewrite L_n|rewrite Va, Lo by auto; tauto]; split; intros [? ?]; congruence.
  - rewrite (a_tmp _ _ _ I). destruct (Vc c) as [->|[->|[Y1 Y2]]]; [rewrite L_a|rewrite L_n|rewrite Va, Lo by auto; tauto]; split; intros [? ?]; congruence.
  - destruct (a_nd _ _ _ I t0) as (Y1 & Y2 & Y3). tupds; unfold wu; simpl; splits; auto. apply nodup_app_one; auto. rewrite (a_rq _ _ _ I). intros [? ?]; congruence.
  - rewrite (a_fly _ _ _ I). destruct (Vc c) as [->|[->|[Y1 Y2]]]; [rewrite L_a|rewrite L_n|rewrite Lo by auto; tauto]; split; congruence.
  - assert (c <> Wk n) by (intros ->; apply (a_fly _ _ _ I) in H; congruence). assert (a0 <> Wk n) by (intros ->; rewrite Hn in H; discriminate H). rewrite !Vh by auto. now apply I.
  - destruct (Vc c) as [->|[->|[Y1 Y2]]]; [rewrite L_a, V_a|rewrite L_n, V_n|rewrite Va, Lo by auto; apply I]; unfold pcok; rewrite ?z1, ?x1; auto.
  - destruct (Vc c) as [->|[->|[Y1 Y2]]]; [rewrite V_a in *|rewrite V_n, x3 in H; contradiction|rewrite Va in * by auto; now apply I].
    rewrite z2, z3 in *. destruct (a_iss _ _ _ I _ _ H) as [Y1 Y2]. split; auto. intros Y. apply Y2 in Y. unfold waits_on in Y. rewrite Hp in Y.
    destruct Y as [Y|[Y|[? Y]]]; discriminate Y.
  - pose proof (a_tmpd _ _ _ I _ H) as Y. rewrite Va; auto; intros E; rewrite E in Y; congruence.
  - pose proof (a_kind _ _ _ I a) as K. rewrite Hp in K. destruct (Vc c) as [->|[->|[Y1 Y2]]]; [rewrite V_a, z1; exact K|rewrite V_n, x1; exact Logic.I|rewrite Va by auto; apply I].
  - rewrite !Vh by discriminate. apply I.
  - assert (E : Dp t0 <> a) by (intros E; rewrite E, V_a, z1 in H; discriminate H). rewrite Va in H by (auto; discriminate). destruct (a_fin _ _ _ I _ H) as [Y1 Y2].
    assert (E2 : Mn t0 <> a) by (intros E2; rewrite E2, Hp in Y2; destruct Y2; discriminate).
    rewrite Va by (auto; discriminate). split; auto. tupds; auto. simpl. exfalso. destruct (a_act _ _ _ I t) as [Y _]. congruence.
  - rewrite (a_sh _ _ _ I). destruct (ctx_dec (Mn t0) a) as [E|E]; [rewrite E, V_a, z1, Hp|rewrite Va by (auto; discriminate); tauto]. split; intros [Y|[Y|Y]]; discriminate Y.
  - assert (E : Dp t0 <> a) by (intros E; rewrite E, V_a, z1 in H; discriminate H). rewrite Va in H by (auto; discriminate). now apply (a_dfin _ _ _ I).
  - assert (E : Mn t0 <> a) by (intros E; rewrite E, V_a, z1 in H; destruct H as [[H _]|H]; discriminate H). rewrite (Va (Mn t0)) in H by (auto; discriminate).
    assert (X : vp (v (Dp t0)) = DGone).
    { apply (a_shut _ _ _ I). destruct H as [[H1 H2]|H]; auto. left. split; auto. tupds; auto. discriminate H2. }
    rewrite Va; auto; [|discriminate]. intros E2. rewrite E2, Hp in X. discriminate X.
Qed.

Lemma ia_end v w L t : IA v w L -> wa (w t) = Dp t -> vp (v (Dp t)) = DFin ->
  IA (cupd v (Dp t) (spc (v (Dp t)) DGone)) (upd w t (mkW (Mn t) (wr (w t)) (wm (w t)) (wt (w t)) (ws (w t)))) (cupd (cupd L (Dp t) LNo) (Mn t) LAct).
Proof.
  intros I Ea Hp.
  assert (La : L (Dp t) = LAct) by (eapply act_loc; eauto; now rewrite Hp).
  destruct (a_home _ _ _ I t) as [Hd Hm].
  assert (Hs : vp (v (Mn t)) = PShut2 /\ L (Mn t) = LNo).
  { pose proof (proj1 (a_sh _ _ _ I t) (a_dfin _ _ _ I _ Hp)) as X. pose proof (a_pc _ _ _ I (Mn t)) as P. unfold pcok in P.
    assert (N : L (Mn t) <> LAct) by (intros E; pose proof (a_run _ _ _ I (Mn t) (or_introl E)) as Y; congruence).
    destruct X as [X|[X|X]]; rewrite X in P; try contradiction. split; auto. destruct P; auto. contradiction. }
  destruct Hs as [Hs Ln].
  set (x := spc _ _). 
  assert (Hx : vp x = DGone /\ ve x = ve (v (Dp t)) /\ vi x = vi (v (Dp t)) /\ vh x = vh (v (Dp t))) by auto. destruct Hx as (x1 & x2 & x3 & x4).
  assert (V_a : cupd v (Dp t) x (Dp t) = x) by apply cupd_same.
  assert (Va : forall y, y <> Dp t -> cupd v (Dp t) x y = v y) by (intros; now rewrite !cupd_other).
  assert (L_m : cupd (cupd L (Dp t) LNo) (Mn t) LAct (Mn t) = LAct) by apply cupd_same.
  assert (L_a : cupd (cupd L (Dp t) LNo) (Mn t) LAct (Dp t) = LNo) by (rewrite cupd_other, cupd_same; auto; discriminate).
  assert (Lo : forall y, y <> Dp t -> y <> Mn t -> cupd (cupd L (Dp t) LNo) (Mn t) LAct y = L y) by (intros; now rewrite !cupd_other).
  clearbody x. remember (cupd v (Dp t) x) as v' eqn:Ev'. remember (cupd (cupd L (Dp t) LNo) (Mn t) LAct) as L' eqn:EL'. clear Ev' EL'.
  set (wu := mkW _ _ _ _ _).
  assert (Wr : forall q, wr (upd w t wu q) = wr (w q)) by (intros q; tupds; auto).
  assert (Wm : forall q, wm (upd w t wu q) = wm (w q)) by (intros q; tupds; auto).
  assert (Wt : forall q, wt (upd w t wu q) = wt (w q)) by (intros q; tupds; auto).
  assert (Wsh : forall q, ws (upd w t wu q) = ws (w q)) by (intros q; tupds; auto).
  assert (Vc : forall y, y = Dp t \/ y = Mn t \/ (y <> Dp t /\ y <> Mn t)) by (intros y; destruct (ctx_dec y (Dp t)), (ctx_dec y (Mn t)); auto).
  assert (Vq : forall y, pushing (vp (v' y)) = pushing (vp (v y))) by (intros y; destruct (ctx_dec y (Dp t)) as [->|E]; [rewrite V_a, x1, Hp|rewrite Va by auto]; auto).
  assert (Vr : forall y, armed (vp (v' y)) = armed (vp (v y))) by (intros y; destruct (ctx_dec y (Dp t)) as [->|E]; [rewrite V_a, x1, Hp|rewrite Va by auto]; auto).
  assert (Vh : forall y, vh (v' y) = vh (v y)) by (intros y; destruct (ctx_dec y (Dp t)) as [->|E]; [rewrite V_a|rewrite Va by auto]; auto).
  constructor; intros; rewrite ?Wr, ?Wm, ?Wt, ?Wsh, ?Vq, ?Vr, ?Vh in *; try (apply I; auto; fail).
  - tupds; unfold wu; simpl; [auto|]. destruct (a_act _ _ _ I t0) as [Y1 Y2]. split; auto. rewrite Lo; auto; intros E; rewrite E in Y1; congruence.
  - destruct (Vc c) as [->|[->|[Y1 Y2]]].
    + rewrite L_a, Hp in H. destruct H; discriminate.
    + rewrite Hm, upd_same. auto.
    + rewrite Lo in H by auto. pose proof (a_run _ _ _ I _ H) as Y. destruct (Nat.eq_dec (vh (v c)) t) as [E|E]; [|now rewrite upd_other]. congruence.
  - rewrite (a_rq _ _ _ I). destruct (Vc c) as [->|[->|[Y1 Y2]]]; [rewrite L_a|rewrite L_m|rewrite Lo by auto; tauto]; split; intros [? ?]; congruence.
  - rewrite (a_rrq _ _ _ I). destruct (Vc c) as [->|[->|[Y1 Y2]]]; [rewrite L_a|rewrite L_m|rewrite Lo by auto; tauto]; split; intros [? ?]; congruence.
  - rewrite (a_tmp _ _ _ I). destruct (Vc c) as [->|[->|[Y1 Y2]]]; [rewrite L_a|rewrite L_m|rewrite Lo by auto; tauto]; split; intros [? ?]; congruence.
  - rewrite (a_fly _ _ _ I). destruct (Vc c) as [->|[->|[Y1 Y2]]]; [rewrite L_a|rewrite L_m|rewrite Lo by auto; tauto]; split; congruence.
  - destruct (Vc c) as [->|[->|[Y1 Y2]]]; [rewrite L_a, V_a|rewrite L_m, Va by discriminate|rewrite Va, Lo by auto; apply I]; unfold pcok; rewrite ?x1, ?Hs; auto.
  - destruct (ctx_dec c (Dp t)) as [->|E]; [rewrite V_a in *|rewrite Va in * by auto; now apply I].
    rewrite x2, x3 in *. destruct (a_iss _ _ _ I _ _ H) as [Y1 Y2]. split; auto. intros Y. apply Y2 in Y. unfold waits_on in Y. rewrite Hp in Y.
    destruct Y as [Y|[Y|[? Y]]]; discriminate Y.
  - pose proof (a_tmpd _ _ _ I _ H) as Y. rewrite Va; auto; intros E; rewrite E in Y; congruence.
  - destruct (ctx_dec c (Dp t)) as [->|E]; [rewrite V_a, x1; exact Logic.I|rewrite Va by auto; apply I].
  - rewrite Va by discriminate. destruct (Nat.eq_dec t0 t) as [->|E]; [rewrite upd_same; simpl; auto|]. rewrite upd_other by auto. rewrite Va in H by congruence. now apply (a_fin _ _ _ I).
  - rewrite (a_sh _ _ _ I). rewrite Va by discriminate. tauto.
  - destruct (Nat.eq_dec t0 t) as [->|E]; [rewrite V_a, x1 in H; discriminate H|]. rewrite Va in H by congruence. now apply (a_dfin _ _ _ I).
  - destruct (Nat.eq_dec t0 t) as [->|E]; [now rewrite V_a|]. rewrite upd_other in H by auto. rewrite Va in * by congruence. now apply I.
Qed.

Theorem ia_step v w L v' w' : IA v w L -> vstep v w v' w' -> exists L', IA v' w' L'.
Proof.
  intros I H. destruct H.
  - eauto.
  - exists L. eapply ia_pc; eauto.
  - exists L. eapply ia_shut; eauto.
  - exists L. eapply ia_arm; eauto.
  - assert (La : L a = LAct) by (eapply act_loc; eauto; destruct H1 as [[-> _]|[-> _]]; auto). pose proof (act_here _ _ _ I _ _ H) as Hh. pose proof (a_kind _ _ _ I a) as K.
    eexists. eapply ia_switch with (la := LRdy); eauto; simpl.
    all: try (destruct H1 as [[E ->]|[E ->]]; rewrite ?E in *; simpl; auto; try congruence; fail).
    + unfold pcok. simpl. destruct H1 as [[E ->]|[E ->]]; auto.
    + intros e He. simpl in *. destruct (a_iss _ _ _ I _ _ He) as [Y1 Y2]. split; auto. intros Y. apply Y2 in Y. unfold waits_on in Y. exfalso.
      destruct H1 as [[E _]|[E _]]; rewrite E in Y; destruct Y as [Y|[Y|[? Y]]]; discriminate Y.
    + destruct H1 as [[E ->]|[E ->]]; rewrite E; split; discriminate.
  - assert (La : L a = LAct) by (eapply act_loc; eauto; destruct H1 as [->|(h & d & ->)]; auto). pose proof (act_here _ _ _ I _ _ H) as Hh. pose proof (a_kind _ _ _ I a) as K.
    eexists. eapply ia_switch with (la := LNo); eauto; simpl.
    all: try (destruct H1 as [->|(h & d & ->)]; simpl; auto; try congruence; fail).
    all: try discriminate.
    + left. auto.
    + intros e He. simpl in *. destruct H2 as [->|[-> [tp ->]]].
      * destruct (a_iss _ _ _ I _ _ He) as [Y1 Y2]. split; [lia|]. intros ->. lia.
      * destruct He as [<-|He]; [split; auto; intros _; unfold waits_on; eauto|]. destruct (a_iss _ _ _ I _ _ He) as [Y1 Y2]. split; [lia|]. intros ->. lia.
    + destruct H1 as [E|(h & d & E)]; rewrite E in K; exact K.
    + destruct H1 as [E|(h & d & E)]; rewrite E; split; discriminate.
  - pose proof (act_here _ _ _ I _ _ H) as Hh. pose proof (a_kind _ _ _ I a) as K. pose proof (a_pc _ _ _ I a) as P. unfold pcok in P. rewrite H1 in P.
    eexists. eapply ia_switch with (la := match L a with LAct => LNo | l => l end); eauto; simpl; try congruence; try discriminate.
    + now rewrite H1.
    + unfold pcok. simpl. destruct P as [[P1 P2]|[P1 [P2|[y P2]]]]; rewrite P2; [left; auto|right|right]; split; auto; discriminate.
    + intros e' He. simpl in *. destruct (a_iss _ _ _ I _ _ He) as [Y1 Y2]. split; auto. intros Y. pose proof (Y2 Y) as Z. unfold waits_on in Z. rewrite H1 in Z.
      destruct Z as [Z|[Z|[? Z]]]; try discriminate Z. injection Z as ->. unfold waits_on. auto.
    + rewrite H1 in K. exact K.
    + destruct P as [[P1 P2]|[P1 [P2|[y P2]]]]; rewrite P2; [auto|right; right|right; right]; splits; auto; discriminate.
    + rewrite H1. split; discriminate.
  - assert (La : L a = LAct) by (eapply act_loc; eauto; destruct H1 as [[-> _]|[-> _]]; auto). pose proof (act_here _ _ _ I _ _ H) as Hh. pose proof (a_kind _ _ _ I a) as K.
    eexists. eapply ia_switch with (la := LNo); eauto; simpl.
    all: try (destruct H1 as [[E ->]|[E ->]]; rewrite ?E in *; simpl; auto; try congruence; fail).
    + unfold pcok. simpl. destruct H1 as [[E ->]|[E ->]]; auto.
    + intros e He. simpl in *. destruct (a_iss _ _ _ I _ _ He) as [Y1 Y2]. split; auto. intros Y. apply Y2 in Y. unfold waits_on in Y. exfalso.
      destruct H1 as [[E _]|[E _]]; rewrite E in Y; destruct Y as [Y|[Y|[? Y]]]; discriminate Y.
    + destruct H1 as [[E ->]|[E ->]]; rewrite E; split; auto; discriminate.
  - assert (Pg : vp (v g) = PArmed (ve (v g)) \/ exists y, vp (v g) = PSusp (ve (v g)) y) by (destruct H1 as [[E|[E|[tp E]]]|[y E]]; eauto).
    destruct Pg as [E|[y E]].
    + exfalso. apply H0. rewrite H, <- H2. apply (a_run _ _ _ I). right. now rewrite E.
    + pose proof (a_pc _ _ _ I g) as P. unfold pcok in P. rewrite E in P. destruct P as [[_ P]|[P _]]; [|lia].
      eexists. eapply ia_ready; eauto; simpl; rewrite ?E; auto.
      * right. split; auto. discriminate.
      * intros e He. simpl in *. destruct (a_iss _ _ _ I _ _ He) as [Y1 Y2]. split; lia.
      * pose proof (a_kind _ _ _ I g) as K. now rewrite E in K.
  - eexists. eapply ia_wake_far; eauto.
  - eexists. eapply ia_push; eauto.
  - eexists. eapply ia_swap; eauto.
  - eexists. eapply ia_drain; eauto.
  - pose proof (a_pc _ _ _ I (Wk n)) as P. unfold pcok in P. rewrite H1 in P.
    eexists. eapply ia_ready; eauto; simpl; rewrite ?H1; auto.
    + right. auto.
    + intros e He. contradiction.
  - eexists. eapply ia_disp; eauto.
  - eexists. eapply ia_end; eauto.
Qed.
