(** Proofs about the scheduler: the record of events and the state. *)
From Coq Require Import List Arith Bool Lia.
From Verif Require Import Base Sched SchedSpec SchedFacts SchedFacts2 SchedFacts3 SchedFacts4 SchedFacts5 SchedFacts6 SchedFacts7 SchedFacts8.
Import ListNotations.

Definition fin (p : pc) : bool := match p with PExit | PLeave | PDead => true | _ => interm p end.
Definition started (p : pc) : bool := match p with PNone | PNew => false | _ => true end.
Definition exists_ (p : pc) : bool := match p with PNone => false | _ => true end.

Definition isfin (c : ctx) (e : event) : bool := match e with EFin d => ctx_eqb c d | _ => false end.
Definition isleft (c : ctx) (e : event) : bool := match e with ELeft d => ctx_eqb c d | _ => false end.
Definition isstart (c : ctx) (e : event) : bool := match e with EStart d => ctx_eqb c d | _ => false end.
Definition islaunch (c : ctx) (e : event) : bool := match e with ELaunch _ _ _ d => ctx_eqb c d | _ => false end.
Definition isfree (c : ctx) (e : event) : bool := match e with EFree d => ctx_eqb c d | _ => false end.
Definition isdown (t : tid) (e : event) : bool := match e with EDown u => Nat.eqb t u | _ => false end.
Definition isat (c : ctx) (t : tid) (e : event) : bool := match e with EAwake u d | ERun u d => ctx_eqb c d && Nat.eqb t u | _ => false end.

Record G8 (s : state) : Prop := {
  g_fin : forall c, existsb (isfin c) (log s) = fin (pcc (cx s c));
  g_left : forall c, existsb (isleft c) (log s) = hasleft (pcc (cx s c));
  g_start : forall c, existsb (isstart c) (log s) = isw c && started (pcc (cx s c));
  g_launch : forall c, existsb (islaunch c) (log s) = isw c && exists_ (pcc (cx s c))
}.

Lemma ctx_eqb_neq a b : a <> b -> ctx_eqb a b = false.
Proof. destruct (ctx_eqb_spec a b); congruence. Qed.
Ltac ceq := repeat match goal with
  | |- context [ctx_eqb ?a ?a] => rewrite ctx_eqb_refl
  | N : ?a <> ?b |- context [ctx_eqb ?a ?b] => rewrite (ctx_eqb_neq _ _ N)
  | N : ?b <> ?a |- context [ctx_eqb ?a ?b] => rewrite (ctx_eqb_neq _ _ (not_eq_sym N))
  end.
Ltac inner := repeat match goal with
  | M : pmove _ _ _ _ _ |- _ => destruct M | Po : pout _ _ _ _ _ _ _ |- _ => destruct Po | Pw : pwake _ _ _ _ _ _ _ _ _ |- _ => destruct Pw | Pz : prel _ _ _ _ _ |- _ => destruct Pz end.
Lemma kpc_fin k : interm (kpc k) = match k with KTerm => true | _ => false end.
Proof. now destruct k. Qed.

Ltac trd2 := repeat match goal with
  | Ev : (_ /\ (?ev = _ \/ ?ev = _)) \/ (_ /\ ?ev = _) |- _ => destruct Ev as [[? [?|?]]|[? ?]]; subst ev
  | Ev : ?ev = (if ?b then _ else _) |- _ => is_var ev; destruct b eqn:?; subst ev
  | Ep : pcc _ = PNote _ ?k |- _ => is_var k; destruct k
  | Ep : pcc (cx ?s (Dp ?t)) = DTop, Q : context [match wkr (th ?s ?t) with _ => _ end] |- _ => destruct (wkr (th s t)) eqn:?
  end.
Ltac pcs s := repeat match goal with H : pcc (cx s ?c) = _ |- context [pcc (cx s ?c)] => rewrite H | H : pcc (cx s ?c) = _, K : context [pcc (cx s ?c)] |- _ => rewrite H in K end.

Theorem G8_step s s' : IAs s -> G8 s -> tr s s' -> G8 s'.
Proof.
  intros I [G1 G2 G3 G4] T. assert (KA : forall c, kind c (pcc (cx s c))) by (destruct I as [L I0]; intros c; apply (a_kind _ _ _ I0 c)).
  trd T; try match goal with E : ?c = Wk ?n |- _ => is_var c; subst c end; trd2; inner; constructor; intros z0; rewrite ?Ql, ?Qc; simpl; rewrite ?existsb_app; simpl; rewrite ?G1, ?G2, ?G3, ?G4; auto; cupds; simpl; ceq; simpl; auto;
    try (match goal with |- context [pcc (cx s ?c)] => pose proof (KA c) end; pcs s; simpl; rewrite ?andb_false_r, ?andb_true_r, ?orb_false_r, ?orb_true_r; auto; fail).
  - specialize (KA a). rewrite H in KA. destruct a; try contradiction. reflexivity.
  - rewrite Nat.eqb_refl. reflexivity.
  - assert (N : a <> Wk n) by congruence. ceq. pcs s. now destruct (isw a).
  - rewrite Nat.eqb_refl. reflexivity.
Qed.


Definition ismn (c : ctx) : bool := match c with Mn _ => true | _ => false end.
Record G9 (s : state) : Prop := {
  g_free : forall c, existsb (isfree c) (log s) = freed (cx s c) && negb (ismn c);
  g_nf : forall c, exists_ (pcc (cx s c)) || negb (freed (cx s c)) = true;
  g_down : forall t, existsb (isdown t) (log s) = gone (th s t)
}.
Lemma isw_mn c : isw c = true -> ismn c = false.
Proof. destruct c; auto; discriminate. Qed.
Lemma exists_true p : p <> PNone -> exists_ p = true.
Proof. destruct p; auto; congruence. Qed.
Theorem G9_step s s' : Inv s -> G9 s -> tr s s' -> G9 s'.
Proof.
  intros I [G1 G2 G3] T. pose proof (kinds s I) as KA. assert (HN : forall h c, hn s h = Some c -> isw c = true /\ pcc (cx s c) <> PNone) by (intros h c X; destruct (h_wk _ (i_2 _ I) _ _ X) as [[n ->] Z]; auto).
  assert (HR : forall g h c, jref (pcc (cx s g)) = Some (h, c) -> isw c = true /\ pcc (cx s c) <> PNone /\ c <> g).
  { intros g h c H. destruct (h_ref _ (i_2 _ I) _ _ _ H) as (X & _ & Y). destruct (HN _ _ X). auto. }
  assert (HT : forall t c r, trm (th s t) = c :: r -> isw c = true /\ pcc (cx s c) <> PNone).
  { intros t c r X. destruct (k_trm _ (i_4 _ I) t c) as (Y1 & Y2 & Y3); [rewrite X; now left|]. split; auto. intros E. rewrite E in Y3. simpl in Y3. lia. }
  trd T; try match goal with E : ?c = Wk ?n |- _ => is_var c; subst c end; trd2;
    try match goal with Ep : pcc (cx s ?a) = PRel ?h ?c |- _ => destruct (HR a h c) as (Xw & Xp & Xn); [now rewrite Ep|] end;
    try match goal with Ep : pcc (cx s ?a) = PJoin ?h ?c |- _ => destruct (HR a h c) as (Xw & Xp & Xn); [now rewrite Ep|] end;
    try match goal with Eh : hn s _ = Some _, P : prel _ _ _ _ _ |- _ => destruct (HN _ _ Eh) as [Xw Xp] end;
    try match goal with Et : trm (th s _) = _ :: _ |- _ => destruct (HT _ _ _ Et) as [Xw Xp] end;
    try match goal with Ep : pcc (cx s ?a) = PShut2 |- _ => assert (Xm : ismn a = true) by (specialize (KA a); rewrite Ep in KA; destruct a; auto; contradiction); pose proof (KA (Dp t)) as Kd end;
    inner; constructor; intros z0; rewrite ?Ql, ?Qc, ?Qt; simpl; rewrite ?existsb_app; simpl; rewrite ?G1, ?G3; auto; cupds; tupds; simpl; ceq; simpl; auto;
    try (match goal with |- context [freed (cx s ?c)] => pose proof (G2 c) end; pcs s; simpl in *; rewrite ?orb_true_r; auto; fail).
  all: try (rewrite Nat.eqb_refl; reflexivity).
  all: try (rewrite (isw_mn _ Xw); reflexivity).
  all: try (rewrite (exists_true _ Xp); reflexivity).
  all: try match goal with N : ?z <> ?y |- context [?z =? ?y] => apply Nat.eqb_neq in N; rewrite N; reflexivity end.
  all: try (rewrite Xm; simpl; rewrite andb_false_r; reflexivity).
  all: try (repeat match goal with H : freed _ = false |- _ => rewrite H end; rewrite ?orb_true_r; reflexivity).
  all: try (rewrite exists_true; [reflexivity|]; intros E; rewrite E in Kd; exact Kd).
  - pose proof (G2 (Wk n)) as Y. rewrite En in Y. simpl in Y. destruct (freed (cx s (Wk n))); auto; discriminate Y.
  - pose proof (G2 (Wk n)) as Y. rewrite En in Y. simpl in Y. destruct (freed (cx s (Wk n))); auto; discriminate Y.
  - exfalso. match goal with E : _ = Dp _ |- _ => rewrite E in * end. discriminate Xm.
Qed.

Record G10 (s : state) : Prop := {
  g_hn : forall h, hn s h = holds h (log s);
  g_rq : forall t, rq (th s t) = fifo t (log s)
}.
Theorem G10_step s s' : G10 s -> tr s s' -> G10 s'.
Proof.
  intros [G1 G2] T. trd T; trd2; inner; constructor; intros z0; rewrite ?Ql, ?Qh, ?Qt; simpl; unfold upd; rewrite <- ?G1, <- ?G2; auto;
    repeat match goal with |- context [Nat.eqb ?a ?b] => destruct (Nat.eqb_spec a b); [try subst|] end; try rewrite Er; auto.
Qed.
