(** Invariants of FutureObj.v, part 1: concurrent operations do not disturb each other's objects, and each operation has the effect
    that value semantics gives it. *)
From Coq Require Import List Arith Bool Lia.
From Verif Require Import Base Kernel SharedState FutureObj FutureObjSpec FutureObjFacts.
Import ListNotations.

Section Proofs.
Context {V E : Type}.
Notation state := (state V E).
Notation op := (op V E).
Notation instr := (instr V E).
Notation frame := (frame V E).
Notation event := (event V E).

Definition user (l : loc) : bool := match l with T0 _ | T1 _ | T2 _ => false | _ => true end.
Definition temp (f : fid) (l : loc) : Prop := l = T0 f \/ l = T1 f \/ l = T2 f.
Definition acc (f : fid) (o : op) (l : loc) : Prop := (exists m, In (l, m) (uses_of o)) \/ temp f l.
Definition exc (f : fid) (o : op) (l : loc) : Prop := In (l, Excl) (uses_of o) \/ temp f l.
Definition is_born (o : op) (l : loc) : bool := match born o with Some b => loc_eqb b l | None => false end.
Definition is_free (i : instr) : bool := match i with IFree _ => true | _ => false end.

(** All that an instruction does to the frames. *)
Lemma exec_shape (s : state) f o r i rest x s' : exec_instr s f o r i rest x = Some s' ->
  uses s' = uses s /\ live s' = live s /\ (forall g, g <> f -> frames s' g = frames s g) /\
  ((s' = with_ub s true /\ forall n, linstr n (pget (ptr s)) i = None) \/
   exists r' p', frames s' f = Some (mkFrame o r' p') /\
     (forall j, In j p' -> In j rest \/ ((forall l, In l (locs j) -> In l (locs i)) /\ (forall l, In l (writes j) -> In l (writes i)) /\
        is_new j = false /\ match j with IFree _ => p' = j :: rest | IObtain _ | ISwap _ _ | ICopy _ _ | IReset _ _ => False | _ => True end))).
Proof.
  assert (Fr : forall (t : state) r' p', (forall g, g <> f -> frames (cont t f o r' p') g = frames t g) /\ frames (cont t f o r' p') f = Some (mkFrame o r' p')).
  { intros. simpl. split; [intros; now rewrite upd_other|now rewrite upd_same]. }
  intros H. destruct i; simpl in H;
    repeat match goal with
    | K : context [match pget (ptr s) ?l with _ => _ end] |- _ => destruct (pget (ptr s) l) eqn:?
    | K : context [match result s ?l with _ => _ end] |- _ => destruct (result s l) eqn:?
    | K : context [if obt s ?l then _ else _] |- _ => destruct (obt s l) eqn:?
    | K : context [if Nat.eqb ?a ?b then _ else _] |- _ => destruct (Nat.eqb a b) eqn:?
    | K : context [match x with _ => _ end] |- _ => destruct x eqn:?
    end; try discriminate H; inversion H; subst s'; clear H;
    (splits; [reflexivity|reflexivity|intros g Hg; simpl; now rewrite ?upd_other by auto|]);
    try (right; eexists; eexists; split; [simpl; rewrite upd_same; reflexivity|]; simpl; intuition (subst; simpl; auto; fail)).
  all: try (left; split; [reflexivity|]; intros n; simpl; match goal with K : pget _ _ = None |- _ => now rewrite K end).
Qed.

(** The three kinds of steps. *)
Inductive istep (s : state) (f : fid) (o : op) (r : fres V E) (i : instr) (rest : list instr) (s' : state) : Prop :=
| IS_exec x : exec_instr s f o r i rest x = Some s' -> istep s f o r i rest s'
| IS_time l j : i = IWaitT l -> pget (ptr s) l = Some j -> result s j = None -> s' = cont (touch s j) f o FTimeout rest -> istep s f o r i rest s'.

Inductive kstep (s s' : state) : Prop :=
| K_call f o : frames s f = None -> allowed s o = true ->
    s' = mkSt (ptr s) (obt s) (live s) (next s) (cnt s) (freed s) (result s) (upd (frames s) f (Some (mkFrame o (fst (compile s f o)) (snd (compile s f o)))))
              (map (fun '(l, m) => (f, l, m)) (uses_of o) ++ uses s) (ub s) (FCall f o (pget (ptr s) (subject o)) :: log s) -> kstep s s'
| K_ret f o r : frames s f = Some (mkFrame o r []) ->
    s' = mkSt (ptr s) (obt s) (lives o r (live s)) (next s) (cnt s) (freed s) (result s) (upd (frames s) f None)
              (filter (fun '(g, _, _) => negb (Nat.eqb g f)) (uses s)) (ub s) (FRet f o r :: log s) -> kstep s s'
| K_instr f o r i rest : frames s f = Some (mkFrame o r (i :: rest)) -> istep s f o r i rest s' -> kstep s s'.

Lemma step_kstep (s : state) lb s' : step s lb = Some s' -> (exists f, frames s f <> None /\ s' = with_ub s true /\
    exists o r l rest, frames s f = Some (mkFrame o r (IWaitT l :: rest)) /\ pget (ptr s) l = None) \/ kstep s s'.
Proof.
  intros H. unfold step in H. destruct lb as [f o|f|f x|f]; destruct (frames s f) as [[o' r [|i p]]|] eqn:Ef; try discriminate H.
  - right. destruct (allowed s o) eqn:Ea; [|discriminate H]. destruct (compile s f o) as [r p] eqn:Ec.
    eapply (K_call s s' f o); auto. inversion H. now rewrite Ec.
  - right. eapply (K_ret s s' f o' r); auto. now inversion H.
  - right. eapply (K_instr s s' f o' r i p); eauto. eapply IS_exec; eauto.
  - right. eapply (K_instr s s' f o' r i p); eauto. destruct i; try discriminate H. eapply IS_exec; eauto.
  - destruct i; try discriminate H. destruct (pget (ptr s) l) as [j|] eqn:El.
    + right. destruct (result s j) eqn:Er; [discriminate H|]. eapply (K_instr s s' f o' r _ p); eauto. eapply IS_time; eauto. now inversion H.
    + left. exists f. splits; [congruence|now inversion H|]. exists o', r, l, p. auto.
Qed.

Lemma istep_shape (s : state) f o r i rest s' : istep s f o r i rest s' ->
  uses s' = uses s /\ live s' = live s /\ (forall g, g <> f -> frames s' g = frames s g) /\
  ((s' = with_ub s true /\ forall n, linstr n (pget (ptr s)) i = None) \/
   exists r' p', frames s' f = Some (mkFrame o r' p') /\
     (forall j, In j p' -> In j rest \/ ((forall l, In l (locs j) -> In l (locs i)) /\ (forall l, In l (writes j) -> In l (writes i)) /\
        is_new j = false /\ match j with IFree _ => p' = j :: rest | IObtain _ | ISwap _ _ | ICopy _ _ | IReset _ _ => False | _ => True end))).
Proof.
  intros [x H|l j -> Hp Hr ->]; [eapply exec_shape; eauto|]. splits; auto.
  - intros g Hg. simpl. now rewrite upd_other.
  - right. exists FTimeout, rest. simpl. rewrite upd_same. split; auto.
Qed.

(** ** Claims *)
Record IA (s : state) : Prop := {
  a_use : forall f fr l m, frames s f = Some fr -> In (l, m) (uses_of (fop fr)) -> In (f, l, m) (uses s);
  a_frame : forall f l m, In (f, l, m) (uses s) -> exists fr, frames s f = Some fr /\ In (l, m) (uses_of (fop fr));
  a_conf : forall f g l m m', In (f, l, m) (uses s) -> In (g, l, m') (uses s) -> f <> g -> conflict m m' = false;
  a_typed : forall f fr, frames s f = Some fr -> typed (fop fr) = true;
  a_live : forall f fr l m, frames s f = Some fr -> In (l, m) (uses_of (fop fr)) -> live s l = negb (is_born (fop fr) l);
  a_prog : forall f fr i, frames s f = Some fr -> In i (fprog fr) ->
     (forall l, In l (locs i) -> acc f (fop fr) l) /\ (forall l, In l (writes i) -> exc f (fop fr) l) /\
     (forall l, i = IObtain l -> In (l, Obt) (uses_of (fop fr)));
  a_tail : forall f fr i rest j, frames s f = Some fr -> fprog fr = i :: rest -> In j rest -> is_free j = false }.

Lemma conflict_sym a b : conflict a b = conflict b a.
Proof. destruct a, b; reflexivity. Qed.
Lemma conflict_excl a : conflict Excl a = true /\ conflict a Excl = true.
Proof. destruct a; auto. Qed.

Lemma compile_prog (s : state) f o i : typed o = true -> In i (snd (compile s f o)) ->
  (forall l, In l (locs i) -> acc f o l) /\ (forall l, In l (writes i) -> exc f o l) /\
  (forall l, i = IObtain l -> In (l, Obt) (uses_of o)) /\ is_free i = false.
Proof.
  unfold acc, exc, temp. intros Ht H.
  destruct o; simpl in H;
    repeat match goal with K : context [match ?b with _ => _ end] |- _ =>
      match b with
      | obt s _ => destruct b
      | owner _ => destruct b eqn:?
      | loc_eqb _ _ => destruct b eqn:?
      | pget _ _ => destruct b eqn:?
      end; simpl in K end;
    repeat match goal with
    | K : False |- _ => destruct K
    | K : In i (snd match ?b with _ => _ end) |- _ => destruct b; simpl in K
    | K : In i match ?b with _ => _ end |- _ => destruct b; simpl in K
    | K : _ = i \/ _ |- _ => destruct K as [K|K]
    | K : _ = i |- _ => subst i
    end; simpl; splits; try reflexivity; try (intros; discriminate); intros ll Hl;
    try (inversion Hl; subst; auto; fail); try (intuition (subst; eauto; fail)).
  all: repeat match goal with K : _ \/ _ |- _ => destruct K end; subst; try tauto; eauto 6.
Qed.

Lemma allowed_spec (s : state) o : allowed s o = true ->
  typed o = true /\ (forall l m, In (l, m) (uses_of o) -> live s l = negb (is_born o l)) /\
  (forall l m g m', In (l, m) (uses_of o) -> In (g, l, m') (uses s) -> conflict m m' = false).
Proof.
  unfold allowed. rewrite andb_true_iff, forallb_forall. intros [Ht H]. splits; auto.
  - intros l m Hi. specialize (H _ Hi). simpl in H. apply andb_true_iff in H. destruct H as [H _]. unfold is_born.
    destruct (born o) as [b|]; auto. destruct (loc_eqb b l); auto. now apply negb_true_iff in H.
  - intros l m g m' Hi Hu. specialize (H _ Hi). simpl in H. apply andb_true_iff in H. destruct H as [_ H].
    rewrite forallb_forall in H. specialize (H _ Hu). simpl in H. rewrite loc_refl in H. simpl in H. now apply negb_true_iff in H.
Qed.

Lemma lives_other (o : op) r lv l : (forall m, ~ In (l, m) (uses_of o)) -> lives o r lv l = lv l.
Proof.
  intros H. unfold lives. destruct o; simpl in *; auto; destruct (failed r); auto;
    apply updl_other; intros <-; eapply H; eauto.
Qed.

Lemma excl_dec l (us : list (loc * mode)) : {In (l, Excl) us} + {~ In (l, Excl) us}.
Proof.
  apply in_dec. intros [a x] [b y]. destruct (loc_eqb_spec a b) as [->|]; [|right; congruence]. destruct x, y; (left; reflexivity) || (right; congruence).
Qed.

Lemma ia_ub (s : state) : IA s -> IA (with_ub s true).
Proof. intros A. destruct A. constructor; simpl; auto. Qed.

Lemma ia_step (s : state) lb s' : IA s -> step s lb = Some s' -> IA s'.
Proof.
  intros A H. destruct (step_kstep _ _ _ H) as [(f & _ & -> & _)|K]; [now apply ia_ub|]. clear H.
  destruct K as [f o Hf Ha ->|f o r Hf ->|f o r i rest Hf Hi].
  - destruct (allowed_spec _ _ Ha) as (Ht & Hl & Hc). constructor; simpl.
    + intros g fr l m. unfold upd. destruct (Nat.eqb_spec g f) as [->|Hne]; intros Hg Hu.
      * inversion Hg; subst fr. apply in_or_app. left. apply in_map_iff. exists (l, m). auto.
      * apply in_or_app. right. eapply a_use; eauto.
    + intros g l m Hu. apply in_app_or in Hu. destruct Hu as [Hu|Hu].
      * apply in_map_iff in Hu. destruct Hu as ([l' m'] & He & Hu). inversion He; subst. rewrite upd_same. eauto.
      * destruct (a_frame _ A _ _ _ Hu) as (fr & F1 & F2). exists fr. rewrite upd_other by congruence. auto.
    + intros g g' l m m' H1 H2 Hne. apply in_app_or in H1. apply in_app_or in H2.
      assert (Q : forall gg mm, In (gg, l, mm) (map (fun '(l, m) => (f, l, m)) (uses_of o)) -> gg = f /\ In (l, mm) (uses_of o)).
      { intros gg mm X. apply in_map_iff in X. destruct X as ([l' m''] & He & X). inversion He; subst. auto. }
      destruct H1 as [H1|H1], H2 as [H2|H2].
      * apply Q in H1. apply Q in H2. destruct H1, H2. congruence.
      * apply Q in H1. eapply Hc; [apply H1|eauto].
      * apply Q in H2. rewrite conflict_sym. eapply Hc; [apply H2|eauto].
      * eapply a_conf; eauto.
    + intros g fr. unfold upd. destruct (Nat.eqb_spec g f) as [->|Hne]; intros Hg; [inversion Hg; subst; auto|eapply a_typed; eauto].
    + intros g fr l m. unfold upd. destruct (Nat.eqb_spec g f) as [->|Hne]; intros Hg Hu; [inversion Hg; subst fr; simpl; eapply Hl; eauto|eapply a_live; eauto].
    + intros g fr i. unfold upd. destruct (Nat.eqb_spec g f) as [->|Hne]; intros Hg Hu; [|eapply a_prog; eauto].
      inversion Hg; subst fr; simpl in *. destruct (compile_prog s f o i Ht Hu) as (X & Y & Z & _). auto.
    + intros g fr i rest j. unfold upd. destruct (Nat.eqb_spec g f) as [->|Hne]; intros Hg Hu Hj; [|eapply a_tail; eauto].
      inversion Hg; subst fr; simpl in *. eapply (compile_prog s f o j Ht). rewrite Hu. now right.
  - assert (U : forall g l m, In (g, l, m) (filter (fun '(g, _, _) => negb (Nat.eqb g f)) (uses s)) <-> In (g, l, m) (uses s) /\ g <> f).
    { intros g l m. rewrite filter_In. simpl. rewrite negb_true_iff, Nat.eqb_neq. tauto. }
    constructor; simpl.
    + intros g fr l m. unfold upd. destruct (Nat.eqb_spec g f) as [->|Hne]; intros Hg Hu; [discriminate|]. apply U. split; auto. eapply a_use; eauto.
    + intros g l m Hu. apply U in Hu. destruct Hu as [Hu Hne]. rewrite upd_other by auto. eapply a_frame; eauto.
    + intros g g' l m m' H1 H2 Hn. apply U in H1. apply U in H2. eapply (a_conf _ A g g' l m m'); tauto.
    + intros g fr. unfold upd. destruct (Nat.eqb_spec g f) as [->|Hne]; intros Hg; [discriminate|eapply a_typed; eauto].
    + intros g fr l m. unfold upd. destruct (Nat.eqb_spec g f) as [->|Hne]; intros Hg Hu; [discriminate|].
      destruct (excl_dec l (uses_of o)) as [Hx|Hx].
      * exfalso. pose proof (a_use _ A _ _ _ _ Hf Hx) as U1. pose proof (a_use _ A _ _ _ _ Hg Hu) as U2.
        pose proof (a_conf _ A _ _ _ _ _ U1 U2 ltac:(auto)) as X. discriminate X.
      * rewrite <- (a_live _ A _ _ _ _ Hg Hu). unfold lives.
        assert (forall l', In (l', Excl) (uses_of o) -> l <> l') by (intros l' X ->; auto).
        destruct o; simpl in *; auto; try (destruct (failed r); auto); apply updl_other; auto.
    + intros g fr i. unfold upd. destruct (Nat.eqb_spec g f) as [->|Hne]; intros Hg; [discriminate|eapply a_prog; eauto].
    + intros g fr i rest j. unfold upd. destruct (Nat.eqb_spec g f) as [->|Hne]; intros Hg; [discriminate|eapply a_tail; eauto].
  - destruct (istep_shape _ _ _ _ _ _ _ Hi) as (Eu & El & Ef & D). destruct D as [[-> _]|(r' & p' & Fp & Hp)]; [now apply ia_ub|].
    assert (Q : forall g fr, frames s' g = Some fr -> exists fr0, frames s g = Some fr0 /\ fop fr0 = fop fr /\ (g <> f -> fr0 = fr)).
    { intros g fr Hg. destruct (Nat.eq_dec g f) as [->|Hne].
      - rewrite Fp in Hg. inversion Hg; subst. exists (mkFrame o r (i :: rest)). splits; auto. congruence.
      - rewrite Ef in Hg by auto. eauto. }
    constructor; rewrite ?Eu, ?El.
    + intros g fr l m Hg Hu. destruct (Q _ _ Hg) as (fr0 & F0 & F1 & _). rewrite <- F1 in Hu. eapply a_use; eauto.
    + intros g l m Hu. destruct (a_frame _ A _ _ _ Hu) as (fr & F1 & F2). destruct (Nat.eq_dec g f) as [->|Hne].
      * rewrite Hf in F1. inversion F1; subst fr. simpl in F2. eauto.
      * rewrite Ef by auto. eauto.
    + apply (a_conf _ A).
    + intros g fr Hg. destruct (Q _ _ Hg) as (fr0 & F0 & F1 & _). rewrite <- F1. eapply a_typed; eauto.
    + intros g fr l m Hg Hu. destruct (Q _ _ Hg) as (fr0 & F0 & F1 & _). rewrite <- F1 in *. eapply a_live; eauto.
    + intros g fr j Hg Hj. destruct (Nat.eq_dec g f) as [->|Hne]; [|rewrite Ef in Hg by auto; eapply a_prog; eauto].
      rewrite Fp in Hg. inversion Hg; subst fr. simpl in *.
      destruct (a_prog _ A f _ i Hf (or_introl eq_refl)) as (P1 & P2 & P3). simpl in *.
      destruct (Hp j Hj) as [Hr|(H1 & H2 & H3 & H4)].
      * apply (a_prog _ A f _ j Hf). now right.
      * splits; auto. intros l ->. destruct H4.
    + intros g fr j rest' k Hg Hj Hk. destruct (Nat.eq_dec g f) as [->|Hne]; [|rewrite Ef in Hg by auto; eapply a_tail; eauto].
      rewrite Fp in Hg. inversion Hg; subst fr. simpl in *. subst p'.
      destruct (Hp k (or_intror Hk)) as [Hr|(H1 & H2 & H3 & H4)].
      * eapply (a_tail _ A f _ i rest k Hf); auto.
      * destruct k; auto. inversion H4; subst. eapply (a_tail _ A f _ i rest (IFree i0) Hf); auto.
Qed.
Lemma ia_reachable s : reachable step init s -> IA s.
Proof. apply reachable_inv; [|intros; eapply ia_step; eauto]. constructor; simpl; try discriminate; try contradiction. Qed.
End Proofs.
