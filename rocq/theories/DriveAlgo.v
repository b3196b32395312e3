(** What the calls of awakened() and pick_next() do to readiness and attachment of contexts (facts about Algo.v used for Drive.v). *)
From Coq Require Import List Arith Bool Lia.
From Verif Require Import Base Algo AlgoSpec AlgoFacts AlgoProofs AlgoProofs2 AlgoProofs3 AlgoProofs4 AlgoProps.
Import ListNotations.

Section Effects.
Variable pinned : nat -> bool.
Variable home : nat -> nat.
Variable kind : nat -> akind.
Variable sched : nat -> nat -> option nat.
Variable cfg : well_configured kind sched.
Notation step := (step pinned kind sched).
Notation init := (init_state pinned home (fun t => t) (fun a => Some a)).

(** Reachable without set_algo(): thread t still has object t. *)
Record good (a : st) : Prop := mkGood {
  g_reach : reachable step init a;
  g_log : no_set (log a);
  g_cur : forall t, cur a t = t
}.
Lemma good_init : good init.
Proof. constructor; auto; [apply reachable_refl|intros t b []]. Qed.
Lemma started_well : well_started (fun t => t) (fun a => Some a). Proof. intros t. reflexivity. Qed.
Lemma good_inv a : good a -> exists pl, inv pinned home kind a pl None.
Proof. intros G. apply (all_reach pinned home kind sched cfg _ _ a started_well (g_reach _ G)). Qed.
Lemma good_errs a : good a -> errs a = [].
Proof. intros G. apply (C48_no_error pinned home kind sched cfg _ _ started_well a (g_reach _ G)), G. Qed.

Lemma no_set_cons e l : no_set l -> (forall t b, e <> ESet t b) -> no_set (e :: l).
Proof. intros N H t b [E|E]; [now destruct (H t b)|now apply (N t b)]. Qed.

(** *** awakened() *)
Record awake_eff (a : st) (t c : nat) (a' : st) : Prop := mkAw {
  w_good : good a';
  w_ready : forall x, ready a' x = upd (ready a) c true x;
  w_pc : forall u, pc a' u = pc a u;
  w_att : forall x, x <> c -> att a' x = att a x;
  w_attc : att a' c = att a c \/ (att a' c = None /\ pinned c = false);
  w_rr : kind t = RoundRobin -> att a' c = att a c;
  w_was : pc a t = Idle /\ att a c = Some t /\ ready a c = false
}.
Lemma awake_step a t c a' : good a -> step a (Awake t c) = Some a' -> awake_eff a t c a'.
Proof.
  intros G E. pose proof (reachable_step _ _ _ _ _ (g_reach _ G) E) as R'.
  assert (W : pc a t = Idle /\ att a c = Some t /\ ready a c = false).
  { simpl in E. destruct (pc a t); try discriminate. destruct (att a c) as [t'|]; [|discriminate].
    destruct (Nat.eqb_spec t t') as [->|]; [|discriminate]. destruct (ready a c); [discriminate|]. auto. }
  destruct W as (P & A & Rd). simpl in E. rewrite P, A, Nat.eqb_refl, Rd in E. simpl in E. injection E as E.
  assert (Lg : log a' = EAwake t c :: log a).
  { subst a'. unfold awakened. destruct (kind (cur a t)); repeat match goal with |- context [if ?x then _ else _] => destruct x end; reflexivity. }
  assert (Ns : no_set (log a')). { rewrite Lg. apply no_set_cons; [apply G|discriminate]. }
  assert (Er : errs a' = []) by (apply (C48_no_error pinned home kind sched cfg _ _ started_well a' R'); auto).
  rewrite (g_cur _ G) in E. clear Lg.
  constructor.
  - constructor; auto. intros u. transitivity (cur a u); [|apply G]. subst a'. unfold awakened.
    destruct (kind t); repeat match goal with |- context [if ?x then _ else _] => destruct x end; reflexivity.
  - subst a'. unfold awakened in *. destruct (kind t); repeat match goal with |- context [if ?x then _ else _] => destruct x end; reflexivity.
  - revert Er. subst a'. unfold awakened. destruct (kind t); repeat match goal with |- context [if ?x then _ else _] => destruct x end; simpl; auto; discriminate.
  - subst a'. unfold awakened. intros x N. destruct (kind t); repeat match goal with |- context [if ?x then _ else _] => destruct x end; simpl; auto; now rewrite upd_other.
  - subst a'. unfold awakened. destruct (kind t); repeat match goal with |- context [if ?x then _ else _] => destruct x eqn:? end; simpl; auto; rewrite upd_same; auto.
  - intros K. subst a'. unfold awakened. rewrite K. destruct (linked _ c); reflexivity.
  - auto.
Qed.
Lemma awake_enabled a t c : pc a t = Idle -> att a c = Some t -> ready a c = false -> exists a', step a (Awake t c) = Some a'.
Proof. intros P A R. simpl. rewrite P, A, Nat.eqb_refl, R. simpl. eauto. Qed.

(** *** pick_next() *)
Inductive pick_eff (Z : Prop) (a : st) (t : nat) (a' : st) : Prop :=
  | PSome n : good a' -> pc a' t = Idle -> log a' = EPick t (Some n) :: log a -> ready a n = true ->
      (forall x, ready a' x = upd (ready a) n false x) -> (forall x, att a' x = upd (att a) n (Some t) x) ->
      (forall u, u <> t -> pc a' u = pc a u) -> (att a n = Some t \/ att a n = None) -> pick_eff Z a t a'
  | PNone : good a' -> pc a' t = Idle -> log a' = EPick t None :: log a -> Z ->
      (forall x, ready a' x = ready a x) -> (forall x, att a' x = att a x) ->
      (forall u, u <> t -> pc a' u = pc a u) -> pick_eff Z a t a'
  | PSearch r n : good a' -> pc a' t = Steal r n None -> Z ->
      (forall x, ready a' x = ready a x) -> (forall x, att a' x = att a x) ->
      (forall u, u <> t -> pc a' u = pc a u) -> pick_eff Z a t a'.

Lemma att_queue a t c pl l : good a -> inv pinned home kind a pl None -> q a t = c :: l -> ready a c = true /\
  (is_stealing (kind t) = true -> pinned c = false -> att a c = None) /\ (is_stealing (kind t) = false \/ pinned c = true -> att a c = Some t).
Proof.
  intros G I Q. assert (Ic : In c (q a t)) by (rewrite Q; now left).
  apply (i_q _ _ _ _ _ _ I) in Ic. split; [apply (i_ready _ _ _ _ _ _ I); congruence|].
  pose proof (i_pl _ _ _ _ _ _ I _ _ Ic) as (u & Ow & Hm & K). pose proof (i_cur _ _ _ _ _ _ I t) as Oc. rewrite (g_cur _ G) in Oc.
  assert (u = t) by congruence. subst u. assert (Hp : pinned c = true -> att a c = Some t) by (intros Pc; rewrite (i_home _ _ _ _ _ _ I c Pc); f_equal; symmetry; auto).
  split.
  - intros S Pc. destruct (kind t); try discriminate; auto.
  - intros [S|S]; auto. destruct (kind t); try discriminate; auto.
Qed.
Lemma pick_step a t a' : good a -> step a (Pick t) = Some a' -> pick_eff (q a t = []) a t a'.
Proof.
  intros G E. pose proof (reachable_step _ _ _ _ _ (g_reach _ G) E) as R'.
  destruct (good_inv a G) as (pl & I). simpl in E. destruct (pc a t) eqn:P; try discriminate. injection E as E. rewrite (g_cur _ G) in E.
  assert (Gd : log a' = log a \/ (exists o, log a' = EPick t o :: log a) -> cur a' = cur a -> good a').
  { intros L C. constructor; auto.
    - destruct L as [->|(o & ->)]; [apply G|]. apply no_set_cons; [apply G|discriminate].
    - intros u. rewrite C. apply G. }
  assert (Er : good a' -> errs a' = []) by apply good_errs.
  unfold pick_next in E. destruct (kind t) as [| |own loc remote] eqn:K.
  - destruct (q a t) as [|c l] eqn:Q.
    + subst a'. apply PNone; simpl; auto; try now rewrite upd_same. 1: now apply Gd; simpl; eauto. intros u N. now rewrite upd_other.
    + destruct (att_queue a t c pl l G I Q) as (Rc & _ & Ac). rewrite K in Ac. specialize (Ac (or_introl eq_refl)).
      subst a'. apply (PSome _ _ _ _ c); simpl; auto; try now rewrite upd_same.
      * apply Gd; simpl; eauto.
      * intros x. upds; auto.
      * intros u N. now rewrite upd_other.
  - destruct (shq a) as [|c l] eqn:Sq; [destruct (q a t) as [|c l] eqn:Q|].
    + subst a'. apply PNone; simpl; auto; try now rewrite upd_same. 1: now apply Gd; simpl; eauto. intros u N. now rewrite upd_other.
    + destruct (att_queue a t c pl l G I Q) as (Rc & _ & Ac). rewrite K in Ac. specialize (Ac (or_introl eq_refl)).
      subst a'. apply (PSome _ _ _ _ c); simpl; auto; try now rewrite upd_same.
      * apply Gd; simpl; eauto.
      * intros x. upds; auto.
      * intros u N. now rewrite upd_other.
    + assert (Ic : In c (shq a)) by (rewrite Sq; now left). apply (i_sh _ _ _ _ _ _ I) in Ic.
      assert (Rc : ready a c = true) by (apply (i_ready _ _ _ _ _ _ I); congruence). pose proof (i_pl _ _ _ _ _ _ I _ _ Ic) as (Pc & Ac).
      unfold attach_finish in E. destruct (can_attach _ c) eqn:CA.
      * subst a'. apply (PSome _ _ _ _ c); simpl; auto; try now rewrite upd_same.
        -- apply Gd; simpl; eauto.
        -- intros u N. now rewrite upd_other.
      * assert (X : errs a' = []); [|subst a'; discriminate]. apply Er, Gd; subst a'; simpl; auto.
  - destruct (q a t) as [|c l] eqn:Q.
    + subst a'. apply (PSearch _ _ _ _ false 0); simpl; auto; try now rewrite upd_same. intros u N. now rewrite upd_other.
    + destruct (att_queue a t c pl l G I Q) as (Rc & As & Ac). rewrite K in Ac, As. specialize (As eq_refl).
      destruct (pinned c) eqn:Pc.
      * specialize (Ac (or_intror eq_refl)). subst a'. apply (PSome _ _ _ _ c); simpl; auto; try now rewrite upd_same.
        -- apply Gd; simpl; eauto.
        -- intros x. upds; auto.
        -- intros u N. now rewrite upd_other.
      * unfold attach_finish in E. destruct (can_attach _ c) eqn:CA.
        -- subst a'. apply (PSome _ _ _ _ c); simpl; auto; try now rewrite upd_same.
           ++ apply Gd; simpl; eauto.
           ++ intros u N. now rewrite upd_other.
        -- assert (X : errs a' = []); [|subst a'; discriminate]. apply Er, Gd; subst a'; simpl; auto.
Qed.

Lemma draw_step a t d a' r m : good a -> step a (Draw t d) = Some a' -> pc a t = Steal r m None -> pick_eff True a t a'.
Proof.
  intros G E P. pose proof (reachable_step _ _ _ _ _ (g_reach _ G) E) as R'.
  destruct (good_inv a G) as (pl & I). simpl in E. rewrite P in E.
  assert (Gd : log a' = log a \/ (exists o, log a' = EPick t o :: log a) -> cur a' = cur a -> good a').
  { intros L C. constructor; auto.
    - destruct L as [->|(o & ->)]; [apply G|]. apply no_set_cons; [apply G|discriminate].
    - intros u. rewrite C. apply G. }
  assert (Er : good a' -> errs a' = []) by apply good_errs.
  assert (Bad : forall s0 e, log s0 = log a -> cur s0 = cur a -> Some (with_err s0 t e) = Some a' -> pick_eff True a t a').
  { intros s0 e L C X. injection X as <-. assert (X : errs (with_err s0 t e) = []); [|discriminate]. apply Er, Gd; auto. }
  assert (Sea : forall r' n', Some (with_pc a t (Steal r' n' None)) = Some a' -> pick_eff True a t a').
  { intros r' n' X. injection X as <-. apply (PSearch _ _ _ _ r' n'); simpl; auto; [now rewrite upd_same|]. intros u N. now rewrite upd_other. }
  unfold draw in E. rewrite (g_cur _ G) in E. destruct (kind t) as [| |own loc remote] eqn:K; try discriminate.
  destruct (nth_error _ d) as [i|] eqn:Nt; [|destruct (if r then remote else loc); [now apply (Bad a BadIndex)|discriminate]].
  destruct (i =? own); [destruct r; [now apply (Bad a BadVictim)|now apply (Sea false (S m))]|].
  destruct (sched t i) as [v|] eqn:Sv; [|now apply (Bad a BadIndex)].
  assert (Kv : is_stealing (kind v) = true).
  { destruct (cfg t own loc remote K) as (_ & _ & C). destruct (C i) as (v' & V1 & V2); [|congruence].
    apply nth_error_In in Nt. apply in_or_app. destruct r; auto. }
  assert (Nn : (if S m <? length (if r then remote else loc) then Some (with_pc a t (Steal r (S m) None))
       else if negb r && negb (length remote =? 0) then Some (with_pc a t (Steal true 0 None)) else Some (finish a t None None)) = Some a' -> pick_eff True a t a').
  { destruct (S m <? _); [apply Sea|]. destruct (negb r && _); [apply Sea|]. intros X. injection X as <-.
    apply PNone; simpl; auto; try now rewrite upd_same. 1: apply Gd; simpl; eauto. intros u N. now rewrite upd_other. }
  unfold steal in E. destruct (q a v) as [|c l] eqn:Q; [now apply Nn|]. destruct (pinned c) eqn:Pc; [now apply Nn|]. rewrite Pc in E.
  assert (Ic : In c (q a v)) by (rewrite Q; now left). apply (i_q _ _ _ _ _ _ I) in Ic.
  assert (Rc : ready a c = true) by (apply (i_ready _ _ _ _ _ _ I); congruence).
  assert (Ac : att a c = None). { pose proof (i_pl _ _ _ _ _ _ I _ _ Ic) as (u & _ & _ & X). destruct (kind v); try discriminate. auto. }
  unfold attach_finish in E. destruct (can_attach _ c) eqn:CA; [|revert E; now apply Bad]. injection E as E.
  subst a'. apply (PSome _ _ _ _ c); simpl; auto; try now rewrite upd_same.
  - apply Gd; simpl; eauto.
  - intros u N. now rewrite upd_other.
Qed.
Lemma pick_enabled a t : pc a t = Idle -> exists a', step a (Pick t) = Some a'.
Proof. intros P. simpl. rewrite P. eauto. Qed.
(** *** a new worker *)
Record start_eff (a : st) (t c : nat) (a' : st) : Prop := mkStart {
  s_good : good a'; s_ready : forall x, ready a' x = ready a x; s_pc : forall u, pc a' u = pc a u;
  s_att : forall x, att a' x = upd (att a) c (Some t) x;
  s_was : pc a t = Idle /\ att a c = None /\ ready a c = false /\ pinned c = false
}.
Lemma start_step a t c a' : good a -> step a (Start t c) = Some a' -> start_eff a t c a'.
Proof.
  intros G E. pose proof (reachable_step _ _ _ _ _ (g_reach _ G) E) as R'. simpl in E. destruct (pc a t) eqn:P; try discriminate.
  destruct (att a c) eqn:A; [discriminate|]. destruct (pinned c) eqn:Pc; [discriminate|]. destruct (ready a c) eqn:Rc; [discriminate|]. injection E as <-.
  constructor; simpl; auto. constructor; auto; apply G.
Qed.
(** A dispatcher that is ready is in the queue of its thread. *)
Lemma pinned_ready a c : good a -> pinned c = true -> ready a c = true -> In c (q a (home c)).
Proof.
  intros G Pc Rc. destruct (good_inv a G) as (pl & I). apply (i_ready _ _ _ _ _ _ I) in Rc. destruct (pl c) as [p|] eqn:E; [|congruence].
  pose proof (i_pl _ _ _ _ _ _ I _ _ E) as A. destruct p as [b| |u].
  - destruct A as (u & Ow & Hm & _). specialize (Hm Pc). subst u.
    assert (Ib : In c (q a b)) by now apply (i_q _ _ _ _ _ _ I). assert (X := Ow).
    destruct (all_reach pinned home kind sched cfg _ _ a started_well (g_reach _ G)) as [_ _ Al _]. destruct (Al (good_errs a G)) as (A1 & _).
    destruct (A1 b c Ib) as (u & [U|U]); [rewrite (g_cur _ G) in U; subst u|].
    + assert (O : owner a b = Some b) by (rewrite <- (g_cur _ G b) at 1; apply (i_cur _ _ _ _ _ _ I)). congruence.
    + destruct (i_inst _ _ _ _ _ _ I u b U) as (O & N). assert (O2 : owner a b = Some b) by (rewrite <- (g_cur _ G b) at 1; apply (i_cur _ _ _ _ _ _ I)). congruence.
  - destruct A. congruence.
  - destruct (proj1 (i_hand _ _ _ _ _ _ I u c) E) as [(b & S)|S]; [|discriminate].
    assert (In2 : installing a u b) by (unfold installing; now rewrite S). destruct (i_inst _ _ _ _ _ _ I u b In2) as (O & N).
    assert (O2 : owner a b = Some b) by (rewrite <- (g_cur _ G b) at 1; apply (i_cur _ _ _ _ _ _ I)). rewrite (g_cur _ G) in N. congruence.
Qed.
Lemma pinned_att a c : good a -> pinned c = true -> att a c = Some (home c).
Proof. intros G. destruct (good_inv a G) as (pl & I). apply (i_home _ _ _ _ _ _ I). Qed.
End Effects.
