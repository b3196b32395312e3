(** Further facts about the scheduling algorithms. *)
From Coq Require Import List Arith Bool Lia.
From Verif Require Import Base Algo AlgoSpec AlgoFacts.
Import ListNotations.

Section Facts.
Variable pinned : nat -> bool.
Variable home : nat -> nat.
Variable kind : nat -> akind.
Variable sched : nat -> nat -> option nat.
Variable cfg : well_configured kind sched.
Notation step := (step pinned kind sched).
Notation inv := (inv pinned home kind).

(** ** The thread that takes a step *)
Definition thread (l : label) : nat := match l with Start t _ | Awake t _ | Pick t | Draw t _ | SetAlgo t _ | Tick t => t end.

(** Everything a step can change, seen from outside. *)
Definition actor (s : st) (t a c : nat) : Prop := (a = cur s t /\ pc s t = Idle) \/ pc s t = SetPush a c.
Record effect (s : st) (l : label) (s' : st) : Prop := mkEff {
  e_pc : forall t, t <> thread l -> pc s' t = pc s t;
  e_cur : forall t, t <> thread l -> cur s' t = cur s t;
  e_q : forall a c, In c (q s' a) -> In c (q s a) \/ actor s (thread l) a c;
  e_sh : forall c, In c (shq s') -> In c (shq s) \/ exists a, kind a = SharedWork /\ actor s (thread l) a c;
  e_att : forall c, ready s c = false -> ready s' c = false -> att s c <> None -> att s' c = att s c;
  e_own : cur s' (thread l) = cur s (thread l) \/ exists b, pc s (thread l) = SetTest b /\ cur s' (thread l) = b /\ has_ready kind s (cur s (thread l)) = false /\ q s' = q s /\ shq s' = shq s;
  e_inst : forall b, installing s (thread l) b -> installing s' (thread l) b \/ (pc s (thread l) = SetTest b /\ cur s' (thread l) = b) \/ errs s' <> errs s
}.
Lemma finish_pc s t k o : (forall t', t' <> t -> pc (finish s t k o) t' = pc s t') /\ cur (finish s t k o) = cur s /\ q (finish s t k o) = q s /\ shq (finish s t k o) = shq s /\ att (finish s t k o) = att s.
Proof. destruct k, o; simpl; splits; auto; intros; now updt. Qed.
Lemma finish_inst s t k o b : k = Some b -> installing (finish s t k o) t b \/ errs (finish s t k o) = NullAwakened :: errs s.
Proof. intros ->. destruct o; simpl; [left|now right]. unfold installing. simpl. now updt. Qed.
Lemma finish_ready s t k o c : ready (finish s t k o) c = false -> ready s c = false \/ o = Some c.
Proof. destruct k, o; simpl; auto. intros H. destruct (Nat.eq_dec c n); subst; auto. updt. auto. Qed.
Lemma neq_cons {A} (x : A) l : x :: l <> l.
Proof. intros E. apply (f_equal (@length A)) in E. simpl in E. lia. Qed.
Ltac dest_all := repeat match goal with |- context [match ?x with _ => _ end] => match type of x with _ => destruct x eqn:? end end.
Ltac crunch_q := intros x y; simpl; repeat match goal with |- context [upd _ ?a _ x] => destruct (Nat.eq_dec x a) as [->|]; updt end; rewrite ?in_snoc; auto.

Lemma awakened_effect s t a c : ready s c = true \/ errs s <> [] -> 
  let s' := awakened pinned kind s t a c in
  (forall t', t' <> t -> pc s' t' = pc s t') /\ cur s' = cur s /\ (forall x y, In y (q s' x) -> In y (q s x) \/ (x = a /\ y = c)) /\
  (forall y, In y (shq s') -> In y (shq s) \/ (y = c /\ kind a = SharedWork)) /\ (forall x, x <> c -> att s' x = att s x) /\ ready s' = ready s /\ (pc s' t = pc s t \/ errs s' <> errs s).
Proof.
  intros _. unfold awakened, with_err. destruct (kind a) eqn:K; repeat match goal with |- context [if ?b then _ else _] => destruct b end; simpl; splits; auto; intros; updt; auto; try (right; apply neq_cons).
  all: try match goal with H : In _ (upd _ ?a _ ?x) |- _ => destruct (Nat.eq_dec x a) as [->|]; updt; auto end.
  all: try match goal with H : In _ (_ ++ [_]) |- _ => apply in_snoc in H; destruct H; auto end.
Qed.
Lemma pick_effect s pl t k : inv s pl None -> 
  let s' := pick_next pinned kind s t (cur s t) k in
  (forall t', t' <> t -> pc s' t' = pc s t') /\ cur s' = cur s /\ (forall x y, In y (q s' x) -> In y (q s x)) /\ (forall y, In y (shq s') -> In y (shq s)) /\
  (forall x, ready s x = false -> att s' x = att s x) /\ (forall b, k = Some b -> installing s' t b \/ errs s' <> errs s).
Proof.
  intros I. assert (Rq : forall a c, In c (q s a) -> ready s c = true) by (intros a c H; apply (i_ready _ _ _ _ _ _ I); apply (i_q _ _ _ _ _ _ I) in H; congruence). assert (Rs : forall c, In c (shq s) -> ready s c = true) by (intros c H; apply (i_ready _ _ _ _ _ _ I); apply (i_sh _ _ _ _ _ _ I) in H; congruence).
  unfold pick_next, attach_finish. set (a := cur s t) in *. destruct (kind a) eqn:K; [destruct (q s a) as [|c l] eqn:E|destruct (shq s) as [|c l] eqn:E; [destruct (q s a) as [|c l] eqn:E2|]|destruct (q s a) as [|c l] eqn:E; [|destruct (pinned c)]]; repeat match goal with |- context [if ?b then _ else _] => destruct b end.
  all: try match goal with |- context [finish ?s0 _ _ ?o] => destruct (finish_pc s0 t k o) as (F1 & F2 & F3 & F4 & F5); pose proof (finish_inst s0 t k o) as F6; set (s1 := finish s0 t k o) in *; cbv zeta; simpl in F1, F2, F3, F4, F5, F6; rewrite F2, F3, F4, F5 end.
  all: simpl; splits; auto; intros; updt; auto; try match goal with H : forall b, _ -> _ \/ _, H2 : _ = Some _ |- _ => destruct (H _ H2) as [?|X]; [auto|right; rewrite X; apply neq_cons] end.
  all: try (right; apply neq_cons).
  all: try (left; unfold installing; simpl; updt; match goal with H2 : _ = Some _ |- _ => now rewrite H2 end).
  all: try match goal with H : In _ (upd _ ?a _ ?x) |- _ => destruct (Nat.eq_dec x a) as [->|]; updt; auto; match goal with E : _ _ _ = _ :: _ |- _ => rewrite E; now right end end.
  all: try match goal with H : In ?y (shq _), E : shq _ = [] |- In ?y [] => now rewrite <- E end.
  all: try match goal with H : In ?y ?l |- In ?y (_ :: ?l) => now right end.
  all: try match goal with |- upd _ ?c _ ?x = _ => destruct (Nat.eq_dec x c) as [->|]; updt; auto end.
  all: try match goal with H : In _ (shq _), E : shq _ = [] |- _ => now rewrite E in H end.
  all: exfalso; match goal with H : ready _ _ = false |- _ => first [rewrite (Rs c) in H by (try rewrite E; now left) | rewrite (Rq a c) in H by (rewrite E; now left)]; discriminate end.
Qed.

Lemma draw_effect s pl t rem n k d s' : inv s pl None -> pc s t = Steal rem n k -> draw pinned kind sched s t rem n k d = Some s' ->
  (forall t', t' <> t -> pc s' t' = pc s t') /\ cur s' = cur s /\ (forall x y, In y (q s' x) -> In y (q s x)) /\ (forall y, In y (shq s') -> In y (shq s)) /\
  (forall x, ready s x = false -> att s' x = att s x) /\ (forall b, k = Some b -> installing s' t b \/ errs s' <> errs s).
Proof.
  intros I Epc St. assert (Rq : forall a c, In c (q s a) -> ready s c = true) by (intros a c H; apply (i_ready _ _ _ _ _ _ I); apply (i_q _ _ _ _ _ _ I) in H; congruence).
  assert (Fn : (forall t', t' <> t -> pc (finish s t k None) t' = pc s t') /\ cur (finish s t k None) = cur s /\ (forall x y, In y (q (finish s t k None) x) -> In y (q s x)) /\ (forall y, In y (shq (finish s t k None)) -> In y (shq s)) /\
  (forall x, ready s x = false -> att (finish s t k None) x = att s x) /\ (forall b, k = Some b -> installing (finish s t k None) t b \/ errs (finish s t k None) <> errs s)).
  { destruct (finish_pc s t k None) as (F1 & F2 & F3 & F4 & F5). rewrite F2, F3, F4, F5. splits; auto. intros b Hb. destruct (finish_inst s t k None b Hb) as [X|X]; [auto|right; rewrite X; apply neq_cons]. }
  assert (Go : forall r n', (forall t', t' <> t -> pc (with_pc s t (Steal r n' k)) t' = pc s t') /\ cur (with_pc s t (Steal r n' k)) = cur s /\ (forall x y, In y (q (with_pc s t (Steal r n' k)) x) -> In y (q s x)) /\ (forall y, In y (shq (with_pc s t (Steal r n' k))) -> In y (shq s)) /\
  (forall x, ready s x = false -> att (with_pc s t (Steal r n' k)) x = att s x) /\ (forall b, k = Some b -> installing (with_pc s t (Steal r n' k)) t b \/ errs (with_pc s t (Steal r n' k)) <> errs s)).
  { intros r n'. simpl. splits; auto; intros; updt; auto. left. unfold installing. simpl. updt. now subst k. }
  assert (Er : forall e s1, pc s1 = pc s -> cur s1 = cur s -> (forall x y, In y (q s1 x) -> In y (q s x)) -> shq s1 = shq s -> att s1 = att s -> errs s1 = errs s -> (forall t', t' <> t -> pc (with_err s1 t e) t' = pc s t') /\ cur (with_err s1 t e) = cur s /\ (forall x y, In y (q (with_err s1 t e) x) -> In y (q s x)) /\ (forall y, In y (shq (with_err s1 t e)) -> In y (shq s)) /\
  (forall x, ready s x = false -> att (with_err s1 t e) x = att s x) /\ (forall b, k = Some b -> installing (with_err s1 t e) t b \/ errs (with_err s1 t e) <> errs s)).
  { intros e s1 E1 E2 E3 E4 E5 E6. simpl. rewrite E1, E2, E4, E5, E6. splits; auto; intros; updt; auto. right. apply neq_cons. }
  unfold draw in St. destruct (kind (cur s t)) as [| |own loc remote]; try discriminate. set (cpus := if rem then remote else loc) in *. destruct (nth_error cpus d) as [id|].
  - destruct (id =? own); [destruct rem; injection St as <-; auto|]. destruct (sched (cur s t) id) as [v|]; [|injection St as <-; auto]. unfold steal in St. 
    assert (Em : match (if S n <? length cpus then Some (with_pc s t (Steal rem (S n) k)) else if negb rem && negb (length remote =? 0) then Some (with_pc s t (Steal true 0 k)) else Some (finish s t k None)) with Some s' => (forall t', t' <> t -> pc s' t' = pc s t') /\ cur s' = cur s /\ (forall x y, In y (q s' x) -> In y (q s x)) /\ (forall y, In y (shq s') -> In y (shq s)) /\
  (forall x, ready s x = false -> att s' x = att s x) /\ (forall b, k = Some b -> installing s' t b \/ errs s' <> errs s) | None => True end).
    { destruct (S n <? length cpus); auto. destruct (negb rem && negb (length remote =? 0)); auto. }
    destruct (q s v) as [|c l] eqn:Eq; [rewrite St in Em; exact Em|]. destruct (pinned c) eqn:Pn; [rewrite St in Em; exact Em|]. rewrite Pn in St. injection St as <-.
    assert (Sub : forall x y, In y (upd (q s) v l x) -> In y (q s x)). { intros x y H. destruct (Nat.eq_dec x v) as [->|]; updt; auto. rewrite Eq. now right. }
    unfold attach_finish. match goal with |- context [if ?b then _ else _] => destruct b end; [|apply Er; auto].
    match goal with |- context [finish ?s0 _ _ ?o] => destruct (finish_pc s0 t k o) as (F1 & F2 & F3 & F4 & F5); pose proof (finish_inst s0 t k o) as F6; set (s1 := finish s0 t k o) in *; simpl in F1, F2, F3, F4, F5, F6; rewrite F2, F3, F4, F5 end. splits; auto.
    + intros x Hx. destruct (Nat.eq_dec x c) as [->|]; updt; auto. rewrite (Rq v c) in Hx; [discriminate|]. rewrite Eq. now left.
    + intros b Hb. destruct (F6 b Hb) as [X|X]; [auto|right; rewrite X; apply neq_cons].
  - destruct cpus; [injection St as <-; auto|discriminate].
Qed.

Lemma step_effect s pl l s' : inv s pl None -> step s l = Some s' -> effect s l s'.
Proof.
  intros I St. destruct l as [t c|t c|t|t d|t b|t]; simpl in St; destruct (pc s t) as [|rem n k|b'|b'|b' c'|] eqn:Epc; try discriminate.
  - destruct (att s c) eqn:At; [discriminate|]. destruct (pinned c || ready s c) eqn:B; [discriminate|]. injection St as <-. constructor; simpl; auto. intros x _ _ Hx. destruct (Nat.eq_dec x c) as [->|]; updt; auto. congruence.
  - destruct (att s c) as [t'|] eqn:At; [|discriminate]. destruct ((t =? t') && negb (ready s c)); [|discriminate]. injection St as <-.
    destruct (awakened_effect (with_log (with_ready s c true) (EAwake t c)) t (cur s t) c) as (A1 & A2 & A3 & A4 & A5 & A6 & A7); [left; simpl; now updt|]. simpl in *. constructor; simpl; auto.
    + intros t0 _. now rewrite A2.
    + intros a x H. apply A3 in H. destruct H as [H|[-> ->]]; auto. right. left. auto.
    + intros x H. apply A4 in H. destruct H as [H|[-> H]]; auto. right. exists (cur s t). split; auto. left. auto.
    + intros x Hx Hx'. destruct (Nat.eq_dec x c) as [->|]; auto. rewrite A6 in Hx'. now updt.
    + left. now rewrite A2.
    + intros b H. unfold installing in H. now rewrite Epc in H.
  - injection St as <-. destruct (pick_effect s pl t None I) as (A1 & A2 & A3 & A4 & A5 & A6). constructor; simpl; auto.
    + intros t0 _. now rewrite A2.
    + left. now rewrite A2.
    + intros b H. unfold installing in H. now rewrite Epc in H.
  - destruct (draw_effect s pl t rem n k d s' I Epc St) as (A1 & A2 & A3 & A4 & A5 & A6). constructor; simpl; auto.
    + intros t0 _. now rewrite A2.
    + left. now rewrite A2.
    + intros b H. unfold installing in H. rewrite Epc in H. destruct k as [b0|]; [|easy]. subst b0. destruct (A6 b); auto.
  - destruct (owner s b); [discriminate|]. injection St as <-. constructor; simpl; auto; intros; updt; auto. unfold installing in H. now rewrite Epc in H.
  - destruct (has_ready kind s (cur s t)) eqn:Hr; injection St as <-; (constructor; simpl; auto; intros; updt; auto).
    + unfold installing in *. simpl. updt. rewrite Epc in H. auto.
    + right. exists b'. updt. auto.
    + unfold installing in H. rewrite Epc in H. subst. auto.
  - injection St as <-. destruct (pick_effect s pl t (Some b') I) as (A1 & A2 & A3 & A4 & A5 & A6). constructor; simpl; auto.
    + intros t0 _. now rewrite A2.
    + left. now rewrite A2.
    + intros b H. unfold installing in H. rewrite Epc in H. subst b. destruct (A6 b'); auto.
  - injection St as <-. assert (Rd : ready s c' = true). { apply (i_ready _ _ _ _ _ _ I). assert (X : pl c' = Some (InHand t)) by (apply (i_hand _ _ _ _ _ _ I); eauto). congruence. }
    destruct (awakened_effect (with_pc s t (SetTest b')) t b' c') as (A1 & A2 & A3 & A4 & A5 & A6 & A7); [left; auto|]. simpl in *. constructor; simpl; auto.
    + intros t0 Ht. rewrite A1 by auto. now updt.
    + intros t0 _. now rewrite A2.
    + intros a x H. apply A3 in H. destruct H as [H|[-> ->]]; auto. right. right. auto.
    + intros x H. apply A4 in H. destruct H as [H|[-> H]]; auto. right. exists b'. split; auto. right. auto.
    + intros x Hx _ _. destruct (Nat.eq_dec x c') as [->|]; auto. congruence.
    + left. now rewrite A2.
    + intros b H. unfold installing in H. rewrite Epc in H. subst b. destruct A7 as [A7|A7]; auto. left. unfold installing. rewrite A7. now updt.
Qed.

(** ** No context is left behind in an object that is not in use *)
Definition in_use (s : st) (a : nat) : Prop := exists t, cur s t = a \/ installing s t a.
Definition alive (s : st) : Prop := errs s = [] -> (forall a c, In c (q s a) -> in_use s a) /\ (forall c, In c (shq s) -> exists a, kind a = SharedWork /\ in_use s a).
Lemma alive_step s pl l s' : inv s pl None -> (errs s' = [] -> errs s = []) -> alive s -> step s l = Some s' -> alive s'.
Proof.
  intros I Em A St E'. destruct (A (Em E')) as [A1 A2]. destruct (step_effect s pl l s' I St) as [Fp Fc Fq Fs Fa Fo Fi]. set (t := thread l) in *.
  assert (Old : forall a, in_use s a -> in_use s' a \/ (a = cur s t /\ has_ready kind s a = false /\ q s' = q s /\ shq s' = shq s)).
  { intros a (t0 & [H|H]); destruct (Nat.eq_dec t0 t) as [->|Nt].
    - destruct Fo as [Fo|(b & P & C & Hr & Eq & Es)]; [left; exists t; left; congruence|]. subst a. right. auto.
    - left. exists t0. left. rewrite Fc; auto.
    - left. destruct (Fi a H) as [X|[[_ X]|X]]; [exists t; auto|exists t; auto|]. rewrite E', (Em E') in X. congruence.
    - left. exists t0. right. unfold installing in *. now rewrite Fp. }
  assert (New : forall a c, actor s t a c -> in_use s' a).
  { intros a c [[-> P]|P].
    - destruct Fo as [Fo|(b & P' & _)]; [exists t; auto|congruence].
    - destruct (Fi a) as [X|[[X _]|X]]; [unfold installing; now rewrite P|exists t; auto|congruence|]. rewrite E', (Em E') in X. congruence. }
  split.
  - intros a c H. destruct (Fq a c H) as [X|X]; [|eauto]. destruct (Old a (A1 a c X)) as [Y|(-> & Hr & Eq & _)]; auto. exfalso. unfold has_ready in Hr. destruct (q s (cur s t)) eqn:Eqq; [easy|]. simpl in Hr. destruct (kind (cur s t)); try discriminate. now rewrite orb_true_r in Hr.
  - intros c H. destruct (Fs c H) as [X|(a & K & X)]; [|eauto]. destruct (A2 c X) as (a & K & Y). destruct (Old a Y) as [Z|(-> & Hr & _ & Es)]; eauto. exfalso. unfold has_ready in Hr. rewrite K in Hr. destruct (shq s); [easy|discriminate].
Qed.

(** ** A context that was picked belongs to the thread that picked it *)
Definition belongs (s : st) : Prop := forall c t, ready s c = false -> last_pick (log s) c = Some t -> att s c = Some t.

(** What a step writes into the record. *)
Definition entry (s s' : st) (t : nat) (e : event) : Prop :=
  match e with
  | EPick t' (Some c) => t' = t /\ att s' c = Some t /\ ready s c = true /\ ready s' = upd (ready s) c false
  | EPick t' None => t' = t /\ ready s' = ready s
  | EAwake t' c => t' = t /\ att s c = Some t /\ ready s c = false /\ ready s' = upd (ready s) c true
  | _ => ready s' = ready s
  end.
Definition recorded (s : st) (t : nat) (s' : st) : Prop := (log s' = log s /\ ready s' = ready s) \/ exists e, log s' = e :: log s /\ entry s s' t e.
Lemma finish_rec s s0 t k o : log s0 = log s -> ready s0 = ready s -> (forall c, o = Some c -> att s0 c = Some t /\ ready s c = true) -> recorded s t (finish s0 t k o).
Proof.
  intros El Er H. destruct k as [b|], o as [c|]; unfold recorded; simpl; rewrite ?El, ?Er; auto.
  - right. exists (EPick t (Some c)). split; auto. destruct (H c) as [H1 H2]; auto. simpl. rewrite Er. auto.
  - right. exists (EPick t None). split; simpl; auto.
Qed.
Lemma pick_rec s pl t k : inv s pl None -> recorded s t (pick_next pinned kind s t (cur s t) k).
Proof.
  intros I. assert (Rq : forall a c, In c (q s a) -> ready s c = true) by (intros a c H; apply (i_ready _ _ _ _ _ _ I); apply (i_q _ _ _ _ _ _ I) in H; congruence). assert (Rs : forall c, In c (shq s) -> ready s c = true) by (intros c H; apply (i_ready _ _ _ _ _ _ I); apply (i_sh _ _ _ _ _ _ I) in H; congruence).
  assert (Oc := i_cur _ _ _ _ _ _ I t). unfold pick_next, attach_finish. set (a := cur s t) in *.
  assert (At : forall c, In c (q s a) -> pinned c = true \/ kind a <> SharedWork /\ is_stealing (kind a) = false -> att s c = Some t).
  { intros c H D. apply (i_q _ _ _ _ _ _ I) in H. apply (i_pl _ _ _ _ _ _ I) in H. simpl in H. destruct H as (t0 & O & Hh & K). assert (t0 = t) by congruence. subst t0. destruct D as [D|[D1 D2]]; [rewrite (Hh D); now apply (i_home _ _ _ _ _ _ I)|]. destruct (kind a); simpl in *; congruence. }
  assert (Pn : forall c, In c (q s a) -> kind a = SharedWork -> pinned c = true). { intros c H K. apply (i_q _ _ _ _ _ _ I) in H. apply (i_pl _ _ _ _ _ _ I) in H. simpl in H. destruct H as (t0 & _ & _ & X). now rewrite K in X. }
  destruct (kind a) eqn:K; [destruct (q s a) as [|c l] eqn:E|destruct (shq s) as [|c l] eqn:E; [destruct (q s a) as [|c l] eqn:E2|]|destruct (q s a) as [|c l] eqn:E; [|destruct (pinned c) eqn:Pc]]; repeat match goal with |- context [if ?b then _ else _] => destruct b end.
  all: try (apply finish_rec; auto; [intros c0 X; try discriminate; injection X as <-; simpl; updt]).
  all: try (left; split; reflexivity).
  - split; [apply At; [now left|right; split; [discriminate|auto]]|apply (Rq a); rewrite E; now left].
  - split; [apply At; [now left|left; apply Pn; [now left|auto]]|apply (Rq a); rewrite E2; now left].
  - split; auto. apply Rs. now left.
  - split; [apply At; [now left|left; auto]|apply (Rq a); rewrite E; now left].
  - split; auto. apply (Rq a). rewrite E. now left.
Qed.
Lemma awakened_rec s t a c : log (awakened pinned kind s t a c) = log s /\ ready (awakened pinned kind s t a c) = ready s.
Proof. unfold awakened. destruct (kind a); repeat match goal with |- context [if ?b then _ else _] => destruct b end; auto. Qed.
Lemma draw_rec s pl t rem n k d s' : inv s pl None -> draw pinned kind sched s t rem n k d = Some s' -> recorded s t s'.
Proof.
  intros I St. assert (Rq : forall a c, In c (q s a) -> ready s c = true) by (intros a c H; apply (i_ready _ _ _ _ _ _ I); apply (i_q _ _ _ _ _ _ I) in H; congruence).
  unfold draw in St. destruct (kind (cur s t)) as [| |own loc remote]; try discriminate. set (cpus := if rem then remote else loc) in *. assert (Nn : recorded s t (finish s t k None)) by (apply finish_rec; auto; discriminate).
  destruct (nth_error cpus d) as [id|].
  - destruct (id =? own); [destruct rem; injection St as <-; left; auto|]. destruct (sched (cur s t) id) as [v|]; [|injection St as <-; left; auto]. unfold steal in St. 
    assert (Em : match (if S n <? length cpus then Some (with_pc s t (Steal rem (S n) k)) else if negb rem && negb (length remote =? 0) then Some (with_pc s t (Steal true 0 k)) else Some (finish s t k None)) with Some s' => recorded s t s' | None => True end).
    { destruct (S n <? length cpus); [left; auto|]. destruct (negb rem && negb (length remote =? 0)); auto. left; auto. }
    destruct (q s v) as [|c l] eqn:Eq; [rewrite St in Em; exact Em|]. destruct (pinned c) eqn:Pn; [rewrite St in Em; exact Em|]. rewrite Pn in St. injection St as <-.
    unfold attach_finish. match goal with |- context [if ?b then _ else _] => destruct b end; [|left; auto]. apply finish_rec; auto. intros c0 X. injection X as <-. simpl. updt. split; auto. apply (Rq v). rewrite Eq. now left.
  - destruct cpus; [injection St as <-; left; auto|discriminate].
Qed.
Lemma step_rec s pl l s' : inv s pl None -> step s l = Some s' -> recorded s (thread l) s'.
Proof.
  intros I St. destruct l as [t c|t c|t|t d|t b|t]; simpl in St; destruct (pc s t) as [|rem n k|b'|b'|b' c'|] eqn:Epc; try discriminate.
  - destruct (att s c) eqn:At; [discriminate|]. destruct (pinned c || ready s c) eqn:B; [discriminate|]. injection St as <-. left. auto.
  - destruct (att s c) as [t'|] eqn:At; [|discriminate]. destruct (Nat.eqb_spec t t') as [<-|]; [|discriminate]. destruct (ready s c) eqn:Rd; [discriminate|]. injection St as <-. right. exists (EAwake t c). 
    destruct (awakened_rec (with_log (with_ready s c true) (EAwake t c)) t (cur s t) c) as [E1 E2]. split; [exact E1|]. simpl. rewrite E2. auto.
  - injection St as <-. eapply pick_rec; eauto.
  - eapply draw_rec; eauto.
  - destruct (owner s b); [discriminate|]. injection St as <-. right. exists (ESet t b). split; simpl; auto.
  - destruct (has_ready kind s (cur s t)) eqn:Hr; injection St as <-; [left; auto|]. right. exists (ESetDone t b'). split; simpl; auto.
  - injection St as <-. eapply pick_rec; eauto.
  - injection St as <-. left. destruct (awakened_rec (with_pc s t (SetTest b')) t b' c') as [E1 E2]. auto.
Qed.
Lemma belongs_step s pl l s' : inv s pl None -> step s l = Some s' -> belongs s -> belongs s'.
Proof.
  intros I St B c t Rd Lp. destruct (step_effect s pl l s' I St) as [_ _ _ _ Fa _ _].
  assert (Old : ready s c = false -> last_pick (log s) c = Some t -> att s' c = Some t). { intros R0 L0. assert (X := B c t R0 L0). rewrite Fa; auto. congruence. }
  destruct (step_rec s pl l s' I St) as [[El Er]|(e & El & En)]; [rewrite El, Er in *; auto|]. rewrite El in Lp. destruct e as [t' c'|t' [c'|]|t' b|t' b]; simpl in Lp, En.
  - destruct En as (-> & _ & R0 & R1). rewrite R1 in Rd. destruct (Nat.eq_dec c c') as [->|]; updt; [discriminate|auto].
  - destruct En as (-> & A & R0 & R1). destruct (Nat.eqb_spec c c') as [->|]; [congruence|]. rewrite R1 in Rd. updt. auto.
  - destruct En as (_ & R1). rewrite R1 in Rd. auto.
  - rewrite En in Rd. auto.
  - rewrite En in Rd. auto.
Qed.

(** ** Everything together *)
Record all (s : st) : Prop := mkAll { a_inv : exists pl, inv s pl None; a_errs : forall e, In e (errs s) -> e = NullAwakened; a_alive : alive s; a_belongs : belongs s }.
Lemma all_step s l s' : all s -> step s l = Some s' -> all s'.
Proof.
  intros [[pl I] Er Al Be] St. destruct (inv_step pinned home kind sched cfg s pl l s' I St) as (pl' & I' & On). constructor; [exists pl'; auto| | |].
  - destruct On as [X|X]; rewrite X; auto. intros e [<-|H]; auto.
  - apply (alive_step s pl l s'); auto. intros E0. destruct On as [X|X]; rewrite E0 in X; [auto|discriminate].
  - apply (belongs_step s pl l s'); auto.
Qed.
Lemma all_reach cur0 owner0 s : well_started cur0 owner0 -> reachable step (init_state pinned home cur0 owner0) s -> all s.
Proof.
  intros W. apply reachable_inv; [|apply all_step]. constructor; [eexists; now apply inv_init|intros e []| |].
  - intros _. simpl. split; [intros a c []|intros c []].
  - intros c t _ H. discriminate.
Qed.
End Facts.
