(** Invariant of properties and scheduling algorithms, if all are for the same type. *)
From Coq Require Import List Arith Bool Lia.
From Verif Require Import Base PropAlgo PropAlgoSpec.
Import ListNotations.

Section U.
Context (t : nat).
(** The invariant, with a: the algorithm that has the ready fibers selected by R. *)
Record inv (s : st) : Prop := mkInv {
  i_kind : forall a, a <= cur s -> kind s a = With t /\ In (EAlgo a (With t)) (log s);
  i_prop : forall c u x, prop s c = Some (u, x) -> u = t /\ exists a, x = Some a /\ a <= cur s;
  i_ready : forall c, at_ s c = Ready -> prop s c = Some (t, Some (cur s)) /\ holder (log s) c = Some (cur s) /\ In c (fibers s);
  i_cur : current (log s) = cur s;
  i_legal : legal (log s);
  i_fib : forall c, at_ s c <> Nowhere -> In c (fibers s)
}.
Lemma inv_init : inv (init_state (With t)).
Proof.
  constructor; cbn; auto.
  - intros a A. assert (a = 0) by lia. subst. auto.
  - discriminate.
  - intros c. upds; discriminate.
  - intros c. upds; [auto|tauto].
Qed.
Lemma inv_awakened s c : inv s -> In c (fibers s) -> inv (awakened (cur s) (kind s (cur s)) s c).
Proof.
  intros [K P R C L Fb] F. destruct (K (cur s) (le_n _)) as (K1 & K2). rewrite K1. unfold awakened.
  assert (U : (match prop s c with Some (u, _) => u | None => t end) = t) by (destruct (prop s c) as [[u x]|] eqn:E; auto; now apply P in E). rewrite U.
  constructor; cbn [cur kind at_ prop log fibers holder current legal]; auto.
  - intros a A. destruct (K a A) as (X & Y). split; auto. right. right. exact Y.
  - intros d u x. upds; [|apply P]. intros [= <- <-]. eauto.
  - intros d. upds.
    + intros _. rewrite Nat.eqb_refl. auto.
    + intros X. destruct (Nat.eqb_spec c d); [congruence|]. auto.
  - splits; auto. right. auto.
  - intros d. upds; auto.
Qed.
Lemma inv_pick s d : inv s -> at_ s d = Ready -> inv (pick s d).
Proof.
  intros [K P R C L Fb] A. constructor; cbn [pick cur kind at_ prop log fibers holder current legal]; auto.
  - intros a X. destruct (K a X). split; auto. now right.
  - intros c. upds; [discriminate|]. intros X. destruct (Nat.eqb_spec d c); [congruence|]. auto.
  - intros c. upds; auto. intros _. apply Fb. congruence.
Qed.

(** The transfer of the ready fibers: a is the new algorithm. *)
Lemma transfer_effect a order : forall s s', transfer a (With t) s order = Some s' -> distinct order = true ->
  (forall c u x, prop s c = Some (u, x) -> u = t /\ exists b, x = Some b /\ b <= a) -> legal (log s) -> In (EAlgo a (With t)) (log s) -> 
  fibers s' = fibers s /\ (forall x, at_ s' x = at_ s x) /\ current (log s') = current (log s) /\ legal (log s') /\ (forall e, In e (log s) -> In e (log s')) /\
  (forall c u x, prop s' c = Some (u, x) -> u = t /\ exists b, x = Some b /\ b <= a) /\
  (forall c, In c order -> prop s' c = Some (t, Some a) /\ holder (log s') c = Some a) /\
  (forall c, ~ In c order -> prop s' c = prop s c /\ holder (log s') c = holder (log s) c).
Proof.
  induction order as [|c r IH]; intros s s' E D P L A; cbn [transfer] in E.
  - injection E as <-. splits; auto. intros c [].
  - destruct (at_ s c) eqn:Ac; try discriminate. cbn [distinct] in D. apply andb_true_iff in D. destruct D as (D1 & D2). apply negb_true_iff in D1.
    assert (Nc : ~ In c r). { intros X. assert (existsb (Nat.eqb c) r = true) by (apply existsb_exists; exists c; split; auto; apply Nat.eqb_refl). congruence. }
    unfold awakened in E. cbn [prop] in E.
    assert (U : (match prop s c with Some (u, _) => u | None => t end) = t) by (destruct (prop s c) as [[u x]|] eqn:X; auto; now apply P in X). rewrite U in E. cbn [fibers cur kind at_ prop log] in E.
    apply IH in E; auto.
    + destruct E as (E1 & E2 & E3 & E4 & E5 & E6 & E7 & E8). cbn [fibers at_ log prop current legal] in *. splits; auto.
      * intros x. rewrite E2. upds; auto.
      * intros e X. apply E5. cbn; auto.
      * intros d [<-|X]; auto. destruct (E8 c Nc) as (X & Y). rewrite X, Y. updt. cbn. rewrite Nat.eqb_refl. auto.
      * intros d N. destruct (E8 d) as (X & Y); [intros Z; apply N; now right|]. rewrite X, Y. assert (d <> c) by (intros ->; apply N; now left). updt. cbn. destruct (Nat.eqb_spec c d); [congruence|]. auto.
    + intros d u x. cbn [prop]. upds; [|apply P]. intros [= <- <-]. eauto.
    + cbn. splits; auto.
    + cbn. auto.
Qed.

Lemma inv_set_algo s order s' : inv s -> set_algo s (With t) order = Some s' -> inv s'.
Proof.
  intros [K P R C L Fb] E. unfold set_algo in E. destruct (complete s order) eqn:D; [|discriminate]. apply andb_true_iff in D. destruct D as (D1 & D2).
  destruct (transfer _ _ _ order) as [s1|] eqn:T; [|discriminate]. injection E as <-.
  apply transfer_effect in T; cbn [prop log legal In]; auto.
  - cbn [fibers at_ log current prop] in T. destruct T as (T1 & T2 & T3 & T4 & T5 & T6 & T7 & T8).
    assert (O : forall c, at_ s c = Ready -> In c order).
    { intros c X. rewrite forallb_forall in D2. destruct (R c X) as (_ & _ & F). specialize (D2 c F). unfold is_ready in D2. rewrite X in D2. cbn in D2. apply existsb_exists in D2. destruct D2 as (y & Y & Z). apply Nat.eqb_eq in Z. now subst. }
    constructor; cbn [fibers cur kind at_ prop log]; auto.
    + intros a A. destruct (Nat.eq_dec a (S (cur s))) as [->|]; updt.
      * split; auto. apply T5. now left.
      * destruct (K a) as (X & Y); [lia|]. split; auto. apply T5. now right.
    + intros c X. rewrite T2 in X. destruct (T7 c (O c X)). destruct (R c X) as (_ & _ & F). rewrite T1. auto.
    + intros c. rewrite T1, T2. auto.
  - intros c u x X. destruct (P c u x X) as (Y & b & -> & Z). split; auto. exists b. split; auto.
Qed.

Lemma inv_step s l s' : inv s -> only t l -> step s l = Some s' -> inv s'.
Proof.
  intros I O E. destruct l as [c p|c d|c d|c|k order|c]; cbn [step] in E.
  - destruct (at_ s c) eqn:A; try discriminate. injection E as <-.
    destruct I as [K P R C L Fb]. destruct (K (cur s) (le_n _)) as (K1 & K2). rewrite K1. unfold awakened. cbn [prop]. rewrite upd_same.
    assert (U : (match (match p with Some u => Some (u, None) | None => None end : option (nat * option nat)) with Some (u, _) => u | None => t end) = t) by (destruct p; auto). rewrite U.
    constructor; cbn [cur kind at_ prop log fibers holder current legal]; auto.
    + intros a X. destruct (K a X) as (Y & Z). split; auto. right. right. exact Z.
    + intros d u x. upds; [|apply P]. intros [= <- <-]. eauto.
    + intros d. upds.
      * intros _. rewrite Nat.eqb_refl. cbn. auto.
      * intros X. destruct (Nat.eqb_spec c d); [congruence|]. destruct (R d X) as (Y & Z & W). cbn. auto.
    + splits; auto. right. auto.
    + intros d. cbn. upds; auto.
  - destruct (at_ s c) eqn:A; try discriminate. destruct (at_ s d) eqn:B; try discriminate. injection E as <-.
    assert (N : c <> d) by congruence.
    apply (inv_awakened (pick s d)); auto; [now apply inv_pick|]. apply (i_fib s I). congruence.
  - destruct (at_ s c) eqn:A; try discriminate. destruct (at_ s d) eqn:B; try discriminate. injection E as <-.
    pose proof (inv_pick s d I B) as [K P R C L Fb]. constructor; cbn [cur kind at_ prop log fibers pick] in *; auto.
    + intros x. destruct (Nat.eq_dec x c) as [->|]; updt; [discriminate|auto].
    + intros x. destruct (Nat.eq_dec x c) as [->|]; updt; [intros _; apply (i_fib s I); congruence|auto].
  - destruct (at_ s c) eqn:A; try discriminate. injection E as <-. apply inv_awakened; auto. apply (i_fib s I). congruence.
  - cbn in O. subst k. eapply inv_set_algo; eauto.
  - assert (Z : inv (notify s c)); [|destruct (at_ s c); try discriminate; injection E as <-; exact Z]. clear E.
    pose proof I as [K P R C L Fb]. unfold notify. destruct (prop s c) as [[u [a|]]|] eqn:X.
    + destruct (P c u (Some a) X) as (-> & b & Y & B). injection Y as <-. unfold linked. destruct (at_ s c) eqn:A; auto.
      destruct (K (cur s) (le_n _)) as (K1 & K2). rewrite K1. destruct (R c A) as (R1 & R2 & R3). rewrite X in R1. injection R1 as ->. rewrite Nat.ltb_irrefl.
      constructor; cbn [cur kind at_ prop log fibers holder current legal]; auto.
      intros x Y. destruct (K x Y). split; auto. now right.
    + destruct (P c u None X) as (_ & b & Y & _). discriminate.
    + constructor; cbn [cur kind at_ prop log fibers holder current legal]; auto.
      intros x Y. destruct (K x Y). split; auto. now right.
Qed.
End U.
