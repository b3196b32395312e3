(** Invariants of FutureObj.v, part 3: reference counts. *)
From Coq Require Import List Arith Bool Lia.
From Verif Require Import Base Kernel SharedState FutureObj FutureObjSpec FutureObjFacts FutureObjProofs FutureObjProofs2.
Import ListNotations.

Section Proofs.
Context {V E : Type}.
Notation state := (state V E).
Notation op := (op V E).
Notation instr := (instr V E).
Notation frame := (frame V E).
Notation event := (event V E).

(** [f] is about to free [j]. *)
Definition freeing (s : state) (f : fid) (j : sid) : Prop := exists o r rest, frames s f = Some (mkFrame o r (IFree j :: rest)).

Record IC (s : state) : Prop := {
  c_lt : forall l i, pget (ptr s) l = Some i -> i < next s;
  c_cnt : forall i, refs (ptr s) i = cnt s i;
  c_fr : forall i, freed s i = true -> cnt s i = 0 /\ i < next s;
  c_pf : forall f i, freeing s f i -> cnt s i = 0 /\ freed s i = false /\ i < next s;
  c_pu : forall f g i, freeing s f i -> freeing s g i -> f = g;
  c_ex : forall i, i < next s -> cnt s i = 0 -> freed s i = false -> exists f, freeing s f i;
  c_ub : ub s = false }.

Lemma ic_alive (s : state) l j : IC s -> pget (ptr s) l = Some j -> freed s j = false /\ 0 < cnt s j.
Proof.
  intros C H. pose proof (refs_pos _ _ _ H) as P. rewrite (c_cnt _ C) in P. split; auto.
  destruct (freed s j) eqn:Ef; auto. apply (c_fr _ C) in Ef. lia.
Qed.

Lemma ic_quiet (s s' : state) : IC s ->
  (forall l i, pget (ptr s') l = Some i -> i < next s') -> (forall i, refs (ptr s') i = cnt s' i) -> ub s' = false ->
  (forall i, freed s' i = freed s i) -> next s <= next s' -> (forall i, i < next s -> (cnt s' i = 0 <-> cnt s i = 0)) ->
  (forall i, next s <= i -> i < next s' -> cnt s' i <> 0) -> (forall g i, freeing s' g i <-> freeing s g i) -> IC s'.
Proof.
  intros C H1 H2 H3 H4 H5 H6 H7 H8. constructor; auto.
  - intros i. rewrite H4. intros H. destruct (c_fr _ C _ H). split; [|lia]. apply H6; auto.
  - intros f i. rewrite H8. intros H. destruct (c_pf _ C _ _ H) as (X & Y & Z). rewrite H4. splits; auto; [|lia]. apply H6; auto.
  - intros f g i. rewrite !H8. apply (c_pu _ C).
  - intros i Hi Hc Hf. rewrite H4 in Hf. destruct (le_lt_dec (next s) i) as [Hl|Hl]; [exfalso; eapply H7; eauto|].
    destruct (c_ex _ C i) as (f & F); auto; [apply H6; auto|]. exists f. now rewrite H8.
Qed.

Lemma occ_some j i : occ (Some j) i = if Nat.eqb j i then 1 else 0.
Proof. reflexivity. Qed.

Lemma ic_istep (s : state) f o r i rest s' : IA s -> IB s -> IC s -> frames s f = Some (mkFrame o r (i :: rest)) -> istep s f o r i rest s' -> IC s'.
Proof.
  intros A B C Hf Hi. destruct (istep_shape _ _ _ _ _ _ _ Hi) as (_ & _ & Ef & _).
  destruct (next_ok s f o r i rest B Hf (next s)) as (m1 & L1). pose proof (b_nd _ B) as Nd.
  assert (Hd : forall g, freeing s f g -> is_free i = true).
  { intros g (o' & r' & rest' & X). rewrite Hf in X. inversion X; subst. reflexivity. }
  assert (Tl : forall j, In j rest -> is_free j = false) by (intros j Hj; eapply (a_tail _ A f _ i rest j Hf); auto).
  assert (Fq : is_free i = false -> (forall r' p', frames s' f = Some (mkFrame o r' p') -> forall j rest', p' <> IFree j :: rest') -> forall g j, freeing s' g j <-> freeing s g j).
  { intros Q1 Q2 g j. unfold freeing. destruct (Nat.eq_dec g f) as [->|Hne]; [|now rewrite Ef by auto]. split.
    - intros (o' & r' & rest' & X). destruct (istep_shape _ _ _ _ _ _ _ Hi) as (_ & _ & _ & [[-> D]|(r2 & p2 & D & _)]).
      + rewrite D in L1. discriminate.
      + rewrite D in X. inversion X; subst. exfalso. eapply Q2; eauto.
    - intros X. exfalso. rewrite (Hd _ X) in Q1. discriminate. }
  assert (Rh : forall j rest', rest <> IFree j :: rest').
  { intros j rest' ->. specialize (Tl _ (or_introl eq_refl)). discriminate. }
  assert (Al : forall l j, pget (ptr s) l = Some j -> (ub s || freed s j) = false).
  { intros l j Hj. rewrite (c_ub _ C). destruct (ic_alive _ _ _ C Hj) as [-> _]. reflexivity. }
  destruct Hi as [x H|l j -> Hp Hr ->].
  2: { apply (ic_quiet s); auto; simpl; auto.
       - apply (c_lt _ C). - apply (c_cnt _ C). - eauto. - tauto. - intros; lia.
       - apply Fq; auto. intros r' p'. simpl. rewrite upd_same. intros [= <- <-]. auto. }
  destruct i; simpl in H, L1;
    repeat match goal with
    | K : context [match pget (ptr s) ?l with _ => _ end] |- _ => destruct (pget (ptr s) l) eqn:?
    | K : context [match result s ?l with _ => _ end] |- _ => destruct (result s l) eqn:?
    | K : context [if obt s ?l then _ else _] |- _ => destruct (obt s l) eqn:?
    | K : context [match x with _ => _ end] |- _ => destruct x eqn:?
    | K : context [if Nat.eqb (cnt s ?a) ?b then _ else _] |- _ => destruct (Nat.eqb_spec (cnt s a) b) as [?Ec|?Ec]
    end; try discriminate H; try discriminate L1; inversion H; subst s'; clear H;
    try (apply (ic_quiet s); auto; simpl;
       [apply (c_lt _ C)|apply (c_cnt _ C)|eauto using c_ub|tauto|intros; lia|apply Fq; auto; intros r' p'; simpl; rewrite upd_same; intros [= <- <-]; auto; discriminate]; fail).
  - (* INew *)
    assert (Z : refs (ptr s) (next s) = 0).
    { destruct (refs (ptr s) (next s)) eqn:Ez; auto. exfalso. destruct (refs_some (ptr s) (next s) Nd) as (l' & Hl'); [lia|]. apply (c_lt _ C) in Hl'. lia. }
    apply (ic_quiet s); auto; simpl; auto.
    + intros l' j Hj. change (pget (pset (ptr s) l (Some (next s))) l' = Some j) in Hj. rewrite pget_pset, updl_eq in Hj.
      destruct (loc_eqb l' l); [inversion Hj; lia|]. apply (c_lt _ C) in Hj. lia.
    + intros j. pose proof (refs_pset (ptr s) l (Some (next s)) j Nd) as R. rewrite Heqo0 in R. simpl in R. rewrite (c_cnt _ C) in R.
      unfold upd. rewrite Nat.eqb_sym in R. destruct (Nat.eqb_spec j (next s)) as [Ej|Ej]; [rewrite <- (c_cnt _ C) in R; rewrite Ej in *|]; lia.
    + apply (c_ub _ C).
    + intros j Hj. rewrite upd_other by lia. tauto.
    + intros j H1 H2. assert (j = next s) as -> by lia. rewrite upd_same. auto.
    + apply Fq; auto. intros r' p'. simpl. rewrite upd_same. intros [= <- <-]. auto.
  - (* ICopy *) destruct (ic_alive _ _ _ C Heqo1) as [Hfz Hpz].
    apply (ic_quiet s); auto; simpl; auto.
    + intros l' j Hj. change (pget (pset (ptr s) d (Some s1)) l' = Some j) in Hj. rewrite pget_pset, updl_eq in Hj.
      destruct (loc_eqb l' d); [inversion Hj; subst|]; eapply (c_lt _ C); eauto.
    + intros j. pose proof (refs_pset (ptr s) d (Some s1) j Nd) as R. rewrite Heqo0 in R. simpl in R. rewrite (c_cnt _ C) in R.
      unfold upd. rewrite Nat.eqb_sym in R. destruct (Nat.eqb_spec j s1) as [Ej|Ej]; [rewrite Ej in *|]; lia.
    + eauto.
    + intros j Hj. unfold upd. destruct (Nat.eqb_spec j s1) as [Ej|Ej]; [rewrite Ej in *|]; lia.
    + intros j H1 H2. lia.
    + apply Fq; auto. intros r' p'. simpl. rewrite upd_same. intros [= <- <-]. auto.
  - apply (ic_quiet s); auto; simpl; auto.
    + intros l' j Hj. rewrite pget_pswap, !updl_eq in Hj. destruct (loc_eqb l' b), (loc_eqb l' a); eapply (c_lt _ C); eauto.
    + intros j. rewrite refs_pswap by auto. apply (c_cnt _ C).
    + apply (c_ub _ C).
    + tauto.
    + intros; lia.
    + apply Fq; auto. intros r' p'. simpl. rewrite upd_same. intros [= <- <-]. auto.
  - (* IMoveO *) apply (ic_quiet s); auto; simpl; auto.
    + intros l' j Hj. rewrite pget_prem, pget_pset, updl_eq in Hj. destruct (loc_eqb l' s0), (loc_eqb l' d); try discriminate; eapply (c_lt _ C); eauto.
    + intros j. pose proof (refs_pset (ptr s) d (pget (ptr s) s0) j Nd) as R. rewrite Heqo0 in R. simpl in R.
      pose proof (refs_prem (pset (ptr s) d (pget (ptr s) s0)) s0 j (nd_pset _ _ _ Nd)) as R'. rewrite pget_pset, updl_eq in R'.
      rewrite <- (c_cnt _ C). destruct (loc_eqb_spec s0 d) as [->|]; [rewrite Heqo0 in *|]; simpl in *; lia.
    + apply (c_ub _ C).
    + tauto.
    + intros; lia.
    + apply Fq; auto. intros r' p'. simpl. rewrite upd_same. intros [= <- <-]. auto.
  - apply (ic_quiet s); auto; simpl; auto.
    + intros l' j Hj. rewrite pget_pswap, !updl_eq in Hj. destruct (loc_eqb l' b), (loc_eqb l' a); eapply (c_lt _ C); eauto.
    + intros j. rewrite refs_pswap by auto. apply (c_cnt _ C).
    + apply (c_ub _ C).
    + tauto.
    + intros; lia.
    + apply Fq; auto. intros r' p'. simpl. rewrite upd_same. intros [= <- <-]. auto.
  - apply (ic_quiet s); auto; simpl; auto.
    + intros l' j Hj. rewrite pget_pswap, !updl_eq in Hj. destruct (loc_eqb l' t), (loc_eqb l' h); eapply (c_lt _ C); eauto.
    + intros j. rewrite refs_pswap by auto. apply (c_cnt _ C).
    + apply (c_ub _ C).
    + tauto.
    + intros; lia.
    + apply Fq; auto. intros r' p'. simpl. rewrite upd_same. intros [= <- <-]. auto.
  - apply (ic_quiet s); auto; simpl; auto.
    + intros l' j Hj. rewrite pget_pswap, !updl_eq in Hj. destruct (loc_eqb l' t), (loc_eqb l' h); eapply (c_lt _ C); eauto.
    + intros j. rewrite refs_pswap by auto. apply (c_cnt _ C).
    + apply (c_ub _ C).
    + tauto.
    + intros; lia.
    + apply Fq; auto. intros r' p'. simpl. rewrite upd_same. intros [= <- <-]. auto.
  - (* IDrop, last *) destruct (ic_alive _ _ _ C Heqo0) as [Hfz Hpz].
    assert (Fo : forall g j, freeing (cont (with_obt (with_ptr (with_cnt (touch s s0) (upd (cnt s) s0 (Nat.pred (cnt s s0)))) (prem (ptr s) l)) (updl (obt s) l false)) f o r (IFree s0 :: rest)) g j ->
                 (g = f /\ j = s0) \/ (g <> f /\ freeing s g j)).
    { intros g j (o' & r' & rest' & X). simpl in X. destruct (Nat.eq_dec g f) as [->|Hne]; [rewrite upd_same in X|rewrite upd_other in X by auto].
      - inversion X; subst. auto.
      - right. split; auto. unfold freeing. eauto. }
    constructor; simpl.
    + intros l' j Hj. rewrite pget_prem in Hj. destruct (loc_eqb l' l); [discriminate|]. eapply (c_lt _ C); eauto.
    + intros j. pose proof (refs_prem (ptr s) l j Nd) as R. rewrite Heqo0 in R. simpl in R. rewrite (c_cnt _ C) in R. rewrite Nat.eqb_sym in R.
      unfold upd. destruct (Nat.eqb_spec j s0) as [Ej|Ej]; [rewrite Ej in *|]; lia.
    + intros j Hj. destruct (c_fr _ C _ Hj) as [X Y]. split; auto. unfold upd. destruct (Nat.eqb_spec j s0) as [->|]; auto. lia.
    + intros g j Hg. destruct (Fo _ _ Hg) as [[-> ->]|[Hne Hg']].
      * rewrite upd_same. splits; auto; [lia|]. eapply (c_lt _ C); eauto.
      * destruct (c_pf _ C _ _ Hg') as (X & Y & Z). splits; auto. unfold upd. destruct (Nat.eqb_spec j s0) as [->|]; auto. lia.
    + intros g g' j H1 H2. destruct (Fo _ _ H1) as [[-> ->]|[Hne Hg']], (Fo _ _ H2) as [[-> Hq]|[Hne2 Hg2]]; auto.
      * destruct (c_pf _ C _ _ Hg2). lia.
      * subst j. destruct (c_pf _ C _ _ Hg'). lia.
      * eapply (c_pu _ C); eauto.
    + intros j H1 H2 H3. unfold upd in H2. destruct (Nat.eqb_spec j s0) as [->|Hnj].
      * exists f. unfold freeing. simpl. rewrite upd_same. eauto.
      * destruct (c_ex _ C j H1 H2 H3) as (g & Hg). exists g. unfold freeing in *. simpl. rewrite upd_other; auto.
        intros ->. apply Hd in Hg. discriminate.
    + eauto.
  - (* IDrop *) destruct (ic_alive _ _ _ C Heqo0) as [Hfz Hpz].
    apply (ic_quiet s); auto; simpl; auto.
    + intros l' j Hj. rewrite pget_prem in Hj. destruct (loc_eqb l' l); [discriminate|]. eapply (c_lt _ C); eauto.
    + intros j. pose proof (refs_prem (ptr s) l j Nd) as R. rewrite Heqo0 in R. simpl in R. rewrite (c_cnt _ C) in R. rewrite Nat.eqb_sym in R.
      unfold upd. destruct (Nat.eqb_spec j s0) as [Ej|Ej]; [rewrite Ej in *|]; lia.
    + eauto.
    + intros j Hj. unfold upd. destruct (Nat.eqb_spec j s0) as [Ej|Ej]; [rewrite Ej in *|]; lia.
    + intros; lia.
    + apply Fq; auto. intros r' p'. simpl. rewrite upd_same. intros [= <- <-]. auto.
  - (* IFree *)
    assert (Fi : freeing s f i) by (unfold freeing; eauto). destruct (c_pf _ C _ _ Fi) as (Z1 & Z2 & Z3).
    assert (Fo : forall g j, freeing (cont (mkSt (ptr s) (obt s) (live s) (next s) (cnt s) (upd (freed s) i true) (result s) (frames s) (uses s) (ub s || freed s i) (FFree f i :: log s)) f o r rest) g j ->
                 g <> f /\ freeing s g j).
    { intros g j (o' & r' & rest' & X). simpl in X. destruct (Nat.eq_dec g f) as [->|Hne]; [rewrite upd_same in X|rewrite upd_other in X by auto].
      - inversion X; subst. exfalso. eapply Rh; eauto.
      - split; auto. unfold freeing. eauto. }
    constructor; simpl.
    + apply (c_lt _ C).
    + apply (c_cnt _ C).
    + intros j. unfold upd. destruct (Nat.eqb_spec j i) as [->|]; auto. apply (c_fr _ C).
    + intros g j Hg. destruct (Fo _ _ Hg) as [Hne Hg']. destruct (c_pf _ C _ _ Hg') as (X & Y & Z). splits; auto.
      rewrite upd_other; auto. intros ->. apply Hne. eapply (c_pu _ C); eauto.
    + intros g g' j H1 H2. destruct (Fo _ _ H1), (Fo _ _ H2). eapply (c_pu _ C); eauto.
    + intros j H1 H2 H3. unfold upd in H3. destruct (Nat.eqb_spec j i) as [->|Hnj]; [discriminate|].
      destruct (c_ex _ C j H1 H2 H3) as (g & Hg). exists g. unfold freeing in *. simpl. rewrite upd_other; auto.
      intros ->. destruct Hg as (o' & r' & rest' & X). rewrite Hf in X. inversion X. congruence.
    + rewrite Z2, (c_ub _ C). reflexivity.
Qed.

Lemma ic_kstep (s s' : state) : IA s -> IB s -> IC s -> kstep s s' -> IC s'.
Proof.
  intros A B C [f o Hf Ha ->|f o r Hf ->|f o r i rest Hf Hi]; [| |eapply ic_istep; eauto].
  - apply (ic_quiet s); auto; simpl; try apply C; auto; [tauto|intros; lia|].
    intros g i. unfold freeing. simpl. destruct (Nat.eq_dec g f) as [->|Hne]; [|now rewrite upd_other]. rewrite upd_same, Hf.
    split; intros (o' & r' & rest & X); [|discriminate]. exfalso. injection X as _ _ Hp.
    destruct (allowed_spec _ _ Ha) as (Ht & _). destruct (compile_prog s f o (IFree i) Ht) as (_ & _ & _ & Q); [|discriminate].
    rewrite Hp. now left.
  - apply (ic_quiet s); auto; simpl; try apply C; auto; [tauto|intros; lia|].
    intros g i. unfold freeing. simpl. destruct (Nat.eq_dec g f) as [->|Hne]; [|now rewrite upd_other]. rewrite upd_same, Hf.
    split; intros (o' & r' & rest & X); discriminate.
Qed.
Lemma ic_reachable s : reachable step init s -> IC s.
Proof.
  apply reachable_inv2.
  - constructor; simpl; try discriminate; auto; try lia.
    + intros f i (o & r & rest & X). discriminate.
    + intros f g i (o & r & rest & X). discriminate.
  - intros s1 lb s2 R C H. eapply ic_kstep; eauto using ia_reachable, ib_reachable, kstep_reachable.
Qed.
End Proofs.
