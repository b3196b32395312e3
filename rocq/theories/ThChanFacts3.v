(** One consumer is not left asleep (for C123). *)
From Coq Require Import List Arith Bool Lia.
From Verif Require Import Base ThChan ThChanSpec ThChanFacts ThChanFacts2.
Import ListNotations.

Definition cons (p : pc_t) : bool := match p with CLoad | CCyc _ | CCas _ | CRead _ | CFree _ _ | CNote _ | CEmpty | CChk _ | CIdx _ | CTst _ _ | CGo | CSleep | CWake => true | _ => false end.
Definition wts (p : pc_t) : bool := match p with CChk _ | CIdx _ | CTst _ _ | CGo | CSleep | CWake => true | _ => false end.
Definition gs (p : pc_t) : bool := match p with CGo | CSleep => true | _ => false end.
Definition noted (p : pc_t) : bool := match p with PNote _ => true | _ => false end.
Section Cap.
Variable cap c : nat.
Record cinv (s : st) : Prop := {
  c_cons : forall t, t <> c -> cons (pc s t) = false;
  c_tst : forall b i, pc s c = CTst b i -> i = cidx s;
  c_wait : wts (pc s c) = true -> 0 < waiting s;
  c_w : gs (pc s c) = true -> cyc s (slot cap (cidx s)) = S (cidx s) -> exists t, noted (pc s t) = true
}.
Lemma cinv_init : cinv init_state.
Proof. split; simpl; auto; discriminate. Qed.
Lemma c_other : forall s s' t p, cinv s -> t <> c -> pc s' = upd (pc s) t p -> cons p = false -> cidx s' = cidx s -> waiting s' = waiting s ->
  (noted p = true \/ cyc s' = cyc s /\ (noted (pc s t) = true -> gs (pc s c) = true -> False)) -> cinv s'.
Proof.
  intros s s' t p [A B C D] N P Cp Ci Wa X. assert (Pc : pc s' c = pc s c) by (rewrite P, upd_other; auto).
  split; rewrite ?Pc, ?Ci, ?Wa; auto.
  - intros u Nu. rewrite P. destruct (Nat.eq_dec u t) as [->|]; [rewrite upd_same|rewrite upd_other by auto]; auto.
  - destruct X as [X|(X1 & X2)]; [intros; exists t; now rewrite P, upd_same|]. rewrite X1. intros G H. destruct (D G H) as (u & U). exists u. rewrite P, upd_other; auto. intros ->. auto.
Qed.
Lemma c_self : forall s s' p, cinv s -> pc s' = upd (pc s) c p -> (forall b i, p = CTst b i -> i = cidx s') -> (wts p = true -> 0 < waiting s') ->
  (gs p = true -> cidx s' = cidx s /\ cyc s' = cyc s /\ (cyc s (slot cap (cidx s)) <> S (cidx s) \/ gs (pc s c) = true)) -> cinv s'.
Proof.
  intros s s' p [A B C D] P T Wa X. split; rewrite ?P, ?upd_same; auto.
  - intros u Nu. rewrite upd_other; auto.
  - intros G H. destruct (X G) as (X1 & X2 & [X3|X3]); rewrite X1, X2 in H; [contradiction|]. destruct (D X3 H) as (u & U). exists u. rewrite upd_other; auto. intros ->. destruct (pc s c); simpl in *; discriminate.
Qed.
Ltac oth t p N := match goal with Ci : cinv ?s, P : pc ?s t = _ |- _ => apply (c_other s _ t p Ci N); try reflexivity; rewrite ?P; simpl; auto; right; split; auto; discriminate end.
Ltac slf p := match goal with Ci : cinv ?s |- _ => apply (c_self s _ p Ci); try reflexivity; simpl; try (intros; discriminate); auto; try lia end.
Lemma cinv_run : forall s t s', binv s -> cinv s -> run cap s t = Some s' -> cinv s'.
Proof.
  intros s t s' Bi Ci H. unfold run in H. destruct (Nat.eq_dec t c) as [->|N].
  - assert (W : wts (pc s c) = true -> 0 < waiting s) by apply Ci. pose proof (c_tst s Ci) as T. destruct (pc s c) eqn:P; try discriminate; cbn [wts] in W.
    + destruct (closed s); injection H as <-; [slf Idle|slf (PLoad v)].
    + injection H as <-. slf (PCyc v (pidx s)).
    + injection H as <-. destruct (_ =? _); [slf (PCas v i)|]. destruct (_ <? _); [slf (PFull v)|slf (PLoad v)].
    + destruct (_ =? _); injection H as <-; [slf (PWrite v i)|slf (PCyc v (pidx s))].
    + injection H as <-. slf (PPub v i).
    + injection H as <-. slf (PNote v).
    + destruct (mtx s); [discriminate|]. destruct (_ || _); [|discriminate]. injection H as <-. slf Idle.
    + destruct (mtx s); [discriminate|]. injection H as <-. slf (PChk v false).
    + destruct (closed s); [destruct b|]; injection H as <-; [slf (PIn v)|slf Idle|slf (PIdx v b)].
    + injection H as <-. slf (PTst v b (pidx s)).
    + destruct (_ <? _); [destruct b|]; injection H as <-; [slf (PGo v)|slf (PChk v true)|slf (PIn v)].
    + injection H as <-. slf (PSleep v).
    + destruct (mtx s); [discriminate|]. injection H as <-. slf (PChk v true).
    + injection H as <-. slf (CCyc (cidx s)).
    + injection H as <-. destruct (_ =? _); [slf (CCas i)|]. destruct (_ <? _); [slf CEmpty|slf CLoad].
    + destruct (_ =? _); injection H as <-; [slf (CRead i)|slf (CCyc (cidx s))].
    + destruct (stor s (slot cap i)) as [v|]; injection H as <-; [slf (CFree i v)|slf Idle].
    + injection H as <-. slf (CNote v).
    + destruct (nfull s); [|discriminate]. injection H as <-. slf Idle.
    + destruct (mtx s); [discriminate|]. injection H as <-. slf (CChk false).
    + destruct (closed s); [destruct b|]; injection H as <-; [slf CLoad|slf Idle|slf (CIdx b)].
    + injection H as <-. slf (CTst b (cidx s)). intros b0 i0 E. now injection E.
    + specialize (T b i eq_refl). subst i. destruct (Nat.ltb_spec (cyc s (slot cap (cidx s))) (S (cidx s))) as [L|L]; [destruct b|destruct b]; injection H as <-; [slf CGo|slf (CChk true)|slf CLoad|slf CLoad].
      intros _. splits; auto. left. lia.
    + injection H as <-. slf CSleep. rewrite P. auto.
    + destruct (mtx s); [discriminate|]. injection H as <-. slf (CChk true).
  - pose proof (c_cons s Ci t N) as Cn. destruct (pc s t) eqn:P; try discriminate; clear Cn.
    + destruct (closed s); injection H as <-; [oth t Idle N|oth t (PLoad v) N].
    + injection H as <-. oth t (PCyc v (pidx s)) N.
    + injection H as <-. destruct (_ =? _); [oth t (PCas v i) N|]. destruct (_ <? _); [oth t (PFull v) N|oth t (PLoad v) N].
    + destruct (_ =? _); injection H as <-; [oth t (PWrite v i) N|oth t (PCyc v (pidx s)) N].
    + injection H as <-. oth t (PPub v i) N.
    + injection H as <-. apply (c_other s _ t (PNote v) Ci N); auto.
    + destruct (mtx s) eqn:M; [discriminate|]. destruct (_ || _) eqn:X; [|discriminate]. injection H as <-. apply (c_other s _ t Idle Ci N); auto. right. split; auto. intros _ G.
      apply orb_true_iff in X. destruct (pc s c) eqn:Pc; try discriminate.
      * pose proof (b_in s Bi c) as Y. rewrite Pc in Y. specialize (Y eq_refl). congruence.
      * destruct X as [X|X]; [apply Nat.eqb_eq in X; pose proof (c_wait s Ci) as Y; rewrite Pc in Y; specialize (Y eq_refl); lia|]. pose proof (proj2 (b_ne s Bi c)) as Y. rewrite Pc in Y. specialize (Y eq_refl). destruct (nempty s); [destruct Y|discriminate].
    + destruct (mtx s); [discriminate|]. injection H as <-. oth t (PChk v false) N.
    + destruct (closed s); [destruct b|]; injection H as <-; [oth t (PIn v) N|oth t Idle N|oth t (PIdx v b) N].
    + injection H as <-. oth t (PTst v b (pidx s)) N.
    + destruct (_ <? _); [destruct b|]; injection H as <-; [oth t (PGo v) N|oth t (PChk v true) N|oth t (PIn v) N].
    + injection H as <-. oth t (PSleep v) N.
    + destruct (mtx s); [discriminate|]. injection H as <-. oth t (PChk v true) N.
Qed.
Lemma cinv_step : forall s l s', binv s -> cinv s -> one_consumer cap c s l = Some s' -> cinv s'.
Proof.
  intros s l s' Bi Ci H. destruct l as [t v|t|t|t|t|t u]; unfold one_consumer, step in H.
  - destruct (pc s t) eqn:P; try discriminate. injection H as <-. destruct (Nat.eq_dec t c) as [->|N]; [slf (PIn v)|oth t (PIn v) N].
  - destruct (Nat.eqb_spec t c) as [->|]; [|discriminate]. destruct (pc s c) eqn:P; try discriminate. injection H as <-. slf CLoad.
  - destruct (pc s t) eqn:P; try discriminate. destruct (mtx s) eqn:M; [discriminate|]. injection H as <-. destruct Ci as [A B C D]. split; simpl.
    + intros w N. specialize (A w N). destruct (pc s w); simpl in *; auto.
    + intros b i. pose proof (b_in s Bi c) as Y. destruct (pc s c); simpl; try discriminate. specialize (Y eq_refl). congruence.
    + destruct (pc s c); simpl in *; auto.
    + pose proof (b_in s Bi c) as Y. destruct (pc s c); simpl in *; try discriminate. specialize (Y eq_refl). congruence.
  - eapply cinv_run; eauto.
  - destruct (pc s t) eqn:P; try discriminate; injection H as <-; (destruct (Nat.eq_dec t c) as [->|N]).
    + slf (PCyc v (pidx s)).
    + oth t (PCyc v (pidx s)) N.
    + slf (CCyc (cidx s)).
    + pose proof (c_cons s Ci t N) as X. rewrite P in X. discriminate.
  - destruct (pc s t) eqn:P; try discriminate.
    + destruct (mtx s) eqn:M; [discriminate|]. destruct (_ && existsb _ _) eqn:X; [|discriminate]. apply andb_true_iff in X. destruct X as (_ & X). apply existsb_exists in X. destruct X as (w & X & Y). apply Nat.eqb_eq in Y. subst w. injection H as <-.
      apply (b_ne s Bi) in X. destruct (pc s u) eqn:Pu; try discriminate. assert (u = c) by (destruct (Nat.eq_dec u c) as [|N]; auto; pose proof (c_cons s Ci u N) as Z; rewrite Pu in Z; discriminate). subst u.
      assert (N : t <> c) by congruence. destruct Ci as [A B C D]. split; simpl; rewrite ?upd_same, ?(upd_other _ _ _ c) by auto; try rewrite upd_same; try discriminate.
      * intros w Nw. destruct (Nat.eq_dec w t) as [->|]; [now rewrite upd_same|]. rewrite !upd_other; auto.
      * intros _. apply C. rewrite Pu. auto.
    + destruct (existsb _ _) eqn:X; [|discriminate]. apply existsb_exists in X. destruct X as (w & X & Y). apply Nat.eqb_eq in Y. subst w. injection H as <-.
      assert (t = c) by (destruct (Nat.eq_dec t c) as [|N]; auto; pose proof (c_cons s Ci t N) as Z; rewrite P in Z; discriminate). subst t.
      apply (b_nf s Bi) in X. destruct (pc s u) eqn:Pu; try discriminate. assert (N : u <> c) by congruence. destruct Ci as [A B C D]. split; simpl; rewrite ?upd_same; try discriminate.
      * intros w Nw. rewrite upd_other by auto. destruct (Nat.eq_dec w u) as [->|]; [now rewrite upd_same|]. rewrite !upd_other; auto.
Qed.
Lemma one_step : forall s l s', one_consumer cap c s l = Some s' -> step cap s l = Some s'.
Proof. intros s l s'. unfold one_consumer. destruct l; auto. destruct (Nat.eqb t c); auto. discriminate. Qed.
Lemma one_reach : forall s, reachable (one_consumer cap c) init_state s -> reachable (step cap) init_state s /\ cinv s.
Proof.
  apply (reachable_inv (one_consumer cap c) (fun s => reachable (step cap) init_state s /\ cinv s) init_state).
  - split; [apply reachable_refl|apply cinv_init].
  - intros s l s' (R & Ci) H. split; [exact (reachable_step _ _ _ _ _ R (one_step _ _ _ H))|]. eapply cinv_step; eauto. eapply binv_reach; eauto.
Qed.
End Cap.
