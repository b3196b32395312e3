(** Facts about blocking in the channel for threads of the benchmarks (for C123). *)
From Coq Require Import List Arith Bool Lia.
From Verif Require Import Base ThChan ThChanSpec ThChanFacts.
Import ListNotations.

(** Points inside the critical section of mtx_, and those at which a closed channel is not possible. *)
Definition inside (p : pc_t) : bool := match p with PChk _ _ | PIdx _ _ | PTst _ _ _ | PGo _ | CChk _ | CIdx _ | CTst _ _ | CGo => true | _ => false end.
Definition opened (p : pc_t) : bool := match p with PIdx _ _ | PTst _ _ _ | PGo _ | PSleep _ | CIdx _ | CTst _ _ | CGo | CSleep => true | _ => false end.
Definition psl (p : pc_t) : bool := match p with PSleep _ => true | _ => false end.
Definition csl (p : pc_t) : bool := match p with CSleep => true | _ => false end.
Record binv (s : st) : Prop := {
  b_in : forall t, inside (pc s t) = true -> mtx s = Some t;
  b_mtx : forall t, mtx s = Some t -> inside (pc s t) = true;
  b_open : closed s = true -> forall t, opened (pc s t) = false;
  b_nf : forall t, In t (nfull s) <-> psl (pc s t) = true;
  b_ne : forall t, In t (nempty s) <-> csl (pc s t) = true
}.
Section Cap.
Variable cap : nat.
Lemma binv_init : binv init_state.
Proof. split; simpl; intros; try discriminate; auto; split; intros; try discriminate; tauto. Qed.
(** A step of one thread that does not sleep before and after it. *)
Lemma b_go : forall s s' t p, binv s -> pc s' = upd (pc s) t p -> nfull s' = nfull s -> nempty s' = nempty s -> closed s' = closed s ->
  psl (pc s t) = false -> csl (pc s t) = false -> psl p = false -> csl p = false ->
  (closed s = true -> opened p = false) ->
  (inside (pc s t) = true /\ inside p = true /\ mtx s' = mtx s \/ inside (pc s t) = true /\ inside p = false /\ mtx s' = None \/ inside (pc s t) = false /\ inside p = true /\ mtx s = None /\ mtx s' = Some t \/ inside (pc s t) = false /\ inside p = false /\ mtx s' = mtx s) -> binv s'.
Proof.
  intros s s' t p [A B C D E] P N1 N2 Cl S1 S2 S3 S4 O M. split; rewrite ?P, ?N1, ?N2, ?Cl.
  - intros u. destruct (Nat.eq_dec u t) as [->|Nu]; [rewrite upd_same|rewrite upd_other by auto]; intros H.
    + destruct M as [(M1 & M2 & M3)|[(M1 & M2 & M3)|[(M1 & M2 & M3 & M4)|(M1 & M2 & M3)]]]; try congruence. rewrite M3. auto.
    + pose proof (A u H) as X. destruct M as [(M1 & M2 & M3)|[(M1 & M2 & M3)|[(M1 & M2 & M3 & M4)|(M1 & M2 & M3)]]]; try congruence. pose proof (A t M1). congruence.
  - intros u H. destruct (Nat.eq_dec u t) as [->|Nu]; [rewrite upd_same|rewrite upd_other by auto].
    + destruct M as [(M1 & M2 & M3)|[(M1 & M2 & M3)|[(M1 & M2 & M3 & M4)|(M1 & M2 & M3)]]]; try congruence. rewrite M3 in H. specialize (B t H). congruence.
    + destruct M as [(M1 & M2 & M3)|[(M1 & M2 & M3)|[(M1 & M2 & M3 & M4)|(M1 & M2 & M3)]]]; try congruence; apply B; congruence.
  - intros H u. destruct (Nat.eq_dec u t) as [->|Nu]; [rewrite upd_same|rewrite upd_other by auto]; auto.
  - intros u. destruct (Nat.eq_dec u t) as [->|Nu]; [rewrite upd_same|rewrite upd_other by auto]; auto. rewrite D, S1, S3. tauto.
  - intros u. destruct (Nat.eq_dec u t) as [->|Nu]; [rewrite upd_same|rewrite upd_other by auto]; auto. rewrite E, S2, S4. tauto.
Qed.
Lemma inside_woken : forall p, inside (woken p) = inside p.
Proof. destruct p; auto. Qed.
(** One thread is notified. *)
Lemma b_wake : forall s u, binv s -> (In u (nempty s) -> binv (sleepers (go s u (woken (pc s u))) (nfull s) (without u (nempty s)))) /\ (In u (nfull s) -> binv (sleepers (go s u (woken (pc s u))) (without u (nfull s)) (nempty s))).
Proof.
  intros s u [A B C D E]. split; intros Iu; split; cbn [sleepers go pc mtx closed nfull nempty].
  1, 6: intros t; destruct (Nat.eq_dec t u) as [->|Nu]; [rewrite upd_same, inside_woken|rewrite upd_other by auto]; auto.
  1, 5: intros t; destruct (Nat.eq_dec t u) as [->|Nu]; [rewrite upd_same, inside_woken|rewrite upd_other by auto]; auto.
  1, 4: intros H t; destruct (Nat.eq_dec t u) as [->|Nu]; [rewrite upd_same|rewrite upd_other by auto]; auto; pose proof (C H u); destruct (pc s u); simpl in *; auto.
  - intros t. apply E in Iu. destruct (Nat.eq_dec t u) as [->|Nu]; [rewrite upd_same|rewrite upd_other by auto]; auto. rewrite D. destruct (pc s u); simpl in *; try discriminate. tauto.
  - intros t. unfold without. apply E in Iu. destruct (Nat.eq_dec t u) as [->|Nu]; [rewrite upd_same|rewrite upd_other by auto].
    + split; [intros H; destruct (remove_In _ _ _ H)|]. destruct (pc s u); simpl in *; discriminate.
    + rewrite <- E. split; [intros H; eapply in_remove; eauto|intros H; apply in_in_remove; auto].
  - intros t. unfold without. apply D in Iu. destruct (Nat.eq_dec t u) as [->|Nu]; [rewrite upd_same|rewrite upd_other by auto].
    + split; [intros H; destruct (remove_In _ _ _ H)|]. destruct (pc s u); simpl in *; discriminate.
    + rewrite <- D. split; [intros H; eapply in_remove; eauto|intros H; apply in_in_remove; auto].
  - intros t. apply D in Iu. destruct (Nat.eq_dec t u) as [->|Nu]; [rewrite upd_same|rewrite upd_other by auto]; auto. rewrite E. destruct (pc s u); simpl in *; try discriminate. tauto.
Qed.
Ltac bgo t p := match goal with Bi : binv ?s, P : pc ?s t = _ |- _ => apply (b_go s _ t p Bi); try reflexivity; rewrite ?P; simpl; auto 8; try (intros; congruence) end.
Lemma binv_run : forall s t s', binv s -> run cap s t = Some s' -> binv s'.
Proof.
  intros s t s' Bi H. pose proof (b_open s Bi) as Op. unfold run in H. destruct (pc s t) eqn:P; try discriminate.
  - destruct (closed s) eqn:Cl; injection H as <-; [bgo t Idle|bgo t (PLoad v)].
  - injection H as <-. bgo t (PCyc v (pidx s)).
  - injection H as <-. destruct (cyc s (slot cap i) =? i); [bgo t (PCas v i)|]. destruct (cyc s (slot cap i) <? i); [bgo t (PFull v)|bgo t (PLoad v)].
  - destruct (_ =? _); injection H as <-; [bgo t (PWrite v i)|bgo t (PCyc v (pidx s))].
  - injection H as <-. bgo t (PPub v i).
  - injection H as <-. bgo t (PNote v).
  - destruct (mtx s) eqn:M; [discriminate|]. destruct (_ || _); [|discriminate]. injection H as <-. bgo t Idle.
  - destruct (mtx s) eqn:M; [discriminate|]. injection H as <-. bgo t (PChk v false).
  - destruct (closed s) eqn:Cl; [destruct b|]; injection H as <-; [bgo t (PIn v)|bgo t Idle|bgo t (PIdx v b)].
  - injection H as <-. bgo t (PTst v b (pidx s)). intros Cl. specialize (Op Cl t). rewrite P in Op. discriminate.
  - destruct (_ <? _); [destruct b|]; injection H as <-; [bgo t (PGo v); intros Cl; specialize (Op Cl t); rewrite P in Op; discriminate|bgo t (PChk v true)|bgo t (PIn v)].
  - injection H as <-. pose proof Bi as [A B C D E]. assert (Mt : mtx s = Some t) by (apply A; rewrite P; auto). split; cbn [sleepers go lock pc mtx closed nfull nempty].
    + intros u. destruct (Nat.eq_dec u t) as [->|Nu]; [rewrite upd_same; discriminate|rewrite upd_other by auto]. intros X. pose proof (A u X). congruence.
    + discriminate.
    + intros Cl. pose proof (C Cl t) as X. rewrite P in X. discriminate.
    + intros u. destruct (Nat.eq_dec u t) as [->|Nu]; [rewrite upd_same; simpl; tauto|rewrite upd_other by auto]. rewrite <- D. simpl. intuition congruence.
    + intros u. destruct (Nat.eq_dec u t) as [->|Nu]; [rewrite upd_same; rewrite E, P; simpl; tauto|rewrite upd_other by auto; auto].
  - destruct (mtx s) eqn:M; [discriminate|]. injection H as <-. bgo t (PChk v true).
  - injection H as <-. bgo t (CCyc (cidx s)).
  - injection H as <-. destruct (cyc s (slot cap i) =? S i); [bgo t (CCas i)|]. destruct (cyc s (slot cap i) <? S i); [bgo t CEmpty|bgo t CLoad].
  - destruct (_ =? _); injection H as <-; [bgo t (CRead i)|bgo t (CCyc (cidx s))].
  - destruct (stor s (slot cap i)) as [v|]; injection H as <-; [bgo t (CFree i v)|bgo t Idle].
  - injection H as <-. bgo t (CNote v).
  - destruct (nfull s) eqn:N; [|discriminate]. injection H as <-. bgo t Idle.
  - destruct (mtx s) eqn:M; [discriminate|]. injection H as <-. bgo t (CChk false).
  - destruct (closed s) eqn:Cl; [destruct b|]; injection H as <-; [bgo t CLoad|bgo t Idle|bgo t (CIdx b)].
  - injection H as <-. bgo t (CTst b (cidx s)). intros Cl. specialize (Op Cl t). rewrite P in Op. discriminate.
  - destruct (_ <? _); [destruct b|destruct b]; injection H as <-; [bgo t CGo; intros Cl; specialize (Op Cl t); rewrite P in Op; discriminate|bgo t (CChk true)|bgo t CLoad|bgo t CLoad].
  - injection H as <-. pose proof Bi as [A B C D E]. assert (Mt : mtx s = Some t) by (apply A; rewrite P; auto). split; cbn [sleepers go lock pc mtx closed nfull nempty].
    + intros u. destruct (Nat.eq_dec u t) as [->|Nu]; [rewrite upd_same; discriminate|rewrite upd_other by auto]. intros X. pose proof (A u X). congruence.
    + discriminate.
    + intros Cl. pose proof (C Cl t) as X. rewrite P in X. discriminate.
    + intros u. destruct (Nat.eq_dec u t) as [->|Nu]; [rewrite upd_same; rewrite D, P; simpl; tauto|rewrite upd_other by auto; auto].
    + intros u. destruct (Nat.eq_dec u t) as [->|Nu]; [rewrite upd_same; simpl; tauto|rewrite upd_other by auto]. rewrite <- E. simpl. intuition congruence.
  - destruct (mtx s) eqn:M; [discriminate|]. injection H as <-. bgo t (CChk true).
Qed.
Lemma binv_step : forall s l s', binv s -> step cap s l = Some s' -> binv s'.
Proof.
  intros s l s' Bi H. destruct l as [t v|t|t|t|t|t u]; unfold step in H.
  - destruct (pc s t) eqn:P; try discriminate. injection H as <-. bgo t (PIn v).
  - destruct (pc s t) eqn:P; try discriminate. injection H as <-. bgo t CLoad.
  - destruct (pc s t) eqn:P; try discriminate. destruct (mtx s) eqn:M; [discriminate|]. injection H as <-. destruct Bi as [A B C D E].
    assert (NI : forall u, inside (pc s u) = false) by (intros u; destruct (inside (pc s u)) eqn:X; auto; specialize (A u X); congruence).
    split; simpl; try discriminate.
    + intros u. rewrite inside_woken, NI. discriminate.
    + intros _ u. specialize (NI u). destruct (pc s u); simpl in *; auto; discriminate.
    + intros u. split; [tauto|]. destruct (pc s u); simpl; discriminate.
    + intros u. split; [tauto|]. destruct (pc s u); simpl; discriminate.
  - eapply binv_run; eauto.
  - destruct (pc s t) eqn:P; try discriminate; injection H as <-; [bgo t (PCyc v (pidx s))|bgo t (CCyc (cidx s))].
  - destruct (pc s t) eqn:P; try discriminate.
    + destruct (mtx s) eqn:M; [discriminate|]. destruct (_ && existsb _ _) eqn:X; [|discriminate]. apply andb_true_iff in X. destruct X as (_ & X). apply existsb_exists in X. destruct X as (w & X & Y). apply Nat.eqb_eq in Y. subst w. injection H as <-.
      pose proof (proj1 (b_wake s u Bi) X) as B2. assert (P2 : pc (sleepers (go s u (woken (pc s u))) (nfull s) (without u (nempty s))) t = PNote v) by (simpl; destruct (Nat.eq_dec t u) as [->|N]; [rewrite upd_same, P; auto|rewrite upd_other; auto]).
      apply (b_go _ _ t Idle B2); try reflexivity; rewrite ?P2; simpl; auto 8.
    + destruct (existsb _ _) eqn:X; [|discriminate]. apply existsb_exists in X. destruct X as (w & X & Y). apply Nat.eqb_eq in Y. subst w. injection H as <-.
      pose proof (proj2 (b_wake s u Bi) X) as B2. assert (P2 : pc (sleepers (go s u (woken (pc s u))) (without u (nfull s)) (nempty s)) t = CNote v) by (simpl; destruct (Nat.eq_dec t u) as [->|N]; [rewrite upd_same, P; auto|rewrite upd_other; auto]).
      apply (b_go _ _ t Idle B2); try reflexivity; rewrite ?P2; simpl; auto 8.
Qed.
Lemma binv_reach : forall s, reachable (step cap) init_state s -> binv s.
Proof. exact (reachable_inv (step cap) binv init_state binv_init binv_step). Qed.

(** If nothing can go on, every thread is outside the channel or asleep in it. *)
Lemma stuck_cases : forall s, binv s -> stuck cap s -> mtx s = None /\ forall t, pc s t = Idle \/ asleep s t.
Proof.
  intros s Bi St.
  assert (M : mtx s = None).
  { destruct (mtx s) as [t|] eqn:M; auto. pose proof (b_mtx s Bi t M) as X. destruct (St t) as (Y & _). unfold run in Y. destruct (pc s t); simpl in X; try discriminate; exfalso.
    - destruct (closed s); [destruct b|]; discriminate.
    - destruct (_ <? _); discriminate.
    - destruct (closed s); [destruct b|]; discriminate.
    - destruct (_ <? _); [|destruct b]; discriminate. }
  split; auto. intros t. destruct (St t) as (Y & _ & Z). unfold run in Y. unfold asleep. destruct (pc s t) eqn:P; eauto; try discriminate; exfalso; rewrite ?M in Y; try discriminate.
  - destruct (closed s); discriminate.
  - destruct (_ =? _); discriminate.
  - destruct (_ || _) eqn:X; [discriminate|]. apply orb_false_iff in X. destruct X as (X1 & X2). destruct (nempty s) as [|u l] eqn:N; [discriminate|]. specialize (Z u). simpl in Z. rewrite P, M, N in Z. simpl in Z. rewrite Nat.eqb_refl in Z. destruct (waiting s); [discriminate|]. simpl in Z. discriminate.
  - destruct (closed s); [destruct b|]; discriminate.
  - destruct (_ <? _); discriminate.
  - destruct (_ =? _); discriminate.
  - destruct (stor s _); discriminate.
  - destruct (nfull s) as [|u l] eqn:N; [discriminate|]. specialize (Z u). simpl in Z. rewrite P, N in Z. simpl in Z. rewrite Nat.eqb_refl in Z. discriminate.
  - destruct (closed s); [destruct b|]; discriminate.
  - destruct (_ <? _); [|destruct b]; discriminate.
Qed.
Lemma closed_awake : forall s, binv s -> closed s = true -> forall t, ~ asleep s t.
Proof. intros s Bi Cl t [(v & P)|P]; pose proof (b_open s Bi Cl t) as X; rewrite P in X; discriminate. Qed.
End Cap.
