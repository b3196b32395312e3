(** Facts about BarrierHb. *)
From Coq Require Import List Arith Bool Lia.
From Verif Require Import Base MutexHb MutexHbFacts BarrierHb BarrierHbSpec.
Import ListNotations.

Definition bknown (s : bst) : list nat := match bown s with None => bmv s | Some t => bview s t end.
Definition holdp (p : bpc) : Prop := match p with BBody | BUnlT _ _ | BPred _ _ | BWait _ _ | BUnlF _ _ => True | _ => False end.
Definition pcok (n : nat) (s : bst) (t : nat) (p : bpc) : Prop :=
  match p with
  | BUnlT k c | BNot k c | BUnlF k c => In (AArr t k) (blog s) /\ k / n = c /\ forall j, j / n = c -> seen (blog s) j (bview s t)
  | BPred k c | BWait k c | BSusp k c | BRelock k c => In (AArr t k) (blog s) /\ k / n = c /\ c <= cyc s
  | _ => True
  end.
Record binv (n : nat) (s : bst) : Prop := {
  b_cnt : arr s + cur s = cyc s * n + n /\ 1 <= cur s <= n;
  b_arr : forall j, j < arr s -> seen (blog s) j (bknown s);
  b_acc : incl (bacc s) (bknown s);
  b_act : forall t a, In (AAct t a) (blog s) -> In a (bview s t);
  b_own : forall t, bown s = Some t <-> holdp (bpcs s t);
  b_pc : forall t, pcok n s t (bpcs s t);
  b_num : arrivals (blog s) = rev (seq 0 (arr s));
  b_race : race_free (blog s);
  b_all : all_before n (blog s) }.

Lemma seen_up : forall l l' j w w', seen l j w -> incl w w' -> seen (l' ++ l) j w'.
Proof. intros l l' j w w' (u & l1 & l2 & A & B) H. exists u, (l' ++ l1), l2. split; [rewrite A, app_assoc; auto|]. intros a X. apply H. auto. Qed.
Lemma div_lt : forall n j c, 0 < n -> j / n = c -> j < c * n + n.
Proof. intros n j c H E. pose proof (Nat.div_mod j n). pose proof (Nat.mod_upper_bound j n). nia. Qed.

Section Step.
Variable n : nat.
Hypothesis N1 : 1 <= n.

Lemma binit_inv : binv n (binit n).
Proof.
  constructor; simpl; auto; try tauto; try lia.
  - intros x [].
  - intros t. split; [discriminate | tauto].
  - intros t [].
  - intros l1 t k b w l2 H. destruct l1; discriminate.
Qed.

(** A step of fiber t. *)
Lemma bmono : forall s s' t e, binv n s ->
  (forall u, u <> t -> bview s' u = bview s u /\ bpcs s' u = bpcs s u) -> incl (bview s t) (bview s' t) -> blog s' = e ++ blog s -> incl (bknown s) (bknown s') -> cyc s <= cyc s' ->
  (arr s' = arr s \/ (arr s' = S (arr s) /\ exists e', e = [AArr t (arr s)] /\ e' = e)) ->
  arr s' + cur s' = cyc s' * n + n -> 1 <= cur s' <= n ->
  incl (bacc s') (bknown s') ->
  (forall u, bown s' = Some u <-> holdp (bpcs s' u)) -> pcok n s' t (bpcs s' t) ->
  match e with [] => arr s' = arr s | [AAct u a] => arr s' = arr s /\ u = t /\ In a (bview s' t) | [AArr u k] => u = t /\ k = arr s /\ arr s' = S (arr s) /\ incl (bview s t) (bknown s') | [ARet u k b w] => arr s' = arr s /\ u = t /\ In (AArr t k) (blog s) /\ (forall j, j / n = k / n -> seen (blog s) j w) | _ => False end ->
  binv n s'.
Proof.
  intros s s' t e I HU HV HL HK HC HA C1 C2 AC OW PC HE.
  assert (forall u, incl (bview s u) (bview s' u)) as V.
  { intros u. destruct (Nat.eq_dec u t) as [->|X]; auto. destruct (HU u X) as (-> & _). apply incl_refl. }
  assert (forall j w w', seen (blog s) j w -> incl w w' -> seen (blog s') j w') as SU by (intros; rewrite HL; eapply seen_up; eauto).
  constructor; auto.
  - intros j J. destruct (Nat.eq_dec j (arr s)) as [->|X].
    + destruct HA as [HA|(HA & e' & HA1 & _)]; [lia|]. subst e. destruct HE as (_ & _ & _ & HE). exists t, [], (blog s). rewrite HL. split; auto. intros a Y. apply HE. apply (b_act n s I); auto.
    + apply (SU j (bknown s)); auto. apply (b_arr n s I). destruct HA as [HA|(HA & _)]; lia.
  - intros u a X. rewrite HL in X. apply in_app_or in X. destruct X as [X|X]; [|apply V, (b_act n s I); auto].
    destruct e as [|x [|y e]]; [destruct X | | destruct x; destruct HE]. destruct X as [X|[]]. subst x. destruct HE as (_ & -> & HE). auto.
  - intros u. destruct (Nat.eq_dec u t) as [->|X]; auto. destruct (HU u X) as (A & B). rewrite B. pose proof (b_pc n s I u) as P. unfold pcok in P |- *.
    assert (forall k, In (AArr u k) (blog s) -> In (AArr u k) (blog s')) as IN by (intros; rewrite HL; apply in_or_app; auto).
    destruct (bpcs s u); auto; destruct P as (P1 & P2 & P3); splits; auto; try lia; intros j J; apply (SU j (bview s u)); auto.
  - rewrite HL. destruct e as [|x [|y e]]; [simpl; rewrite HE; apply (b_num n s I) | | destruct x; destruct HE].
    destruct x; simpl; try (destruct HE as (-> & _); apply (b_num n s I)).
    + destruct HE as (_ & -> & -> & _). rewrite seq_S, rev_app_distr, (b_num n s I). auto.
    + destruct HE.
  - rewrite HL. intros u X. apply in_app_or in X. destruct X as [X|X]; [|apply (b_race n s I u X)]. destruct e as [|x [|y e]]; [destruct X | | destruct x; destruct HE]. destruct X as [X|[]]. subst x. destruct HE.
  - rewrite HL. destruct e as [|x [|y e]]; [apply (b_all n s I) | | destruct x; destruct HE].
    intros l1 u k b w l2 X. destruct l1 as [|z l1]; simpl in X; injection X as X1 X2; [|apply (b_all n s I l1 u k b w l2 X2)].
    subst x. destruct HE as (_ & -> & HE1 & HE2). subst l2. auto.
Qed.

Lemma known_other : forall s t w, bown s <> Some t -> bknown s = match bown s with None => bmv s | Some u => upd (bview s) t w u end.
Proof. intros s t w H. unfold bknown. destruct (bown s) as [u|]; auto. symmetry. apply upd_other. congruence. Qed.
Lemma own_ne : forall s t, binv n s -> ~ holdp (bpcs s t) -> bown s <> Some t.
Proof. intros s t I H X. apply H. apply (b_own n s I). auto. Qed.

(** lock(). *)
Lemma block_inv : forall s t p, binv n s -> ~ holdp (bpcs s t) -> holdp p -> pcok n s t p -> (forall k c, p <> BUnlT k c /\ p <> BUnlF k c) -> binv n (block s t p).
Proof.
  intros s t p I H1 H2 P PN. pose proof (own_ne s t I H1) as NE. unfold block. destruct (bown s) as [u|] eqn:O.
  - apply (bmono s _ t []); simpl; auto; try (apply (b_cnt n s I)).
    + intros v X. rewrite !upd_other; auto.
    + rewrite upd_same. apply incl_appr, incl_refl.
    + unfold bknown. simpl. rewrite O, upd_other by congruence. apply incl_refl.
    + unfold bknown. simpl. rewrite upd_other by congruence. pose proof (b_acc n s I) as A. unfold bknown in A. rewrite O in A. auto.
    + intros v. rewrite <- O, (b_own n s I). destruct (Nat.eq_dec v t) as [->|X]; [rewrite upd_same | rewrite upd_other by auto]; tauto.
    + rewrite upd_same. pose proof (b_pc n s I t) as Q. unfold pcok in *. simpl. destruct (bpcs s t); auto; simpl in *; try tauto. destruct Q as (Q1 & Q2 & Q3). splits; auto. intros j J. rewrite upd_same. apply (seen_up (blog s) [] j (bview s t)); auto. apply incl_appr, incl_refl.
  - apply (bmono s _ t []); simpl; auto; try (apply (b_cnt n s I)).
    + intros v X. rewrite !upd_other; auto.
    + rewrite upd_same. apply incl_appr, incl_refl.
    + unfold bknown. simpl. rewrite O, upd_same. apply incl_appl, incl_refl.
    + unfold bknown. simpl. rewrite upd_same. pose proof (b_acc n s I) as A. unfold bknown in A. rewrite O in A. apply incl_appl; auto.
    + intros v. destruct (Nat.eq_dec v t) as [->|X]; [rewrite upd_same | rewrite upd_other by auto; rewrite <- (b_own n s I), O]; [tauto|]. split; intros Y; congruence.
    + rewrite upd_same. unfold pcok in *. destruct p; auto; simpl in H2; try contradiction; destruct (PN k c) as (P1 & P2); congruence.
Qed.
(** unlock(). *)
Lemma bunlock_inv : forall s t p m c w e, binv n s -> bown s = Some t -> ~ holdp p -> incl (bview s t) m -> incl (bview s t) w ->
  (forall s', cyc s' = cyc s -> blog s' = e ++ blog s -> bview s' t = w -> pcok n s' t p) ->
  (e = [] \/ exists k b, e = [ARet t k b w] /\ In (AArr t k) (blog s) /\ (forall j, j / n = k / n -> seen (blog s) j w)) ->
  binv n (bgo s t p None m c w e).
Proof.
  intros s t p m c w e I O H M W P HE. assert (bknown s = bview s t) as K by (unfold bknown; rewrite O; auto).
  apply (bmono s _ t e); simpl; auto; try (apply (b_cnt n s I)).
  - intros v X. rewrite !upd_other; auto.
  - rewrite upd_same. auto.
  - rewrite K. auto.
  - unfold bknown. simpl. intros x X. apply M. rewrite <- K. apply (b_acc n s I); auto.
  - intros v. split; [discriminate|]. destruct (Nat.eq_dec v t) as [->|X]; [rewrite upd_same; tauto | rewrite upd_other by auto; rewrite <- (b_own n s I); congruence].
  - rewrite upd_same. apply P; simpl; auto. apply upd_same.
  - destruct HE as [->|(k & b & -> & HE1 & HE2)]; splits; auto.
Qed.
(** Accesses to the members by the owner. *)
Lemma btouch_inv : forall s t a b k p e, binv n s -> bown s = Some t -> holdp p -> cyc s <= b -> k + a = b * n + n -> 1 <= a <= n ->
  (e = [] /\ k = arr s \/ e = [AArr t (arr s)] /\ k = S (arr s)) ->
  (forall s', cyc s' = b -> blog s' = e ++ blog s -> incl (bview s t) (bview s' t) -> pcok n s' t p) ->
  binv n (btouch s t a b k p e).
Proof.
  intros s t a b k p e I O H C K1 K2 HE P. assert (bknown s = bview s t) as K by (unfold bknown; rewrite O; auto).
  unfold btouch. rewrite ordered_incl by (rewrite <- K; apply (b_acc n s I)).
  assert (incl (bview s t) (bnext s :: bview s t)) as IT by (apply incl_tl, incl_refl).
  apply (bmono s _ t e); simpl; auto.
  - intros v X. rewrite !upd_other; auto.
  - rewrite upd_same. auto.
  - unfold bknown at 2. simpl. rewrite O, upd_same, K. auto.
  - destruct HE as [(-> & ->)|(-> & ->)]; eauto.
  - unfold bknown. simpl. rewrite O, upd_same. intros x [X|X]; [left; auto | right]. rewrite <- K. apply (b_acc n s I); auto.
  - intros v. rewrite (b_own n s I). destruct (Nat.eq_dec v t) as [->|X]; [rewrite upd_same | rewrite upd_other by auto; tauto]. split; auto. intros _. apply (b_own n s I). auto.
  - rewrite upd_same. apply P; simpl; auto. rewrite upd_same. auto.
  - destruct HE as [(-> & ->)|(-> & ->)]; splits; auto. unfold bknown. simpl. rewrite O, upd_same. auto.
Qed.
Lemma bstep_inv : forall s l s', binv n s -> bstep n s l = Some s' -> binv n s'.
Proof.
  intros s l s' I H. destruct (b_cnt n s I) as (CN & CB). destruct l as [t|t|t|t]; simpl in H.
  - destruct (bpcs s t) eqn:E; try discriminate. injection H as <-. pose proof (own_ne s t I) as NE. rewrite E in NE. specialize (NE (fun x => x)).
    apply (bmono s _ t [AAct t (bnext s)]); simpl; auto.
    + intros v X. rewrite upd_other; auto.
    + rewrite upd_same. apply incl_tl, incl_refl.
    + rewrite (known_other s t (bnext s :: bview s t) NE). apply incl_refl.
    + unfold bknown at 1. simpl. rewrite <- known_other by auto. apply (b_acc n s I).
    + apply (b_own n s I).
    + rewrite E. red. auto.
    + rewrite upd_same. simpl. auto.
  - destruct (bpcs s t) eqn:E; try discriminate. injection H as <-. pose proof (own_ne s t I) as NE. rewrite E in NE. specialize (NE (fun x => x)).
    apply (bmono s _ t []); simpl; auto.
    + intros v X. rewrite !upd_other; auto.
    + rewrite upd_same. apply incl_refl.
    + rewrite (known_other s t (bview s t) NE). apply incl_refl.
    + unfold bknown at 1. simpl. rewrite <- known_other by auto. apply (b_acc n s I).
    + intros v. rewrite (b_own n s I). destruct (Nat.eq_dec v t) as [->|X]; [rewrite upd_same, E; simpl; tauto | rewrite upd_other by auto; tauto].
    + rewrite upd_same. red. auto.
  - pose proof (b_pc n s I t) as P. pose proof (b_own n s I t) as OW. destruct (bpcs s t) as [| | |k c|k c|k c|k c|k c|k c|k c] eqn:E; try discriminate.
    + injection H as <-. apply block_inv; auto; rewrite ?E; simpl; auto. intros; split; discriminate.
    + simpl in OW. assert (bown s = Some t) as O by (apply OW; auto). assert (bknown s = bview s t) as K by (unfold bknown; rewrite O; auto).
      destruct (Nat.eqb_spec (pred (cur s)) 0) as [Z|Z]; injection H as <-.
      * assert (arr s = cyc s * n + (n - 1)) as AR by lia. assert (arr s / n = cyc s) as AD by (rewrite AR; symmetry; apply (Nat.div_unique _ n (cyc s) (n - 1)); lia).
        apply btouch_inv; simpl; auto; try lia. intros s' S1 S2 S3. simpl. rewrite S2. splits; auto. { left. auto. }
        intros j J. apply div_lt in J; [|lia]. destruct (Nat.eq_dec j (arr s)) as [->|X].
        -- exists t, [], (blog s). split; auto. intros a Y. apply S3. apply (b_act n s I); auto.
        -- apply (seen_up (blog s) [AArr t (arr s)] j (bknown s)); [apply (b_arr n s I); lia | rewrite K; auto].
      * assert (arr s / n = cyc s) as AD by (symmetry; apply (Nat.div_unique _ n (cyc s) (n - cur s)); lia).
        apply btouch_inv; simpl; auto; try lia. intros s' S1 S2 S3. simpl. rewrite S2. splits; auto; [left; auto | lia].
    + injection H as <-. simpl in OW. assert (bown s = Some t) as O by (apply OW; auto). destruct P as (P1 & P2 & P3).
      apply bunlock_inv; auto; try (apply incl_appr, incl_refl). intros s' S1 S2 S3. simpl. rewrite S2, S3. splits; auto. intros j J. apply (seen_up (blog s) [] j (bview s t)); auto. apply incl_appr, incl_refl.
    + injection H as <-. pose proof (own_ne s t I) as NE. rewrite E in NE. specialize (NE (fun x => x)). destruct P as (P1 & P2 & P3).
      apply (bmono s _ t [ARet t k true (bcv s ++ bview s t)]); simpl; auto.
      * intros v X. rewrite !upd_other; auto.
      * rewrite upd_same. apply incl_appr, incl_refl.
      * rewrite (known_other s t (bcv s ++ bview s t) NE). apply incl_refl.
      * unfold bknown at 1. simpl. rewrite <- known_other by auto. apply (b_acc n s I).
      * intros v. rewrite (b_own n s I). destruct (Nat.eq_dec v t) as [->|X]; [rewrite upd_same, E; simpl; tauto | rewrite upd_other by auto; tauto].
      * rewrite upd_same. red. auto.
      * splits; auto. intros j J. apply (seen_up (blog s) [] j (bview s t)); [apply P3; lia | apply incl_appr, incl_refl].
    + injection H as <-. simpl in OW. assert (bown s = Some t) as O by (apply OW; auto). assert (bknown s = bview s t) as K by (unfold bknown; rewrite O; auto). destruct P as (P1 & P2 & P3).
      apply btouch_inv; simpl; auto; try lia. { destruct (c =? cyc s); simpl; auto. }
      intros s' S1 S2 S3. destruct (Nat.eqb_spec c (cyc s)) as [X|X]; simpl; rewrite S2; splits; auto; try lia.
      intros j J. apply (seen_up (blog s) [] j (bknown s)); [|rewrite K; auto]. apply (b_arr n s I). apply div_lt in J; [|lia]. assert (S c * n <= cyc s * n) by (apply Nat.mul_le_mono_r; lia). lia.
    + injection H as <-. simpl in OW. assert (bown s = Some t) as O by (apply OW; auto). destruct P as (P1 & P2 & P3).
      apply bunlock_inv; auto; try (apply incl_appr, incl_appr, incl_refl). intros s' S1 S2 S3. simpl. rewrite S2, S1. splits; auto.
    + injection H as <-. apply block_inv; auto; rewrite ?E; simpl; auto. intros; split; discriminate.
    + injection H as <-. simpl in OW. assert (bown s = Some t) as O by (apply OW; auto). destruct P as (P1 & P2 & P3).
      apply bunlock_inv; auto; try (apply incl_appr, incl_refl); [intros; red; auto|]. right. exists k, false. splits; auto. intros j J. apply (seen_up (blog s) [] j (bview s t)); [apply P3; lia | apply incl_appr, incl_refl].
  - destruct (bpcs s t) eqn:E; try discriminate. injection H as <-. pose proof (own_ne s t I) as NE. rewrite E in NE. specialize (NE (fun x => x)). pose proof (b_pc n s I t) as P. rewrite E in P.
    apply (bmono s _ t []); simpl; auto.
    + intros v X. rewrite !upd_other; auto.
    + rewrite upd_same. apply incl_refl.
    + rewrite (known_other s t (bview s t) NE). apply incl_refl.
    + unfold bknown at 1. simpl. rewrite <- known_other by auto. apply (b_acc n s I).
    + intros v. rewrite (b_own n s I). destruct (Nat.eq_dec v t) as [->|X]; [rewrite upd_same, E; simpl; tauto | rewrite upd_other by auto; tauto].
    + rewrite upd_same. exact P.
Qed.
End Step.
Lemma breach_inv : forall n s, 1 <= n -> reachable (bstep n) (binit n) s -> binv n s.
Proof. intros n s H. apply (reachable_inv (bstep n) (binv n) (binit n) (binit_inv n H)). intros. eapply bstep_inv; eauto. Qed.
