(** Facts about ThChanWeak: the messages of the cycles order all accesses to the storage. *)
From Coq Require Import List Arith Bool Lia.
From Verif Require Import Base.
From Verif Require ThChan ThChanFacts.
From Verif Require Import ThChanWeak ThChanWeakSpec.
Import ListNotations.

Section Cap.
Variable cap : nat.
Hypothesis capok : ThChan.accepted cap = true.
Hypothesis two : 2 <= cap.
Notation slot := (slot cap).

Lemma sl_mod : forall i, slot i = i mod cap.
Proof. intros i. apply ThChanFacts.slot_mod; auto. Qed.
Lemma sl_cap : forall i, slot (i + cap) = slot i.
Proof. intros i. rewrite !sl_mod. replace (i + cap) with (i + 1 * cap) by lia. apply Nat.mod_add. lia. Qed.
Lemma sl_next : forall i, slot (S i) <> slot i.
Proof.
  intros i H. rewrite !sl_mod in H.
  pose proof (Nat.div_mod i cap ltac:(lia)). pose proof (Nat.div_mod (S i) cap ltac:(lia)).
  rewrite H in *. assert (cap * (S i / cap) = cap * (i / cap) + 1) by lia.
  assert (S i / cap = i / cap \/ S i / cap >= S (i / cap)) as [E|E] by nia; nia.
Qed.
Lemma sl_far : forall i j, slot i = slot j -> i < j -> i + cap <= j.
Proof.
  intros i j H L. rewrite !sl_mod in H.
  pose proof (Nat.div_mod i cap ltac:(lia)). pose proof (Nat.div_mod j cap ltac:(lia)).
  rewrite H in *. assert (i / cap < j / cap) by nia. nia.
Qed.
Lemma sl_lt : forall i, slot i < cap.
Proof. intros. rewrite sl_mod. apply Nat.mod_upper_bound. lia. Qed.
Lemma sl_small : forall i, i < cap -> slot i = i.
Proof. intros. rewrite sl_mod. apply Nat.mod_small. auto. Qed.

Definition pub (s : st) (i : nat) : Prop := exists w, In (S i, w) (msgs s (slot i)).
Definition freed (s : st) (i : nat) : Prop := exists w, In (i + cap, w) (msgs s (slot i)).
Definition cov (s : st) (i : nat) (w : list nat) : Prop := forall j r n, In (j, r, n) (acc s (slot i)) -> j < i -> In n w.
Definition cov1 (s : st) (i : nat) (w : list nat) : Prop := forall j r n, In (j, r, n) (acc s (slot i)) -> j < i \/ (j = i /\ r = false) -> In n w.
Definition enq (s : st) (i v : nat) (w : list nat) : Prop := exists t w', In (EEnq t i v w') (log s) /\ incl w' w.
Definition okmsg (s : st) (k c : nat) (w : list nat) : Prop :=
  (slot c = k /\ (c < cap \/ (cap <= c /\ c - cap < cidx s)) /\ cov s c w) \/
  (exists i v, c = S i /\ slot i = k /\ i < pidx s /\ cov1 s i w /\ enq s i v w).
Definition okacc (s : st) (k j : nat) (r : bool) : Prop :=
  slot j = k /\ j < pidx s /\
  (if r then j < cidx s /\ (freed s j \/ exists u v, pc s u = CFree j v) else pub s j \/ exists u v, pc s u = PPub v j).
Definition tinv (s : st) (t : nat) (p : pc_t) : Prop :=
  match p with
  | PCas v i => exists w, In (i, w) (msgs s (slot i)) /\ incl w (view s t)
  | PWrite v i => i < pidx s /\ ~ pub s i /\ cov s i (view s t) /\ enq s i v (view s t)
  | PPub v i => i < pidx s /\ ~ pub s i /\ cov1 s i (view s t) /\ enq s i v (view s t) /\ stor s (slot i) = Some v
  | CCas i => exists w, In (S i, w) (msgs s (slot i)) /\ incl w (view s t)
  | CRead i => i < cidx s /\ ~ freed s i /\ exists w, In (S i, w) (msgs s (slot i)) /\ incl w (view s t)
  | CFree i v => i < cidx s /\ ~ freed s i /\ cov s (i + cap) (view s t)
  | _ => True
  end.
Definition wpos (p : pc_t) : option nat := match p with PWrite _ i | PPub _ i => Some i | _ => None end.
Definition rpos (p : pc_t) : option nat := match p with CRead i | CFree i _ => Some i | _ => None end.
Record inv (s : st) : Prop := {
  i_msg : forall k c w, In (c, w) (msgs s k) -> okmsg s k c w;
  i_acc : forall k j r n, In (j, r, n) (acc s k) -> okacc s k j r;
  i_two : forall i, i + cap < pidx s -> freed s i;
  i_pub : forall i, i < cidx s -> pub s i;
  i_pc : forall t, tinv s t (pc s t);
  i_w : forall t u i, wpos (pc s t) = Some i -> wpos (pc s u) = Some i -> t = u;
  i_r : forall t u i, rpos (pc s t) = Some i -> rpos (pc s u) = Some i -> t = u;
  i_val : forall i, pub s i -> ~ freed s i -> exists t v w, In (EEnq t i v w) (log s) /\ stor s (slot i) = Some v;
  i_one : forall t i v w t' v' w', In (EEnq t i v w) (log s) -> In (EEnq t' i v' w') (log s) -> t = t' /\ v = v' /\ w = w';
  i_lt : forall t i v w, In (EEnq t i v w) (log s) -> i < pidx s;
  i_deq : forall t i v w, In (EDeq t i v w) (log s) -> (exists t' w', In (EEnq t' i v w') (log s) /\ incl w' w) /\ i < cidx s /\ forall u, pc s u <> CRead i;
  i_nd : NoDup (deqs (log s));
  i_enq : enqs (log s) = rev (seq 0 (pidx s));
  i_clm : claims (log s) = rev (seq 0 (cidx s));
  i_race : forall t i, ~ In (ERace t i) (log s) }.

Lemma init_inv : inv (init_state cap).
Proof.
  constructor; simpl; auto; try solve [intros; contradiction | intros; lia | intros; discriminate].
  - intros k c w H. destruct (k <? cap) eqn:E; [| contradiction]. destruct H as [H|[]]. injection H as <- <-.
    apply Nat.ltb_lt in E. left. splits; auto. { apply sl_small; auto. } intros j r n A. simpl in A. contradiction.
  - intros i (w & H) _. unfold pub in *. simpl in H. destruct (slot i <? cap) eqn:E; [| contradiction].
    destruct H as [H|[]]. injection H as H _. exfalso. apply (sl_next i). rewrite <- H. rewrite sl_small; auto using sl_lt.
  - constructor.
Qed.

Section Inv.
Variable s : st.
Hypothesis I : inv s.
Lemma pub_lt : forall i, pub s i -> i < pidx s.
Proof.
  intros i (w & H). destruct (i_msg s I _ _ _ H) as [(E & _)|(j & v & E & _ & L & _)]; [destruct (sl_next i E) | injection E as ->; auto].
Qed.
Lemma freed_lt : forall i, freed s i -> i < cidx s.
Proof.
  intros i (w & H). destruct (i_msg s I _ _ _ H) as [(_ & [E|(_ & E)] & _)|(j & v & E & F & _)]; try lia.
  exfalso. apply (sl_next j). rewrite <- E, F. apply sl_cap.
Qed.
Lemma cons_le : cidx s <= pidx s.
Proof.
  destruct (cidx s) as [|n] eqn:E; [lia|]. apply pub_lt. apply (i_pub s I). lia.
Qed.
(** a position that is being written is the newest of its slot *)
Lemma wr_new : forall i j, ~ pub s i -> slot j = slot i -> i < j -> j < pidx s -> False.
Proof.
  intros i j N E L P. apply N. apply (i_pub s I). apply freed_lt. apply (i_two s I). pose proof (sl_far i j (eq_sym E) L). lia.
Qed.
Lemma rd_new : forall i j, ~ freed s i -> slot j = slot i -> i < j -> j < pidx s -> False.
Proof.
  intros i j N E L P. apply N. apply (i_two s I). pose proof (sl_far i j (eq_sym E) L). lia.
Qed.
Lemma wr_ordered : forall t v i, pc s t = PWrite v i -> ordered (acc s (slot i)) (view s t) = true.
Proof.
  intros t v i E. pose proof (i_pc s I t) as T. rewrite E in T. destruct T as (P & N & C & _).
  unfold ordered. apply forallb_forall. intros ((j & r) & n) A. simpl. apply existsb_exists. exists n. rewrite Nat.eqb_refl. split; auto.
  destruct (i_acc s I _ _ _ _ A) as (S1 & L & R).
  destruct (lt_eq_lt_dec j i) as [[X|X]|X].
  - eapply C; eauto.
  - exfalso. subst j. destruct r.
    + destruct R as (R & _). apply N. apply (i_pub s I). auto.
    + destruct R as [R|(u & v' & R)]; [auto|]. assert (t = u) by (apply (i_w s I t u i); [rewrite E | rewrite R]; auto). subst u. congruence.
  - exfalso. eapply wr_new; eauto.
Qed.
Lemma rd_ordered : forall t i, pc s t = CRead i -> ordered (acc s (slot i)) (view s t) = true.
Proof.
  intros t i E. pose proof (i_pc s I t) as T. rewrite E in T. destruct T as (P & N & w & M & C).
  assert (cov1 s i w) as V.
  { destruct (i_msg s I _ _ _ M) as [(F & _)|(i' & v & F & _ & _ & V & _)]; [destruct (sl_next i F)|]. injection F as <-. auto. }
  unfold ordered. apply forallb_forall. intros ((j & r) & n) A. simpl. apply existsb_exists. exists n. rewrite Nat.eqb_refl. split; auto.
  destruct (i_acc s I _ _ _ _ A) as (S1 & L & R).
  destruct (lt_eq_lt_dec j i) as [[X|X]|X].
  - apply C. eapply V; eauto.
  - subst j. destruct r.
    + exfalso. destruct R as (_ & [R|(u & v' & R)]); [auto|]. assert (t = u) by (apply (i_r s I t u i); [rewrite E | rewrite R]; auto). subst u. congruence.
    + apply C. eapply V; eauto.
  - exfalso. eapply rd_new; eauto.
Qed.
Lemma rd_value : forall t i, pc s t = CRead i -> exists v, stor s (slot i) = Some v /\ enq s i v (view s t).
Proof.
  intros t i E. pose proof (i_pc s I t) as T. rewrite E in T. destruct T as (P & N & w & M & C).
  destruct (i_val s I i (i_pub s I i P) N) as (t1 & v1 & w1 & A & B). exists v1. split; auto.
  destruct (i_msg s I _ _ _ M) as [(F & _)|(i' & v & F & _ & _ & _ & (t2 & w2 & X & Y))]; [destruct (sl_next i F)|]. injection F as <-.
  assert (v = v1) by (eapply (i_one s I); eauto). subst v1. exists t2, w2. split; auto. intros x Hx. auto.
Qed.
End Inv.

(** Events that the invariant does not look at. *)
Definition plain (e : event) : bool := match e with EAct _ _ | EFull _ _ | EEmpty _ => true | _ => false end.
Lemma enq_up : forall s s' i v w w', (forall e, In e (log s) -> In e (log s')) -> incl w w' -> enq s i v w -> enq s' i v w'.
Proof. intros s s' i v w w' L W (t & x & A & B). exists t, x. split; auto. intros y Y. auto. Qed.
Lemma soft : forall s s' t p w e, inv s ->
  pidx s' = pidx s -> cidx s' = cidx s -> msgs s' = msgs s -> stor s' = stor s -> acc s' = acc s ->
  view s' = upd (view s) t w -> incl (view s t) w -> pc s' = upd (pc s) t p -> log s' = e ++ log s -> forallb plain e = true ->
  wpos (pc s t) = None -> rpos (pc s t) = None -> wpos p = None -> rpos p = None -> tinv s' t p -> inv s'.
Proof.
  intros s s' t p w e I Ep Ec Em Es Ea Ev Iv Epc El Pl W R W' R' T.
  assert (forall i, pub s' i <-> pub s i) as HP by (intros; unfold pub; rewrite Em; tauto).
  assert (forall i, freed s' i <-> freed s i) as HF by (intros; unfold freed; rewrite Em; tauto).
  assert (forall i w, cov s' i w <-> cov s i w) as HC by (intros; unfold cov; rewrite Ea; tauto).
  assert (forall i w, cov1 s' i w <-> cov1 s i w) as HC1 by (intros; unfold cov1; rewrite Ea; tauto).
  assert (forall e, In e (log s) -> In e (log s')) as HL by (intros; rewrite El; apply in_or_app; auto).
  assert (forall x, In x (log s') -> plain x = false -> In x (log s)) as HL'.
  { intros x X N. rewrite El in X. apply in_app_or in X. destruct X as [X|X]; auto. rewrite forallb_forall in Pl. rewrite (Pl _ X) in N. discriminate. }
  assert (forall u, u <> t -> pc s' u = pc s u) as HU by (intros; rewrite Epc; apply upd_other; auto).
  assert (pc s' t = p) as HT by (rewrite Epc; apply upd_same).
  assert (forall u, incl (view s u) (view s' u)) as HV.
  { intros u. rewrite Ev. destruct (Nat.eq_dec u t) as [->|N]; [rewrite upd_same; auto | rewrite upd_other by auto; apply incl_refl]. }
  assert (forall u i, wpos (pc s' u) = Some i -> u <> t /\ wpos (pc s u) = Some i) as HW.
  { intros u i H. destruct (Nat.eq_dec u t) as [->|N]; [rewrite HT in H; congruence | rewrite HU in H by auto; auto]. }
  assert (forall u i, rpos (pc s' u) = Some i -> u <> t /\ rpos (pc s u) = Some i) as HR.
  { intros u i H. destruct (Nat.eq_dec u t) as [->|N]; [rewrite HT in H; congruence | rewrite HU in H by auto; auto]. }
  assert (enqs (log s') = enqs (log s) /\ claims (log s') = claims (log s) /\ deqs (log s') = deqs (log s)) as (Q1 & Q2 & Q3).
  { rewrite El. clear - Pl. induction e as [|x r IH]; [auto|]. simpl in Pl. apply andb_true_iff in Pl. destruct Pl as (A & B). specialize (IH B). destruct x; simpl in *; try discriminate; auto. }
  constructor.
  - intros k c w0 H. rewrite Em in H. destruct (i_msg s I _ _ _ H) as [(A & B & C)|(i & v & A & B & C & D & F)]; [left|right].
    + rewrite Ec, HC. auto.
    + exists i, v. rewrite Ep, HC1. splits; auto. eapply enq_up; eauto. apply incl_refl.
  - intros k j r n H. rewrite Ea in H. destruct (i_acc s I _ _ _ _ H) as (A & B & C). red. rewrite Ep, Ec. splits; auto.
    destruct r; rewrite ?HP, ?HF.
    + destruct C as (C & [D|(u & v & D)]); split; auto. right. exists u, v. rewrite HU; auto. intros ->. rewrite D in R. discriminate.
    + destruct C as [D|(u & v & D)]; auto. right. exists u, v. rewrite HU; auto. intros ->. rewrite D in W. discriminate.
  - intros i H. rewrite Ep in H. rewrite HF. apply (i_two s I); auto.
  - intros i H. rewrite Ec in H. rewrite HP. apply (i_pub s I); auto.
  - intros u. destruct (Nat.eq_dec u t) as [->|N]; [rewrite HT; auto|]. rewrite HU by auto. pose proof (i_pc s I u) as X.
    assert (view s' u = view s u) as EV by (rewrite Ev; apply upd_other; auto).
    destruct (pc s u); simpl in *; rewrite ?EV, ?Em, ?Ep, ?Ec, ?HP, ?HF, ?HC, ?HC1, ?Es; auto.
    + destruct X as (A & B & C & D). splits; auto. eapply enq_up; eauto. apply incl_refl.
    + destruct X as (A & B & C & D & E). splits; auto. eapply enq_up; eauto. apply incl_refl.
  - intros u u' i A B. apply HW in A. apply HW in B. destruct A, B. eapply (i_w s I); eauto.
  - intros u u' i A B. apply HR in A. apply HR in B. destruct A, B. eapply (i_r s I); eauto.
  - intros i A B. rewrite HP in A. rewrite HF in B. destruct (i_val s I i A B) as (t1 & v1 & w1 & X & Y). exists t1, v1, w1. rewrite Es. auto.
  - intros t1 i v1 w1 t2 v2 w2 A B. apply HL' in A; auto. apply HL' in B; auto. eapply (i_one s I); eauto.
  - intros t1 i v1 w1 A. apply HL' in A; auto. rewrite Ep. eapply (i_lt s I); eauto.
  - intros t1 i v1 w1 A. apply HL' in A; auto. destruct (i_deq s I _ _ _ _ A) as ((t2 & w2 & X & Y) & Z & U). rewrite Ec. splits; eauto.
    intros u F. destruct (HR u i) as (N & _); [rewrite F; auto|]. apply (U u). rewrite <- HU; auto.
  - rewrite Q3. apply (i_nd s I).
  - rewrite Q1, Ep. apply (i_enq s I).
  - rewrite Q2, Ec. apply (i_clm s I).
  - intros t1 i A. apply HL' in A; auto. eapply (i_race s I); eauto.
Qed.

Lemma seq_snoc : forall n, rev (seq 0 (S n)) = n :: rev (seq 0 n).
Proof. intros n. rewrite seq_S, rev_app_distr. auto. Qed.

(** Lines 84 and 105. *)
Lemma inv_pcas : forall s t v i, inv s -> pc s t = PCas v i -> pidx s = i ->
  inv (mkSt (S i) (cidx s) (msgs s) (stor s) (acc s) (view s) (next s) (upd (pc s) t (PWrite v i)) (EEnq t i v (view s t) :: log s)).
Proof.
  intros s t v i I E P. subst i. set (i := pidx s) in *. set (s' := mkSt _ _ _ _ _ _ _ _ _).
  pose proof (i_pc s I t) as T. rewrite E in T. destruct T as (w & M & Iw).
  assert (forall j, pub s' j <-> pub s j) as HP by (intros; unfold pub; tauto).
  assert (forall j, freed s' j <-> freed s j) as HF by (intros; unfold freed; tauto).
  assert (forall e, In e (log s) -> In e (log s')) as HL by (intros; simpl; auto).
  assert (forall u, u <> t -> pc s' u = pc s u) as HU by (intros; apply upd_other; auto).
  assert (pc s' t = PWrite v i) as HT by apply upd_same.
  assert (cov s i w) as CV.
  { destruct (i_msg s I _ _ _ M) as [(_ & _ & C)|(j & v' & A & B & _)]; auto. exfalso. apply (sl_next j). rewrite <- A, B. auto. }
  constructor.
  - intros k c w0 H. destruct (i_msg s I _ _ _ H) as [(A & B & C)|(j & v' & A & B & C & D & F)]; [left; auto|right].
    exists j, v'. splits; auto. { simpl. fold i in C. lia. } eapply enq_up; eauto. apply incl_refl.
  - intros k j r n H. destruct (i_acc s I _ _ _ _ H) as (A & B & C). red. splits; auto. { simpl. fold i in B. lia. }
    destruct r; rewrite ?HP, ?HF.
    + destruct C as (C & [D|(u & v' & D)]); split; auto. right. exists u, v'. rewrite HU; auto. intros ->. congruence.
    + destruct C as [D|(u & v' & D)]; auto. right. exists u, v'. rewrite HU; auto. intros ->. congruence.
  - intros j H. rewrite HF. simpl in H. destruct (Nat.eq_dec (j + cap) i) as [X|X].
    + exists w. rewrite X. rewrite <- sl_cap, X. auto.
    + apply (i_two s I). fold i. lia.
  - intros j H. apply (i_pub s I); auto.
  - intros u. destruct (Nat.eq_dec u t) as [->|N].
    + rewrite HT. simpl. splits; auto.
      * rewrite HP. intros X. apply (pub_lt s I) in X. fold i in X. lia.
      * intros j r n A L. apply Iw. eapply CV; eauto.
      * exists t, (view s t). split; simpl; auto. apply incl_refl.
    + rewrite HU by auto. pose proof (i_pc s I u) as X. destruct (pc s u); simpl in *; auto.
      * destruct X as (A & B & C & D). splits; auto; try (simpl; fold i in A; lia). eapply enq_up; eauto. apply incl_refl.
      * destruct X as (A & B & C & D & F). splits; auto; try (simpl; fold i in A; lia). eapply enq_up; eauto. apply incl_refl.
  - assert (forall u, wpos (pc s u) = Some i -> False) as NW.
    { intros u F. pose proof (i_pc s I u) as X. destruct (pc s u); simpl in F; try discriminate; injection F as ->; destruct X as (X & _); fold i in X; lia. }
    intros u u' j A B. destruct (Nat.eq_dec u t) as [->|N]; destruct (Nat.eq_dec u' t) as [->|N']; auto;
    rewrite ?HT, ?HU in A by auto; rewrite ?HT, ?HU in B by auto; simpl in *.
    + injection A as <-. destruct (NW _ B).
    + injection B as <-. destruct (NW _ A).
    + eapply (i_w s I); eauto.
  - intros u u' j A B. destruct (Nat.eq_dec u t) as [->|N]; [rewrite HT in A; discriminate|]. destruct (Nat.eq_dec u' t) as [->|N']; [rewrite HT in B; discriminate|].
    rewrite HU in A, B by auto. eapply (i_r s I); eauto.
  - intros j A B. destruct (i_val s I j A B) as (t1 & v1 & w1 & X & Y). exists t1, v1, w1. simpl. auto.
  - intros t1 j v1 w1 t2 v2 w2 A B. simpl in A, B. destruct A as [A|A], B as [B|B].
    + splits; congruence.
    + injection A as <- <- <- <-. apply (i_lt s I) in B. fold i in B. lia.
    + injection B as <- <- <- <-. apply (i_lt s I) in A. fold i in A. lia.
    + eapply (i_one s I); eauto.
  - intros t1 j v1 w1 [A|A]; simpl; [injection A as <- <- <- <-; lia|]. apply (i_lt s I) in A. fold i in A. lia.
  - intros t1 j v1 w1 [A|A]; [discriminate|]. destruct (i_deq s I _ _ _ _ A) as ((t2 & w2 & X & Y) & Z & U). splits; auto. { exists t2, w2. simpl. auto. }
    intros u F. destruct (Nat.eq_dec u t) as [->|N]; [congruence|]. rewrite HU in F by auto. apply (U u); auto.
  - simpl. apply (i_nd s I).
  - simpl log. simpl pidx. rewrite seq_snoc. simpl. f_equal. apply (i_enq s I).
  - simpl. apply (i_clm s I).
  - intros t1 j [A|A]; [discriminate|]. eapply (i_race s I); eauto.
Qed.
Lemma inv_ccas : forall s t i, inv s -> pc s t = CCas i -> cidx s = i ->
  inv (mkSt (pidx s) (S i) (msgs s) (stor s) (acc s) (view s) (next s) (upd (pc s) t (CRead i)) (EClaim t i :: log s)).
Proof.
  intros s t i I E P. subst i. set (i := cidx s) in *. set (s' := mkSt _ _ _ _ _ _ _ _ _).
  pose proof (i_pc s I t) as T. rewrite E in T. destruct T as (w & M & Iw).
  assert (forall j, pub s' j <-> pub s j) as HP by (intros; unfold pub; tauto).
  assert (forall j, freed s' j <-> freed s j) as HF by (intros; unfold freed; tauto).
  assert (forall e, In e (log s) -> In e (log s')) as HL by (intros; simpl; auto).
  assert (forall u, u <> t -> pc s' u = pc s u) as HU by (intros; apply upd_other; auto).
  assert (pc s' t = CRead i) as HT by apply upd_same.
  constructor.
  - intros k c w0 H. destruct (i_msg s I _ _ _ H) as [(A & B & C)|(j & v' & A & B & C & D & F)]; [left|right].
    + splits; auto. simpl. fold i in B. lia.
    + exists j, v'. splits; auto. eapply enq_up; eauto. apply incl_refl.
  - intros k j r n H. destruct (i_acc s I _ _ _ _ H) as (A & B & C). red. splits; auto.
    destruct r; rewrite ?HP, ?HF.
    + destruct C as (C & D). split. { simpl. fold i in C. lia. } destruct D as [D|(u & v' & D)]; auto. right. exists u, v'. rewrite HU; auto. intros ->. congruence.
    + destruct C as [D|(u & v' & D)]; auto. right. exists u, v'. rewrite HU; auto. intros ->. congruence.
  - intros j H. apply (i_two s I); auto.
  - intros j H. simpl in H. rewrite HP. destruct (Nat.eq_dec j i) as [->|X]; [exists w; auto | apply (i_pub s I); fold i; lia].
  - intros u. destruct (Nat.eq_dec u t) as [->|N].
    + rewrite HT. simpl. splits; auto.
      * rewrite HF. intros X. apply (freed_lt s I) in X. fold i in X. lia.
      * exists w. auto.
    + rewrite HU by auto. pose proof (i_pc s I u) as X. destruct (pc s u); simpl in *; auto.
      * destruct X as (A & B & C & D). splits; auto. eapply enq_up; eauto. apply incl_refl.
      * destruct X as (A & B & C & D & F). splits; auto. eapply enq_up; eauto. apply incl_refl.
      * destruct X as (A & X). split; auto; fold i in A; lia.
      * destruct X as (A & X). split; auto; fold i in A; lia.
  - intros u u' j A B. destruct (Nat.eq_dec u t) as [->|N]; [rewrite HT in A; discriminate|]. destruct (Nat.eq_dec u' t) as [->|N']; [rewrite HT in B; discriminate|].
    rewrite HU in A, B by auto. eapply (i_w s I); eauto.
  - assert (forall u, rpos (pc s u) = Some i -> False) as NW.
    { intros u F. pose proof (i_pc s I u) as X. destruct (pc s u); simpl in F; try discriminate; injection F as ->; destruct X as (X & _); fold i in X; lia. }
    intros u u' j A B. destruct (Nat.eq_dec u t) as [->|N]; destruct (Nat.eq_dec u' t) as [->|N']; auto;
    rewrite ?HT, ?HU in A by auto; rewrite ?HT, ?HU in B by auto; simpl in *.
    + injection A as <-. destruct (NW _ B).
    + injection B as <-. destruct (NW _ A).
    + eapply (i_r s I); eauto.
  - intros j A B. destruct (i_val s I j A B) as (t1 & v1 & w1 & X & Y). exists t1, v1, w1. simpl. auto.
  - intros t1 j v1 w1 t2 v2 w2 [A|A] [B|B]; try discriminate. eapply (i_one s I); eauto.
  - intros t1 j v1 w1 [A|A]; [discriminate|]. eapply (i_lt s I); eauto.
  - intros t1 j v1 w1 [A|A]; [discriminate|]. destruct (i_deq s I _ _ _ _ A) as ((t2 & w2 & X & Y) & Z & U). splits.
    + exists t2, w2. simpl. auto.
    + simpl. fold i in Z. lia.
    + intros u F. destruct (Nat.eq_dec u t) as [->|N]; [rewrite HT in F; injection F as <-; fold i in Z; lia|]. rewrite HU in F by auto. apply (U u); auto.
  - simpl. apply (i_nd s I).
  - simpl. apply (i_enq s I).
  - simpl log. simpl cidx. rewrite seq_snoc. simpl. f_equal. apply (i_clm s I).
  - intros t1 j [A|A]; [discriminate|]. eapply (i_race s I); eauto.
Qed.

Lemma acc_in : forall (s : st) k x k' y, In y (upd (acc s) k (x :: acc s k) k') -> (k' = k /\ y = x) \/ In y (acc s k').
Proof. intros s k x k' y H. destruct (Nat.eq_dec k' k) as [->|N]; [rewrite upd_same in H; destruct H; auto | rewrite upd_other in H by auto; auto]. Qed.
(** Line 93. *)
Lemma inv_write : forall s t v i, inv s -> pc s t = PWrite v i ->
  inv (mkSt (pidx s) (cidx s) (msgs s) (upd (stor s) (slot i) (Some v)) (upd (acc s) (slot i) ((i, false, next s) :: acc s (slot i))) (upd (view s) t (next s :: view s t)) (S (next s)) (upd (pc s) t (PPub v i)) (log s)).
Proof.
  intros s t v i I E. set (s' := mkSt _ _ _ _ _ _ _ _ _).
  pose proof (i_pc s I t) as T. rewrite E in T. destruct T as (P & NP & CV & EQ).
  assert (forall j, pub s' j <-> pub s j) as HP by (intros; unfold pub; tauto).
  assert (forall j, freed s' j <-> freed s j) as HF by (intros; unfold freed; tauto).
  assert (forall u, u <> t -> pc s' u = pc s u) as HU by (intros; apply upd_other; auto).
  assert (forall u, u <> t -> view s' u = view s u) as HV by (intros; apply upd_other; auto).
  assert (pc s' t = PPub v i) as HT by apply upd_same.
  assert (view s' t = next s :: view s t) as HVt by apply upd_same.
  assert (forall c w, (c < cap \/ (cap <= c /\ c - cap < cidx s)) -> cov s c w -> cov s' c w) as KC.
  { intros c w B C j r n A L. simpl in A. apply acc_in in A. destruct A as [(A & X)|A]; [|eapply C; eauto]. injection X as -> -> ->. exfalso.
    pose proof (sl_far i c (eq_sym A) L). apply NP. apply (i_pub s I).
    destruct (le_lt_dec (cidx s) i) as [Y|Y]; [|auto]. lia. }
  assert (forall j w, j < pidx s -> pub s j \/ j <> i -> cov1 s j w -> cov1 s' j w) as KC1.
  { intros j w B N C j' r n A L. simpl in A. apply acc_in in A. destruct A as [(A & X)|A]; [|eapply C; eauto]. injection X as -> -> ->. exfalso.
    destruct L as [L|(L & _)].
    - eapply (wr_new s I i j); eauto.
    - subst j. destruct N; auto. }
  assert (forall u i', u <> t -> wpos (pc s u) = Some i' -> i' <> i) as NE.
  { intros u i' N H ->. apply N. apply (i_w s I u t i); auto. rewrite E. auto. }
  assert (forall j, slot j = slot i -> j <> i -> j < pidx s -> ~ pub s j -> False) as NS.
  { intros j A B C D. destruct (lt_eq_lt_dec j i) as [[X|X]|X]; auto.
    - eapply (wr_new s I j i); eauto.
    - eapply (wr_new s I i j); eauto. }
  constructor.
  - intros k c w0 H. destruct (i_msg s I _ _ _ H) as [(A & B & C)|(j & v' & A & B & C & D & F)]; [left; auto|right].
    exists j, v'. splits; auto. apply KC1; auto. left. exists w0. subst. auto.
  - intros k j r n H. simpl in H. apply acc_in in H. destruct H as [(-> & X)|H].
    + injection X as -> -> ->. red. splits; auto. right. exists t, v. auto.
    + destruct (i_acc s I _ _ _ _ H) as (A & B & C). red. splits; auto. destruct r; rewrite ?HP, ?HF.
      * destruct C as (C & [D|(u & v' & D)]); split; auto. right. exists u, v'. rewrite HU; auto. intros ->. congruence.
      * destruct C as [D|(u & v' & D)]; auto. right. exists u, v'. rewrite HU; auto. intros ->. congruence.
  - intros j H. apply (i_two s I); auto.
  - intros j H. apply (i_pub s I); auto.
  - intros u. destruct (Nat.eq_dec u t) as [->|N].
    + rewrite HT. unfold tinv. rewrite HVt. splits; auto.
      * intros j r n A L. simpl in A. apply acc_in in A. destruct A as [(A & X)|A]; [injection X as -> -> ->; simpl; auto|]. right.
        destruct L as [L|(L & R)]; [eapply CV; eauto|]. subst j r. destruct (i_acc s I _ _ _ _ A) as (_ & _ & [Q|(u & v' & Q)]); [destruct (NP Q)|].
        assert (t = u) by (apply (i_w s I t u i); [rewrite E | rewrite Q]; auto). subst u. congruence.
      * eapply enq_up; eauto. intros x. simpl. auto.
      * simpl. apply upd_same.
    + rewrite HU by auto. pose proof (i_pc s I u) as X. pose proof (NE u) as NEu. destruct (pc s u) eqn:EU; unfold tinv in *; auto; rewrite ?HV by auto; auto.
      * destruct X as (A & B & C & D). splits; auto. intros j r n AA L. simpl in AA. apply acc_in in AA. destruct AA as [(AA & Y)|AA]; [|eapply C; eauto].
        injection Y as -> -> ->. exfalso. apply (NS i0); auto.
      * destruct X as (A & B & C & D & F). assert (i0 <> i) by (apply NEu; auto). splits; auto.
        simpl. rewrite upd_other; auto. intros Y. apply (NS i0); auto.
      * destruct X as (A & B & C). splits; auto. apply KC; auto. right. lia.
  - intros u u' j A B. eapply (i_w s I u u' j).
    + destruct (Nat.eq_dec u t) as [->|N]; [rewrite HT in A; rewrite E; auto | rewrite HU in A; auto].
    + destruct (Nat.eq_dec u' t) as [->|N]; [rewrite HT in B; rewrite E; auto | rewrite HU in B; auto].
  - intros u u' j A B. destruct (Nat.eq_dec u t) as [->|N]; [rewrite HT in A; discriminate|]. destruct (Nat.eq_dec u' t) as [->|N']; [rewrite HT in B; discriminate|].
    rewrite HU in A, B by auto. eapply (i_r s I); eauto.
  - intros j A B. destruct (i_val s I j A B) as (t1 & v1 & w1 & X & Y). exists t1, v1, w1. split; auto. simpl. rewrite upd_other; auto.
    intros Q. assert (j <> i) by (intros ->; auto). pose proof (pub_lt s I j A). destruct (lt_eq_lt_dec j i) as [[L|L]|L]; auto.
    + eapply (rd_new s I j i); eauto.
    + eapply (wr_new s I i j); eauto.
  - apply (i_one s I).
  - apply (i_lt s I).
  - intros t1 j v1 w1 A. destruct (i_deq s I _ _ _ _ A) as (X & Z & U). splits; auto.
    intros u F. destruct (Nat.eq_dec u t) as [->|N]; [congruence|]. rewrite HU in F by auto. apply (U u); auto.
  - apply (i_nd s I).
  - apply (i_enq s I).
  - apply (i_clm s I).
  - apply (i_race s I).
Qed.
(** Line 205. *)
Lemma inv_read : forall s t v i, inv s -> pc s t = CRead i -> stor s (slot i) = Some v ->
  inv (mkSt (pidx s) (cidx s) (msgs s) (stor s) (upd (acc s) (slot i) ((i, true, next s) :: acc s (slot i))) (upd (view s) t (next s :: view s t)) (S (next s)) (upd (pc s) t (CFree i v)) (EDeq t i v (view s t) :: log s)).
Proof.
  intros s t v i I E SV. pose proof (rd_ordered s I t i E) as RO. destruct (rd_value s I t i E) as (v0 & SV' & EQ). rewrite SV in SV'. injection SV' as <-.
  set (s' := mkSt _ _ _ _ _ _ _ _ _).
  pose proof (i_pc s I t) as T. rewrite E in T. destruct T as (P & NF & w & M & Iw).
  assert (forall j, pub s' j <-> pub s j) as HP by (intros; unfold pub; tauto).
  assert (forall j, freed s' j <-> freed s j) as HF by (intros; unfold freed; tauto).
  assert (forall e, In e (log s) -> In e (log s')) as HL by (intros; simpl; auto).
  assert (forall u, u <> t -> pc s' u = pc s u) as HU by (intros; apply upd_other; auto).
  assert (forall u, u <> t -> view s' u = view s u) as HV by (intros; apply upd_other; auto).
  assert (pc s' t = CFree i v) as HT by apply upd_same.
  assert (view s' t = next s :: view s t) as HVt by apply upd_same.
  pose proof (cons_le s I) as LE.
  assert (forall c, slot c = slot i -> i < c -> (exists x, In (c, x) (msgs s (slot c))) -> (c < cap \/ (cap <= c /\ c - cap < cidx s)) -> False) as NC.
  { intros c A L (x & MX) B. pose proof (sl_far i c (eq_sym A) L). destruct B as [B|(B & B')]; [lia|].
    destruct (Nat.eq_dec (c - cap) i) as [Y|Y].
    - apply NF. exists x. replace (i + cap) with c by lia. rewrite <- A. auto.
    - assert (slot (c - cap) = slot i) by (rewrite <- A, <- (sl_cap (c - cap)); f_equal; lia). eapply (rd_new s I i (c - cap)); eauto; lia. }
  assert (forall j w, j < pidx s -> cov1 s j w -> cov1 s' j w) as KC1.
  { intros j w0 B C j' r n A L. simpl in A. apply acc_in in A. destruct A as [(A & X)|A]; [|eapply C; eauto]. injection X as -> -> ->. exfalso.
    destruct L as [L|(_ & L)]; [eapply (rd_new s I i j); eauto | discriminate]. }
  assert (forall u i', u <> t -> rpos (pc s u) = Some i' -> i' <> i) as NE.
  { intros u i' N H ->. apply N. apply (i_r s I u t i); auto. rewrite E. auto. }
  constructor.
  - intros k c w0 H. destruct (i_msg s I _ _ _ H) as [(A & B & C)|(j & v' & A & B & C & D & F)]; [left|right].
    + splits; auto. intros j r n Q L. simpl in Q. apply acc_in in Q. destruct Q as [(Q & X)|Q]; [|eapply C; eauto]. injection X as -> -> ->. exfalso.
      apply (NC c); auto. exists w0. rewrite A. auto.
    + exists j, v'. splits; auto. eapply enq_up; eauto. apply incl_refl.
  - intros k j r n H. simpl in H. apply acc_in in H. destruct H as [(-> & X)|H].
    + injection X as -> -> ->. red. splits; auto. { simpl; lia. } right. exists t, v. auto.
    + destruct (i_acc s I _ _ _ _ H) as (A & B & C). red. splits; auto. destruct r; rewrite ?HP, ?HF.
      * destruct C as (C & [D|(u & v' & D)]); split; auto. right. exists u, v'. rewrite HU; auto. intros ->. congruence.
      * destruct C as [D|(u & v' & D)]; auto. right. exists u, v'. rewrite HU; auto. intros ->. congruence.
  - intros j H. apply (i_two s I); auto.
  - intros j H. apply (i_pub s I); auto.
  - intros u. destruct (Nat.eq_dec u t) as [->|N].
    + rewrite HT. unfold tinv. rewrite HVt. splits; auto.
      intros j r n A L. simpl in A. rewrite sl_cap in A. apply acc_in in A. destruct A as [(A & X)|A]; [injection X as -> -> ->; simpl; auto|]. right.
      unfold ordered in RO. rewrite forallb_forall in RO. specialize (RO _ A). apply existsb_exists in RO. destruct RO as (y & Y & Z). apply Nat.eqb_eq in Z. simpl in Z. subst. auto.
    + rewrite HU by auto. pose proof (i_pc s I u) as X. pose proof (NE u) as NEu. destruct (pc s u) eqn:EU; unfold tinv in *; auto; rewrite ?HV by auto; auto.
      * destruct X as (A & B & C & D). splits; auto.
        -- intros j r n AA L. simpl in AA. apply acc_in in AA. destruct AA as [(AA & Y)|AA]; [|eapply C; eauto].
           injection Y as -> -> ->. exfalso. eapply (rd_new s I i i0); eauto.
        -- eapply enq_up; eauto. apply incl_refl.
      * destruct X as (A & B & C & D & F). splits; auto. eapply enq_up; eauto. apply incl_refl.
      * destruct X as (A & B & C). assert (i0 <> i) by (apply NEu; auto). splits; auto. intros j r n AA L. simpl in AA. apply acc_in in AA. destruct AA as [(AA & Y)|AA]; [|eapply C; eauto].
        injection Y as -> -> ->. exfalso. rewrite sl_cap in AA. destruct (lt_eq_lt_dec i0 i) as [[Y|Y]|Y]; auto.
        -- pose proof (sl_far i0 i AA Y). lia.
        -- eapply (rd_new s I i i0); eauto. lia.
  - intros u u' j A B. destruct (Nat.eq_dec u t) as [->|N]; [rewrite HT in A; discriminate|]. destruct (Nat.eq_dec u' t) as [->|N']; [rewrite HT in B; discriminate|].
    rewrite HU in A, B by auto. eapply (i_w s I); eauto.
  - intros u u' j A B. eapply (i_r s I u u' j).
    + destruct (Nat.eq_dec u t) as [->|N]; [rewrite HT in A; rewrite E; auto | rewrite HU in A; auto].
    + destruct (Nat.eq_dec u' t) as [->|N]; [rewrite HT in B; rewrite E; auto | rewrite HU in B; auto].
  - intros j A B. destruct (i_val s I j A B) as (t1 & v1 & w1 & X & Y). exists t1, v1, w1. simpl. auto.
  - intros t1 j v1 w1 t2 v2 w2 [A|A] [B|B]; try discriminate. eapply (i_one s I); eauto.
  - intros t1 j v1 w1 [A|A]; [discriminate|]. eapply (i_lt s I); eauto.
  - intros t1 j v1 w1 A. simpl in A. destruct A as [A|A].
    + injection A as <- <- <- <-. splits; auto.
      * destruct EQ as (t2 & w2 & X & Y). exists t2, w2. simpl. auto.
      * intros u F. destruct (Nat.eq_dec u t) as [->|N]; [congruence|]. rewrite HU in F by auto. apply (NE u i); auto. rewrite F. auto.
    + destruct (i_deq s I _ _ _ _ A) as ((t2 & w2 & X & Y) & Z & U). splits; auto. { exists t2, w2. simpl. auto. }
      intros u F. destruct (Nat.eq_dec u t) as [->|N]; [congruence|]. rewrite HU in F by auto. apply (U u); auto.
  - simpl. constructor; [|apply (i_nd s I)]. intros H.
    assert (forall l, In i (deqs l) -> exists t v w, In (EDeq t i v w) l) as DI.
    { clear. induction l as [|x r IH]; simpl; [contradiction|]. destruct x; simpl; try (intros H; destruct (IH H) as (a & b & c & Q); eauto 6; fail).
      intros [H|H]; [subst; eauto 6 | destruct (IH H) as (a & b & c & Q); eauto 6]. }
    destruct (DI _ H) as (t1 & v1 & w1 & Q). destruct (i_deq s I _ _ _ _ Q) as (_ & _ & U). apply (U t). auto.
  - simpl. apply (i_enq s I).
  - simpl. apply (i_clm s I).
  - intros t1 j [A|A]; [discriminate|]. eapply (i_race s I); eauto.
Qed.

Lemma msg_in : forall (s : st) k x k' y, In y (upd (msgs s) k (x :: msgs s k) k') -> (k' = k /\ y = x) \/ In y (msgs s k').
Proof. intros s k x k' y H. destruct (Nat.eq_dec k' k) as [->|N]; [rewrite upd_same in H; destruct H; auto | rewrite upd_other in H by auto; auto]. Qed.
Lemma msg_old : forall (s : st) k x k' y, In y (msgs s k') -> In y (upd (msgs s) k (x :: msgs s k) k').
Proof. intros s k x k' y H. destruct (Nat.eq_dec k' k) as [->|N]; [rewrite upd_same; right; auto | rewrite upd_other by auto; auto]. Qed.
(** Lines 94 and 206. *)
Lemma inv_msg : forall s t i c, inv s ->
  (exists v, pc s t = PPub v i /\ c = S i) \/ (exists v, pc s t = CFree i v /\ c = i + cap) ->
  inv (mkSt (pidx s) (cidx s) (upd (msgs s) (slot i) ((c, view s t) :: msgs s (slot i))) (stor s) (acc s) (view s) (next s) (upd (pc s) t Idle) (log s)).
Proof.
  intros s t i c I EC. set (s' := mkSt _ _ _ _ _ _ _ _ _).
  pose proof (i_pc s I t) as T.
  assert (forall u, u <> t -> pc s' u = pc s u) as HU by (intros; apply upd_other; auto).
  assert (pc s' t = Idle) as HT by apply upd_same.
  assert (forall k y, In y (msgs s k) -> In y (msgs s' k)) as HM by (intros; apply msg_old; auto).
  assert (forall j, pub s j -> pub s' j) as HP by (intros j (w & H); exists w; auto).
  assert (forall j, freed s j -> freed s' j) as HF by (intros j (w & H); exists w; auto).
  assert (forall j, pub s' j -> pub s j \/ (j = i /\ c = S i)) as HP'.
  { intros j (w & H). simpl in H. apply msg_in in H. destruct H as [(A & B)|H]; [|left; exists w; auto]. injection B as B _. destruct EC as [(v & _ & X)|(v & _ & X)].
    - right. lia.
    - exfalso. apply (sl_next j). rewrite B, X, A. apply sl_cap. }
  assert (forall j, freed s' j -> freed s j \/ (j = i /\ c = i + cap)) as HF'.
  { intros j (w & H). simpl in H. apply msg_in in H. destruct H as [(A & B)|H]; [|left; exists w; auto]. injection B as B _. destruct EC as [(v & _ & X)|(v & _ & X)].
    - exfalso. apply (sl_next i). rewrite <- X, <- B, <- A. apply sl_cap.
    - right. lia. }
  assert (forall u j, u <> t -> wpos (pc s u) = Some j -> ~ pub s j -> ~ pub s' j) as KP.
  { intros u j N W NP Q. apply HP' in Q. destruct Q as [Q|(-> & Q)]; [auto|]. destruct EC as [(v & X & _)|(v & X & Y)].
    - apply N. apply (i_w s I u t i); auto. rewrite X. auto.
    - apply (sl_next i). rewrite <- Q, Y. apply sl_cap. }
  assert (forall u j, u <> t -> rpos (pc s u) = Some j -> ~ freed s j -> ~ freed s' j) as KF.
  { intros u j N W NP Q. apply HF' in Q. destruct Q as [Q|(-> & Q)]; [auto|]. destruct EC as [(v & X & Y)|(v & X & _)].
    - apply (sl_next i). rewrite <- Y, Q. apply sl_cap.
    - apply N. apply (i_r s I u t i); auto. rewrite X. auto. }
  constructor.
  - intros k c0 w0 H. simpl in H. apply msg_in in H. destruct H as [(-> & H)|H].
    + injection H as -> ->. destruct EC as [(v & X & Y)|(v & X & Y)]; rewrite X in T.
      * right. destruct T as (A & B & C & D & F). exists i, v. splits; auto.
      * left. destruct T as (A & B & C). subst c. splits; auto. { apply sl_cap. } right. simpl. lia.
    + destruct (i_msg s I _ _ _ H) as [A|(j & v' & A)]; [left; auto|right; exists j, v'; auto].
  - intros k j r n H. destruct (i_acc s I _ _ _ _ H) as (A & B & C). red. splits; auto. destruct r.
    + destruct C as (C & [D|(u & v' & D)]); split; auto. destruct (Nat.eq_dec u t) as [->|N]; [|right; exists u, v'; rewrite HU; auto].
      left. destruct EC as [(v & X & Y)|(v & X & Y)]; rewrite X in D; [discriminate|]. injection D as <- <-. exists (view s t). simpl. rewrite upd_same. left. congruence.
    + destruct C as [D|(u & v' & D)]; auto. destruct (Nat.eq_dec u t) as [->|N]; [|right; exists u, v'; rewrite HU; auto].
      left. destruct EC as [(v & X & Y)|(v & X & Y)]; rewrite X in D; [|discriminate]. injection D as <- <-. exists (view s t). simpl. rewrite upd_same. left. congruence.
  - intros j H. apply HF. apply (i_two s I); auto.
  - intros j H. apply HP. apply (i_pub s I); auto.
  - intros u. destruct (Nat.eq_dec u t) as [->|N]; [rewrite HT; exact Logic.I|].
    rewrite HU by auto. pose proof (i_pc s I u) as X. pose proof (KP u) as KPu. pose proof (KF u) as KFu. destruct (pc s u) eqn:EU; unfold tinv in *; auto.
    + destruct X as (w & A & B). exists w. auto.
    + destruct X as (A & B & C & D). splits; auto.
    + destruct X as (A & B & C & D & F). splits; auto.
    + destruct X as (w & A & B). exists w. auto.
    + destruct X as (A & B & w & C & D). splits; auto. exists w. auto.
    + destruct X as (A & B & C). splits; auto.
  - intros u u' j A B. destruct (Nat.eq_dec u t) as [->|N]; [rewrite HT in A; discriminate|]. destruct (Nat.eq_dec u' t) as [->|N']; [rewrite HT in B; discriminate|].
    rewrite HU in A, B by auto. eapply (i_w s I); eauto.
  - intros u u' j A B. destruct (Nat.eq_dec u t) as [->|N]; [rewrite HT in A; discriminate|]. destruct (Nat.eq_dec u' t) as [->|N']; [rewrite HT in B; discriminate|].
    rewrite HU in A, B by auto. eapply (i_r s I); eauto.
  - intros j A B. apply HP' in A. destruct A as [A|(-> & A)]; [apply (i_val s I); auto|].
    destruct EC as [(v & X & Y)|(v & X & Y)]; rewrite X in T.
    + destruct T as (_ & _ & _ & (t1 & w1 & C & _) & D). exists t1, v, w1. auto.
    + exfalso. apply (sl_next i). rewrite <- A, Y. apply sl_cap.
  - apply (i_one s I).
  - apply (i_lt s I).
  - intros t1 j v1 w1 A. destruct (i_deq s I _ _ _ _ A) as (X & Z & U). splits; auto.
    intros u F. destruct (Nat.eq_dec u t) as [->|N]; [congruence|]. rewrite HU in F by auto. apply (U u); auto.
  - apply (i_nd s I).
  - apply (i_enq s I).
  - apply (i_clm s I).
  - apply (i_race s I).
Qed.

Lemma soft_goto : forall s t p w e, inv s -> incl (view s t) w -> forallb plain e = true ->
  wpos (pc s t) = None -> rpos (pc s t) = None -> wpos p = None -> rpos p = None -> tinv (goto s t p w e) t p -> inv (goto s t p w e).
Proof. intros. eapply (soft s _ t p w e); simpl; eauto. Qed.
Lemma step_inv : forall s l s', inv s -> step cap s l = Some s' -> inv s'.
Proof.
  intros s l s' I H.
  assert (forall t, incl (view s t) (view s t)) as R by (intros; apply incl_refl).
  assert (forall t w, incl (view s t) (w ++ view s t)) as R2 by (intros; apply incl_appr, incl_refl).
  destruct l as [t|t v|t|t k]; simpl in H.
  - destruct (pc s t) eqn:E; try discriminate. injection H as <-.
    apply (soft s _ t Idle (next s :: view s t) [EAct t (next s)]); simpl; auto; try (rewrite E; auto; fail).
    intros x. simpl. auto.
  - destruct (pc s t) eqn:E; try discriminate. injection H as <-. apply soft_goto; simpl; auto; rewrite E; auto.
  - destruct (pc s t) eqn:E; try discriminate. injection H as <-. apply soft_goto; simpl; auto; rewrite E; auto.
  - unfold run in H. destruct (pc s t) eqn:E; try discriminate.
    + destruct (k <=? pidx s); [|discriminate]. injection H as <-. apply soft_goto; simpl; auto; rewrite E; auto.
    + destruct (nth_error (msgs s (slot i)) k) as [(c & w)|] eqn:M; [|discriminate]. injection H as <-. apply nth_error_In in M.
      destruct (Nat.eqb_spec c i) as [->|N]; [|destruct (c <? i)]; apply soft_goto; simpl; auto; try (rewrite E; auto; fail).
      exists w. split; auto. rewrite upd_same. apply incl_appl, incl_refl.
    + destruct k as [|k].
      * destruct (Nat.eqb_spec (pidx s) i) as [P|P]; [|discriminate]. injection H as <-. apply inv_pcas; auto.
      * destruct (k <=? pidx s); [|discriminate]. injection H as <-. apply soft_goto; simpl; auto; rewrite E; auto.
    + rewrite (wr_ordered s I t v i E) in H. injection H as <-. apply inv_write; auto.
    + injection H as <-. apply inv_msg; auto. left. exists v. auto.
    + destruct (k <=? cidx s); [|discriminate]. injection H as <-. apply soft_goto; simpl; auto; rewrite E; auto.
    + destruct (nth_error (msgs s (slot i)) k) as [(c & w)|] eqn:M; [|discriminate]. injection H as <-. apply nth_error_In in M.
      destruct (Nat.eqb_spec c (S i)) as [->|N]; [|destruct (c <? S i)]; apply soft_goto; simpl; auto; try (rewrite E; auto; fail).
      exists w. split; auto. rewrite upd_same. apply incl_appl, incl_refl.
    + destruct k as [|k].
      * destruct (Nat.eqb_spec (cidx s) i) as [P|P]; [|discriminate]. injection H as <-. apply inv_ccas; auto.
      * destruct (k <=? cidx s); [|discriminate]. injection H as <-. apply soft_goto; simpl; auto; rewrite E; auto.
    + rewrite (rd_ordered s I t i E) in H. destruct (rd_value s I t i E) as (v & SV & _). rewrite SV in H. injection H as <-. apply inv_read; auto.
    + injection H as <-. apply inv_msg; auto. right. exists v. auto.
Qed.
Lemma reach_inv : forall s, reachable (step cap) (init_state cap) s -> inv s.
Proof. apply (reachable_inv (step cap) inv (init_state cap) init_inv step_inv). Qed.
(** The actions of the users, and who dequeues. *)
Fixpoint good (l : list event) : Prop := match l with [] => True | EEnq t _ _ w :: r => (forall n, In (EAct t n) r -> In n w) /\ good r | _ :: r => good r end.
Record inv2 (s : st) : Prop := {
  j_act : forall t n, In (EAct t n) (log s) -> In n (view s t);
  j_good : good (log s);
  j_rd : forall t i, pc s t = CRead i -> In (EClaim t i) (log s);
  j_dq : forall t i v w, In (EDeq t i v w) (log s) -> In (EClaim t i) (log s) }.
Definition neutral (e : event) : Prop := match e with EFull _ _ | EEmpty _ | ERace _ _ => True | _ => False end.
Lemma inv2_goto : forall s t p w e, inv2 s -> incl (view s t) w -> (forall x, In x e -> neutral x) -> (forall i, p <> CRead i) -> inv2 (goto s t p w e).
Proof.
  intros s t p w e [A B C D] W N P. constructor; simpl.
  - intros t' n H. apply in_app_or in H. destruct H as [H|H]; [destruct (N _ H)|]. destruct (Nat.eq_dec t' t) as [->|X]; [rewrite upd_same; auto | rewrite upd_other; auto].
  - clear - B N. induction e as [|x r IH]; simpl; auto. pose proof (N x (or_introl eq_refl)) as H. assert (good (r ++ log s)) by (apply IH; intros; apply N; right; auto). destruct x; simpl in *; tauto.
  - intros t' i H. apply in_or_app. right. destruct (Nat.eq_dec t' t) as [->|X]; [rewrite upd_same in H; destruct (P i H) | rewrite upd_other in H; auto].
  - intros t' i v w0 H. apply in_app_or in H. apply in_or_app. destruct H as [H|H]; [destruct (N _ H)|]. right. eauto.
Qed.
Lemma step_inv2 : forall s l s', inv2 s -> step cap s l = Some s' -> inv2 s'.
Proof.
  intros s l s' K H.
  assert (forall t, incl (view s t) (view s t)) as R by (intros; apply incl_refl).
  assert (forall t w, incl (view s t) (w ++ view s t)) as R2 by (intros; apply incl_appr, incl_refl).
  assert (forall t p, (forall i, p <> CRead i) -> forall t' i, upd (pc s) t p t' = CRead i -> pc s t' = CRead i) as Q.
  { intros t p P t' i X. destruct (Nat.eq_dec t' t) as [->|N]; [rewrite upd_same in X; destruct (P i X) | rewrite upd_other in X; auto]. }
  destruct l as [t|t v|t|t k]; simpl in H.
  - destruct (pc s t) eqn:E; try discriminate. injection H as <-. destruct K as [A B C D]. constructor; simpl; auto.
    + intros t' n [X|X]; [injection X as <- <-; rewrite upd_same; left; auto|]. destruct (Nat.eq_dec t' t) as [->|N]; [rewrite upd_same; right; auto | rewrite upd_other; auto].
    + intros t' i X. right. apply C. apply Q in X; auto. discriminate.
    + intros t' i v w [X|X]; [discriminate|]. right. eauto.
  - destruct (pc s t) eqn:E; try discriminate. injection H as <-. apply inv2_goto; simpl; auto; try tauto; discriminate.
  - destruct (pc s t) eqn:E; try discriminate. injection H as <-. apply inv2_goto; simpl; auto; try tauto; discriminate.
  - unfold run in H. destruct (pc s t) eqn:E; try discriminate.
    + destruct (k <=? pidx s); [|discriminate]. injection H as <-. apply inv2_goto; simpl; auto; try tauto; discriminate.
    + destruct (nth_error (msgs s (slot i)) k) as [(c & w)|] eqn:M; [|discriminate]. injection H as <-.
      destruct (c =? i); [|destruct (c <? i)]; apply inv2_goto; simpl; auto; try tauto; try discriminate. intros x [<-|[]]; simpl; auto.
    + destruct k as [|k].
      * destruct (Nat.eqb_spec (pidx s) i) as [P|P]; [|discriminate]. injection H as <-. destruct K as [A B C D]. constructor; simpl; auto.
        -- intros t' n [X|X]; [discriminate|auto].
        -- intros t' j X. right. apply C. apply Q in X; auto. discriminate.
        -- intros t' j v' w [X|X]; [discriminate|]. right. eauto.
      * destruct (k <=? pidx s); [|discriminate]. injection H as <-. apply inv2_goto; simpl; auto; try tauto; discriminate.
    + destruct (ordered (acc s (slot i)) (view s t)); injection H as <-.
      * destruct K as [A B C D]. constructor; simpl; auto.
        -- intros t' n X. destruct (Nat.eq_dec t' t) as [->|N]; [rewrite upd_same; right; auto | rewrite upd_other; auto].
        -- intros t' j X. apply C. apply Q in X; auto. discriminate.
      * apply inv2_goto; simpl; auto; try discriminate. intros x [<-|[]]; simpl; auto.
    + injection H as <-. destruct K as [A B C D]. constructor; simpl; auto. intros t' j X. apply C. apply Q in X; auto. discriminate.
    + destruct (k <=? cidx s); [|discriminate]. injection H as <-. apply inv2_goto; simpl; auto; try tauto; discriminate.
    + destruct (nth_error (msgs s (slot i)) k) as [(c & w)|] eqn:M; [|discriminate]. injection H as <-.
      destruct (c =? S i); [|destruct (c <? S i)]; apply inv2_goto; simpl; auto; try tauto; try discriminate. intros x [<-|[]]; simpl; auto.
    + destruct k as [|k].
      * destruct (Nat.eqb_spec (cidx s) i) as [P|P]; [|discriminate]. injection H as <-. destruct K as [A B C D]. constructor; simpl; auto.
        -- intros t' n [X|X]; [discriminate|auto].
        -- intros t' j X. destruct (Nat.eq_dec t' t) as [->|N]; [rewrite upd_same in X; injection X as <-; auto | rewrite upd_other in X; auto].
        -- intros t' j v' w [X|X]; [discriminate|]. right. eauto.
      * destruct (k <=? cidx s); [|discriminate]. injection H as <-. apply inv2_goto; simpl; auto; try tauto; discriminate.
    + assert (inv2 (goto s t Idle (view s t) [ERace t i])) as G.
      { apply inv2_goto; simpl; auto; try discriminate. intros x [<-|[]]; simpl; auto. }
      destruct (ordered (acc s (slot i)) (view s t)); [|injection H as <-; auto].
      destruct (stor s (slot i)) as [v|]; [|injection H as <-; auto]. injection H as <-. clear G. destruct K as [A B C D]. constructor; simpl; auto.
      * intros t' n [X|X]; [discriminate|]. destruct (Nat.eq_dec t' t) as [->|N]; [rewrite upd_same; right; auto | rewrite upd_other; auto].
      * intros t' j X. right. apply C. apply Q in X; auto. discriminate.
      * intros t' j v' w [X|X]; [injection X as <- <- <- <-; right; apply C; auto|]. right. eauto.
    + injection H as <-. destruct K as [A B C D]. constructor; simpl; auto. intros t' j X. apply C. apply Q in X; auto. discriminate.
Qed.
Lemma reach_inv2 : forall s, reachable (step cap) (init_state cap) s -> inv2 s.
Proof. apply (reachable_inv (step cap) inv2 (init_state cap)); [|exact step_inv2]. constructor; simpl; intros; try contradiction; try discriminate; auto. Qed.
Lemma good_split : forall l1 t i v w l2, good (l1 ++ EEnq t i v w :: l2) -> forall n, In (EAct t n) l2 -> In n w.
Proof. induction l1 as [|x r IH]; simpl; intros t i v w l2 H; [apply H|]. destruct x; eauto. destruct H as (_ & H). eauto. Qed.
End Cap.
