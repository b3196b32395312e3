(** Invariant of lock elision. *)
From Coq Require Import List Arith Bool Lia.
From Verif Require Import Base Rtm RtmSpec.
Import ListNotations.

(** The locks a thread has apart from its transaction. *)
Definition rheld (y : thr) : list nat := match tx y with None => held y | Some x => h0 x end.
Definition inchk (p : pc_t) : nat := match p with Chk _ _ | TChk _ => 1 | _ => 0 end.
(** The owner of l after a transaction of t. *)
Definition expect (t : nat) (h h' : list nat) (o : nat -> option nat) (l : nat) : option nat :=
  if existsb (Nat.eqb l) h' then Some t else if existsb (Nat.eqb l) h then None else o l.
(** What the transaction has done is a history of ordinary locks, from every state that agrees with its read-set. *)
Definition replays (t : nat) (x : tx_t) (h' : list nat) : Prop :=
  forall d o, (forall a v, In (D a, v) (rs x) -> d a = v) -> (forall l, In (W l, 0) (rs x) -> o l = None) -> (forall l, In l (h0 x) -> o l = Some t) ->
  exists d' o', plain_run (d, o) (tlog x) = Some (d', o') /\ (forall a, d' a = match look (ws x) (D a) with Some v => v | None => d a end) /\ (forall l, o' l = expect t (h0 x) h' o l).

Section P.
  Variable RT : nat.
  Record TX (t : nat) (m : addr -> nat) (y : thr) (x : tx_t) (eli : list nat) : Prop := {
    X_rs : forall a v, In (a, v) (rs x) -> m a = v;
    X_ws : forall l v, look (ws x) (W l) = Some v -> v = 0 /\ In l (h0 x);
    X_h0 : NoDup (h0 x);
    X_org : match org x with InLock l r => ~ In l (h0 x) /\ r < RT /\ tries y <= S r | InTry l => ~ In l (h0 x) /\ tries y <= RT end;
    X_held : NoDup (held y);
    X_eli : NoDup eli;
    X_sub : incl eli (held y);
    X_free : forall l, In l eli -> look (ws x) (W l) = Some 0 \/ look (ws x) (W l) = None /\ In (W l, 0) (rs x) /\ ~ In l (h0 x);
    X_real : forall l, In l (held y) -> ~ In l eli -> In l (h0 x) /\ look (ws x) (W l) = None;
    X_gone : forall l, In l (h0 x) -> ~ In l (held y) -> look (ws x) (W l) = Some 0;
    X_depth : depth x = length eli + inchk (pc y);
    X_one : 1 <= depth x;
    X_pc : match pc y with
           | Idle => True
           | Begin l r => r < RT /\ ~ In l (held y)
           | Chk l r => ~ In l (held y)
           | TBegin l | TChk l => ~ In l (held y)
           | Unl l v => In l (held y) /\ (v = 0 -> In l eli) /\ (v <> 0 -> ~ In l eli)
           | _ => False
           end;
    X_rep : replays t x (held y)
  }.
  Definition NT (y : thr) : Prop :=
    NoDup (held y) /\
    match pc y with
    | Idle => tries y <= RT
    | Begin l r => ~ In l (held y) /\ tries y <= r /\ r <= RT
    | Failed l r _ | Spin l r => ~ In l (held y) /\ tries y <= S r /\ r < RT
    | Fall l => ~ In l (held y) /\ tries y <= RT
    | TBegin l | TFailed l => ~ In l (held y) /\ tries y <= RT
    | Unl l v => In l (held y) /\ v = 1 /\ tries y <= RT
    | _ => False
    end.
  Definition TI (t : nat) (m : addr -> nat) (y : thr) : Prop :=
    match tx y with None => NT y | Some x => exists eli, TX t m y x eli end.
  Definition GI (m : addr -> nat) (f : nat -> thr) (lg : list event) : Prop :=
    exists d o, plain_run plain_init lg = Some (d, o) /\ (forall a, d a = m (D a)) /\
      (forall t l, In l (rheld (f t)) -> o l = Some t) /\
      (forall l t, o l = Some t -> In l (rheld (f t)) /\ m (W l) = 1) /\
      (forall l, o l = None -> m (W l) = 0).
  Record Inv (s : st) : Prop := { I_bad : bad s = false; I_g : GI (mem s) (th s) (log s); I_t : forall t, TI t (mem s) (th s t) }.

  Lemma addr_eqb_eq x y : addr_eqb x y = true <-> x = y.
  Proof. destruct x, y; simpl; rewrite ?Nat.eqb_eq; split; intros H; try congruence; injection H; auto. Qed.
  Lemma addr_eqb_refl x : addr_eqb x x = true.
  Proof. now apply addr_eqb_eq. Qed.
  Lemma addr_eqb_neq x y : x <> y -> addr_eqb x y = false.
  Proof. intros H. destruct (addr_eqb x y) eqn:E; auto. apply addr_eqb_eq in E. contradiction. Qed.
  Lemma mem_in l h : existsb (Nat.eqb l) h = true <-> In l h.
  Proof. rewrite existsb_exists. split; [intros (z & H & E); apply Nat.eqb_eq in E; now subst | intros H; exists l; split; auto; apply Nat.eqb_refl]. Qed.
  Lemma mem_nin l h : existsb (Nat.eqb l) h = false <-> ~ In l h.
  Proof. rewrite <- mem_in. destruct (existsb _ _); split; congruence. Qed.
  Lemma plain_run_app p l1 l2 : plain_run p (l1 ++ l2) = match plain_run p l2 with Some q => plain_run q l1 | None => None end.
  Proof. induction l1 as [|e l1 IH]; simpl. { destruct (plain_run p l2); auto. } rewrite IH. destruct (plain_run p l2); auto. Qed.

  Lemma touches_rs x a v : In (a, v) (rs x) -> touches x a = true.
  Proof. intros H. unfold touches. apply orb_true_iff. left. apply existsb_exists. exists (a, v). split; auto. apply addr_eqb_refl. Qed.

  Lemma TX_mem t m m' y x eli : (forall a, touches x a = true -> m' a = m a) -> TX t m y x eli -> TX t m' y x eli.
  Proof. intros E H. destruct H. constructor; auto. intros a v Ha. rewrite (E a). { auto. } eapply touches_rs; eauto. Qed.
  Lemma TI_mem t m m' y : (forall x a, tx y = Some x -> touches x a = true -> m' a = m a) -> TI t m y -> TI t m' y.
  Proof. unfold TI. destruct (tx y) as [x|]; auto. intros E (eli & H). exists eli. apply TX_mem with (m := m); auto. intros a. now apply E. Qed.
  Lemma TX_rollback t m y x eli c : TX t m y x eli -> NT (rollback y x c).
  Proof.
    intros H. unfold rollback, NT. simpl. split; [apply (X_h0 _ _ _ _ _ H)|].
    pose proof (X_org _ _ _ _ _ H) as O. destruct (org x); simpl; tauto.
  Qed.
  Lemma rheld_rollback y x c : tx y = Some x -> rheld (rollback y x c) = rheld y.
  Proof. intros E. unfold rheld, rollback. simpl. now rewrite E. Qed.

  Lemma kill_same f t xs : kill f t xs t = f t.
  Proof. unfold kill. now rewrite Nat.eqb_refl. Qed.
  Lemma kill_rheld f t xs u : rheld (kill f t xs u) = rheld (f u).
  Proof.
    unfold kill. destruct (Nat.eqb u t); auto. destruct (tx (f u)) as [x|] eqn:E; auto. destruct (existsb _ _); auto. now apply rheld_rollback.
  Qed.
  Lemma kill_TI f t xs m m' u : u <> t -> (forall a, ~ In a xs -> m' a = m a) -> TI u m (f u) -> TI u m' (kill f t xs u).
  Proof.
    intros N E H. unfold kill. rewrite (proj2 (Nat.eqb_neq u t) N). destruct (tx (f u)) as [x|] eqn:Ex.
    - destruct (existsb (touches x) xs) eqn:T.
      + unfold TI in H. rewrite Ex in H. destruct H as (eli & H). unfold TI. simpl. eapply TX_rollback; eauto.
      + apply TI_mem with (m := m); auto. intros x0 a E0 Ta. rewrite Ex in E0. injection E0 as <-. apply E. intros Hin.
        assert (existsb (touches x) xs = true) by (apply existsb_exists; eauto). congruence.
    - apply TI_mem with (m := m); auto. intros x0 a E0. congruence.
  Qed.

  Lemma inv_local s s' t : Inv s -> mem s' = mem s -> log s' = log s -> bad s' = bad s -> (forall u, u <> t -> th s' u = th s u) ->
    rheld (th s' t) = rheld (th s t) -> TI t (mem s) (th s' t) -> Inv s'.
  Proof.
    intros [B G T] Em El Eb Eu Er Ht. constructor; [congruence| |].
    - destruct G as (d & o & G1 & G2 & G3 & G4 & G5). rewrite Em, El. exists d, o. splits; auto.
      + intros u l. destruct (Nat.eq_dec u t); [subst; rewrite Er|rewrite Eu by auto]; auto.
      + intros l u Ho. destruct (Nat.eq_dec u t); [subst; rewrite Er|rewrite Eu by auto]; auto.
    - intros u. rewrite Em. destruct (Nat.eq_dec u t); [now subst|rewrite Eu by auto; auto].
  Qed.

  (** Reading of a location in a transaction. *)
  Lemma TX_load s t y x eli a v y1 : tx y = Some x -> TX t (mem s) y x eli -> load s y a = (v, y1) ->
    exists x1, tx y1 = Some x1 /\ TX t (mem s) y1 x1 eli /\ pc y1 = pc y /\ held y1 = held y /\ h0 x1 = h0 x /\ ws x1 = ws x /\ depth x1 = depth x /\ tlog x1 = tlog x /\
      (look (ws x1) a = Some v \/ look (ws x1) a = None /\ In (a, v) (rs x1)).
  Proof.
    intros Ex H. unfold load. rewrite Ex. destruct (look (ws x) a) as [w|] eqn:El; intros E; injection E as <- <-.
    - exists x. splits; auto.
    - eexists. simpl. splits; try reflexivity.
      + destruct H as [? ? ? ? ? ? ? Hf ? ? ? ? ? Hr]. constructor; simpl; auto.
        * intros a0 v0 [Ea|Ha]; [injection Ea as <- <-; auto | auto].
        * intros l Hl. destruct (Hf l Hl) as [?|(? & ? & ?)]; auto.
        * intros d o K1 K2 K3. apply Hr; simpl in *; auto.
      + right. split; [exact El|simpl; auto].
  Qed.

  Lemma expect_acq t h h' o l : forall k, expect t h (l :: h') o k = upd (expect t h h' o) l (Some t) k.
  Proof. intros k. unfold expect, upd. simpl. destruct (Nat.eqb k l) eqn:E; simpl; auto. Qed.
  Lemma expect_rel t h h' o l : NoDup h' -> In l h' -> forall k, (k = l -> In l h \/ o l = None) -> expect t h (remove Nat.eq_dec l h') o k = upd (expect t h h' o) l None k.
  Proof.
    intros N Hl k Hk. unfold expect, upd. destruct (Nat.eqb_spec k l) as [->|Nk].
    - rewrite (proj2 (mem_nin l (remove Nat.eq_dec l h'))) by apply remove_In.
      destruct (existsb (Nat.eqb l) h) eqn:E; auto. apply mem_nin in E. destruct (Hk eq_refl); tauto.
    - destruct (existsb (Nat.eqb k) h') eqn:E.
      + apply mem_in in E. rewrite (proj2 (mem_in k _)); auto. now apply in_in_remove.
      + apply mem_nin in E. rewrite (proj2 (mem_nin k _)); auto. intros Hc. apply in_remove in Hc. tauto.
  Qed.
  Lemma remove_NoDup (l : nat) h : NoDup h -> NoDup (remove Nat.eq_dec l h).
  Proof.
    induction 1 as [|z h Hz Hn IH]; simpl; [constructor|]. destruct (Nat.eq_dec l z); auto. constructor; auto. intros Hc. apply in_remove in Hc. tauto.
  Qed.
  Lemma remove_len (l : nat) h : NoDup h -> In l h -> length h = S (length (remove Nat.eq_dec l h)).
  Proof.
    induction 1 as [|z h Hz Hn IH]; simpl; [tauto|]. intros [->|Hl].
    - destruct (Nat.eq_dec l l); [|tauto]. rewrite notin_remove; auto.
    - destruct (Nat.eq_dec l z); [subst; tauto|]. simpl. now rewrite <- IH.
  Qed.
  Lemma remove_incl (l : nat) h k : In k (remove Nat.eq_dec l h) <-> In k h /\ k <> l.
  Proof. split; [apply in_remove|]. intros [? ?]. now apply in_in_remove. Qed.

  Ltac tx_fields H := destruct H as [Hrs Hws Hh0 Horg Hheld Heli Hsub Hfree Hreal Hgone Hdepth Hone Hpc Hrep].

  (** The critical section is entered in the transaction. *)
  Lemma TX_acq t m y x eli l tr : TX t m y x eli -> inchk (pc y) = 1 -> ~ In l (held y) -> tr = tries y ->
    (look (ws x) (W l) = Some 0 \/ look (ws x) (W l) = None /\ In (W l, 0) (rs x) /\ ~ In l (h0 x)) ->
    TX t m (mkThr Idle (l :: held y) (Some (mkTx (depth x) (org x) (h0 x) (rs x) (ws x) (EAcq t l :: tlog x))) tr)
       (mkTx (depth x) (org x) (h0 x) (rs x) (ws x) (EAcq t l :: tlog x)) (l :: eli).
  Proof.
    intros H Hc Hn -> Hl. tx_fields H. constructor; simpl; auto.
    - now constructor.
    - constructor; auto.
    - intros k [->|Hk]; simpl; auto.
    - intros k [->|Hk]; auto.
    - intros k [->|Hk] Hnk; [tauto|]. apply Hreal; auto.
    - rewrite Hc in Hdepth. lia.
    - intros d o K1 K2 K3. destruct (Hrep d o K1 K2 K3) as (d' & o' & R1 & R2 & R3). simpl. rewrite R1. simpl.
      assert (E : o' l = None).
      { rewrite R3. unfold expect. rewrite (proj2 (mem_nin l (held y)) Hn). destruct (existsb (Nat.eqb l) (h0 x)) eqn:E; auto.
        destruct Hl as [Hl|(Hl & Hi & _)]; [|now apply K2]. apply Hws in Hl. apply mem_nin in E. tauto. }
      rewrite E. do 2 eexists. splits; [reflexivity|auto|]. intros k. rewrite expect_acq. unfold upd. destruct (Nat.eqb k l); auto.
  Qed.

  (** An event of the user that changes neither locks nor memory. *)
  Lemma TX_read t m y x eli a v : TX t m y x eli -> (look (ws x) (D a) = Some v \/ look (ws x) (D a) = None /\ In (D a, v) (rs x)) ->
    TX t m (mkThr (pc y) (held y) (Some (mkTx (depth x) (org x) (h0 x) (rs x) (ws x) (ERead t a v :: tlog x))) (tries y))
       (mkTx (depth x) (org x) (h0 x) (rs x) (ws x) (ERead t a v :: tlog x)) eli.
  Proof.
    intros H Hl. tx_fields H. constructor; simpl; auto.
    intros d o K1 K2 K3. destruct (Hrep d o K1 K2 K3) as (d' & o' & R1 & R2 & R3). simpl. rewrite R1. simpl.
    assert (E : d' a = v). { rewrite R2. destruct Hl as [->|[-> Hi]]; auto. }
    rewrite E, Nat.eqb_refl. do 2 eexists. splits; [reflexivity|auto|auto].
  Qed.

  Lemma TX_write t m y x eli a v : TX t m y x eli ->
    TX t m (mkThr (pc y) (held y) (Some (mkTx (depth x) (org x) (h0 x) (rs x) ((D a, v) :: ws x) (EWrite t a v :: tlog x))) (tries y))
       (mkTx (depth x) (org x) (h0 x) (rs x) ((D a, v) :: ws x) (EWrite t a v :: tlog x)) eli.
  Proof.
    intros H. tx_fields H. constructor; simpl; auto.
    intros d o K1 K2 K3. destruct (Hrep d o K1 K2 K3) as (d' & o' & R1 & R2 & R3). simpl. rewrite R1. simpl.
    do 2 eexists. splits; [reflexivity| |auto]. intros b. unfold upd. destruct (Nat.eqb b a); auto.
  Qed.

  (** unlock() of a lock that was really acquired, in a transaction. *)
  Lemma TX_store t m y x eli l tr : TX t m y x eli -> inchk (pc y) = 0 -> In l (held y) -> ~ In l eli -> tr = tries y ->
    TX t m (mkThr Idle (remove Nat.eq_dec l (held y)) (Some (mkTx (depth x) (org x) (h0 x) (rs x) ((W l, 0) :: ws x) (ERel t l :: tlog x))) tr)
       (mkTx (depth x) (org x) (h0 x) (rs x) ((W l, 0) :: ws x) (ERel t l :: tlog x)) eli.
  Proof.
    intros H Hc Hl Hn ->. tx_fields H. destruct (Hreal l Hl Hn) as [Hl0 Hlw]. constructor; simpl; auto.
    - intros k v. destruct (Nat.eqb_spec k l) as [->|]; [intros E; injection E as <-; auto|auto].
    - now apply remove_NoDup.
    - intros k Hk. apply remove_incl. split; auto. intros ->. tauto.
    - intros k Hk. destruct (Nat.eqb_spec k l) as [->|]; auto.
    - intros k Hk Hnk. apply remove_incl in Hk. rewrite (proj2 (Nat.eqb_neq k l)) by tauto. apply Hreal; tauto.
    - intros k Hk Hnk. destruct (Nat.eqb_spec k l) as [->|Nk]; auto. apply Hgone; auto. intros Hc'. apply Hnk. apply remove_incl. auto.
    - rewrite Hc in Hdepth. lia.
    - intros d o K1 K2 K3. destruct (Hrep d o K1 K2 K3) as (d' & o' & R1 & R2 & R3). simpl. rewrite R1. simpl.
      assert (E : o' l = Some t). { rewrite R3. unfold expect. now rewrite (proj2 (mem_in l (held y)) Hl). }
      rewrite E, Nat.eqb_refl. do 2 eexists. splits; [reflexivity|auto|]. intros k. rewrite expect_rel; auto.
      unfold upd. destruct (Nat.eqb k l); auto.
  Qed.

  (** unlock() of an elided lock, inner transaction. *)
  Lemma TX_end t m y x eli l : TX t m y x eli -> inchk (pc y) = 0 -> In l eli ->
    forall n, n = length (remove Nat.eq_dec l eli) -> 1 <= n ->
    TX t m (mkThr Idle (remove Nat.eq_dec l (held y)) (Some (mkTx n (org x) (h0 x) (rs x) (ws x) (ERel t l :: tlog x))) (tries y))
       (mkTx n (org x) (h0 x) (rs x) (ws x) (ERel t l :: tlog x)) (remove Nat.eq_dec l eli).
  Proof.
    intros H Hc Hl n Hn Hn1. tx_fields H. constructor; simpl; auto.
    - now apply remove_NoDup.
    - now apply remove_NoDup.
    - intros k Hk. apply remove_incl in Hk. apply remove_incl. split; [apply Hsub|]; tauto.
    - intros k Hk. apply remove_incl in Hk. apply Hfree; tauto.
    - intros k Hk Hnk. apply remove_incl in Hk. apply Hreal; [tauto|]. intros Hc'. apply Hnk. apply remove_incl. tauto.
    - intros k Hk Hnk. destruct (in_dec Nat.eq_dec k (held y)) as [Hh|]; [|auto].
      destruct (Nat.eq_dec k l) as [->|Nk]; [|exfalso; apply Hnk; apply remove_incl; auto].
      destruct (Hfree l Hl) as [?|(? & Hi & ?)]; tauto.
    - lia.
    - intros d o K1 K2 K3. destruct (Hrep d o K1 K2 K3) as (d' & o' & R1 & R2 & R3). simpl. rewrite R1. simpl.
      assert (E : o' l = Some t). { rewrite R3. unfold expect. now rewrite (proj2 (mem_in l (held y)) (Hsub l Hl)). }
      rewrite E, Nat.eqb_refl. do 2 eexists. splits; [reflexivity|auto|]. intros k. rewrite expect_rel; auto.
      + unfold upd. destruct (Nat.eqb k l); auto.
      + intros ->. destruct (Hfree l Hl) as [?|(? & Hi & ?)]; auto. left. now apply (Hws l 0).
  Qed.

  (** A step of a thread outside of transactions that does not write memory. *)
  Lemma GI_event s t y e : GI (mem s) (th s) (log s) -> rheld y = rheld (th s t) ->
    (match e with ERead _ a v => mem s (D a) = v | ETryFail _ _ => True | _ => False end) ->
    GI (mem s) (upd (th s) t y) (e :: log s).
  Proof.
    intros (d & o & G1 & G2 & G3 & G4 & G5) Er He. exists d, o. splits; auto.
    - simpl. rewrite G1. destruct e; simpl; try contradiction; auto. rewrite G2, He, Nat.eqb_refl. auto.
    - intros u l. upds; [rewrite Er|]; auto.
    - intros l u Ho. upds; [rewrite Er|]; auto.
  Qed.

  Variable RT1 : 1 <= RT.

  Lemma inv_init : Inv init_state.
  Proof.
    constructor; simpl; auto.
    - exists (fun _ => 0), (fun _ => None). splits; simpl; auto. { intros t l []. } intros l t E; discriminate.
    - intros t. unfold TI. simpl. split; simpl; [constructor|lia].
  Qed.

  Ltac upd_eq := rewrite ?upd_same; auto.

  Lemma inv_lock s t k y' : Inv s -> pc (th s t) = Idle -> ~ In k (held (th s t)) ->
    (y' = mkThr (Begin k 0) (held (th s t)) (tx (th s t)) (match tx (th s t) with None => 0 | _ => tries (th s t) end) \/ y' = with_pc (th s t) (TBegin k)) ->
    Inv (set_th s t y').
  Proof.
    intros H Hp Hn Hy. pose proof (I_t _ H t) as T.
    assert (Er : rheld y' = rheld (th s t)) by (destruct Hy as [->| ->]; reflexivity).
    apply inv_local with (s := s) (t := t); simpl; auto.
    - intros u Hu. now apply upd_other.
    - now rewrite upd_same.
    - rewrite upd_same. unfold TI in *. destruct (tx (th s t)) as [x|] eqn:Ex.
      + destruct T as (eli & T). assert (E : tx y' = Some x) by (destruct Hy as [->| ->]; simpl; rewrite ?Ex; auto). rewrite E. exists eli.
        tx_fields T. destruct Hy as [->| ->]; constructor; simpl; auto; rewrite Hp in Hdepth; simpl in Hdepth; auto.
      + assert (E : tx y' = None) by (destruct Hy as [->| ->]; simpl; rewrite ?Ex; auto). rewrite E.
        unfold NT in *. rewrite Hp in T. destruct Hy as [->| ->]; simpl; tauto || (splits; try tauto; lia).
  Qed.

  Lemma inv_abort s t x c : Inv s -> tx (th s t) = Some x -> Inv (set_th s t (rollback (th s t) x c)).
  Proof.
    intros H Ex. pose proof (I_t _ H t) as T. unfold TI in T. rewrite Ex in T. destruct T as (eli & T).
    apply inv_local with (s := s) (t := t); simpl; auto.
    - intros u Hu. now apply upd_other.
    - rewrite upd_same. now apply rheld_rollback.
    - rewrite upd_same. unfold TI. simpl. eapply TX_rollback; eauto.
  Qed.

  Lemma inv_read s t a v y : Inv s -> pc (th s t) = Idle -> load s (th s t) (D a) = (v, y) -> Inv (record (set_th s t y) t (ERead t a v)).
  Proof.
    intros H Hp Hl. pose proof (I_t _ H t) as T. unfold TI in T. unfold record. simpl. rewrite upd_same.
    destruct (tx (th s t)) as [x|] eqn:Ex.
    - destruct T as (eli & T). destruct (TX_load _ _ _ _ _ _ _ _ Ex T Hl) as (x1 & E1 & T1 & P1 & P2 & P3 & P4 & P5 & P6 & P7). rewrite E1.
      apply inv_local with (s := s) (t := t); simpl; auto.
      + intros u Hu. now rewrite !upd_other.
      + rewrite upd_same. unfold rheld. simpl. rewrite Ex. auto.
      + rewrite upd_same. unfold TI. simpl. exists eli. now apply TX_read.
    - unfold load in Hl. rewrite Ex in Hl. injection Hl as <- <-. rewrite Ex. constructor; simpl.
      + apply (I_bad _ H).
      + apply GI_event; auto. apply (I_g _ H).
      + intros u. upds; [|apply (I_t _ H)]. unfold TI. now rewrite Ex.
  Qed.

  Lemma inv_write s t a v : Inv s -> pc (th s t) = Idle -> Inv (let s1 := record s t (EWrite t a v) in store s1 t (th s1 t) (D a) v).
  Proof.
    intros H Hp. pose proof (I_t _ H t) as T. unfold TI in T. unfold record. simpl.
    destruct (tx (th s t)) as [x|] eqn:Ex.
    - destruct T as (eli & T). simpl. rewrite upd_same. unfold store. simpl.
      apply inv_local with (s := s) (t := t); simpl; auto.
      + intros u Hu. now rewrite !upd_other.
      + rewrite upd_same. unfold rheld. simpl. now rewrite Ex.
      + rewrite upd_same. unfold TI. simpl. exists eli. now apply TX_write.
    - simpl. unfold store. rewrite Ex. constructor; simpl.
      + apply (I_bad _ H).
      + destruct (I_g _ H) as (d & o & G1 & G2 & G3 & G4 & G5). exists (upd d a v), o. splits; auto.
        * simpl. rewrite G1. reflexivity.
        * intros b. unfold upd, poke. simpl. destruct (Nat.eqb b a); auto.
        * intros u l. upds; auto. rewrite kill_rheld. auto.
        * intros l u Ho. apply G4 in Ho as [Ho1 Ho2]. unfold poke. simpl. split; auto. upds; auto. rewrite kill_rheld. auto.
      + intros u. upds; [unfold TI; now rewrite Ex|]. apply kill_TI with (m := mem s); auto; [|apply (I_t _ H)].
        intros b Hb. unfold poke. rewrite addr_eqb_neq; auto. intros ->. apply Hb. simpl. auto.
  Qed.

  (** A location a thread loads is 0 only if nobody else really has the lock. *)
  Lemma load_zero s t y l : Inv s -> mem s (W l) = 0 -> In l (rheld (th s t)) -> y = th s t -> False.
  Proof. intros H Hm Hl _. destruct (I_g _ H) as (d & o & G1 & G2 & G3 & G4 & G5). apply G3 in Hl. apply G4 in Hl. lia. Qed.
  Lemma held_one s t l : Inv s -> In l (rheld (th s t)) -> mem s (W l) = 1.
  Proof. intros H Hl. destruct (I_g _ H) as (d & o & G1 & G2 & G3 & G4 & G5). apply G3 in Hl. apply G4 in Hl. tauto. Qed.

  Lemma inv_unlock s t k v y : Inv s -> pc (th s t) = Idle -> In k (held (th s t)) -> load s (th s t) (W k) = (v, y) -> Inv (set_th s t (with_pc y (Unl k v))).
  Proof.
    intros H Hp Hk Hl. pose proof (I_t _ H t) as T. unfold TI in T.
    destruct (tx (th s t)) as [x|] eqn:Ex.
    - destruct T as (eli & T). destruct (TX_load _ _ _ _ _ _ _ _ Ex T Hl) as (x1 & E1 & T1 & P1 & P2 & P3 & P4 & P5 & P6 & P7).
      apply inv_local with (s := s) (t := t); simpl; auto.
      + intros u Hu. now rewrite !upd_other.
      + rewrite upd_same. unfold rheld. simpl. rewrite Ex, E1. auto.
      + rewrite upd_same. unfold TI. simpl. rewrite E1. exists eli. tx_fields T1. constructor; simpl; auto.
        * rewrite P1, Hp in Hdepth. auto.
        * rewrite P2. splits; auto.
          -- intros ->. destruct (in_dec Nat.eq_dec k eli) as [|Hn]; auto. exfalso.
             rewrite <- P2 in Hk. destruct (Hreal k Hk Hn) as [R1 R2]. rewrite R2 in P7. destruct P7 as [|[_ Hi]]; [discriminate|].
             apply Hrs in Hi. rewrite P3 in R1. eapply load_zero; eauto. unfold rheld. now rewrite Ex.
          -- intros Hv He. destruct (Hfree k He) as [E|(E & Hi & _)]; rewrite E in P7.
             ++ destruct P7 as [E7|[E7 _]]; congruence.
             ++ destruct P7 as [E7|[_ E7]]; [congruence|]. apply Hrs in E7. apply Hrs in Hi. congruence.
    - unfold load in Hl. rewrite Ex in Hl. injection Hl as <- <-.
      apply inv_local with (s := s) (t := t); simpl; auto.
      + intros u Hu. now rewrite !upd_other.
      + rewrite upd_same. unfold rheld. simpl. rewrite Ex. auto.
      + rewrite upd_same. unfold TI. simpl. rewrite Ex. unfold NT in *. simpl. rewrite Hp in T. splits; try tauto.
        apply held_one with (t := t); auto. unfold rheld. now rewrite Ex.
  Qed.

  (** lock() or try_lock() has found the lock free in a transaction. *)
  Lemma inv_chk s t l v y : Inv s -> (exists r, pc (th s t) = Chk l r) \/ pc (th s t) = TChk l -> load s (th s t) (W l) = (v, y) ->
    exists x, tx y = Some x /\ (v = 0 -> Inv (acquired (set_th s t y) t l)) /\ (forall c, Inv (set_th s t (rollback y x c))).
  Proof.
    intros H Hp Hl. pose proof (I_t _ H t) as T. unfold TI in T.
    assert (Hc : inchk (pc (th s t)) = 1) by (destruct Hp as [[r ->]| ->]; reflexivity).
    destruct (tx (th s t)) as [x|] eqn:Ex; [|exfalso; destruct T as [_ T]; destruct Hp as [[r E]|E]; rewrite E in T; auto].
    destruct T as (eli & T). assert (Hn : ~ In l (held (th s t))).
    { pose proof (X_pc _ _ _ _ _ T) as P. destruct Hp as [[r E]|E]; rewrite E in P; auto. }
    destruct (TX_load _ _ _ _ _ _ _ _ Ex T Hl) as (x1 & E1 & T1 & P1 & P2 & P3 & P4 & P5 & P6 & P7). exists x1. splits; auto.
    - intros ->. unfold acquired, record. simpl. rewrite upd_same. simpl. rewrite upd_same. simpl. rewrite E1.
      apply inv_local with (s := s) (t := t); simpl; auto.
      + intros u Hu. now rewrite !upd_other.
      + rewrite upd_same. unfold rheld. simpl. rewrite Ex. auto.
      + rewrite upd_same. unfold TI. simpl. exists (l :: eli). apply TX_acq; auto; [congruence|congruence|].
        destruct P7 as [|[E7 Hi]]; auto. right. splits; auto. intros Hh. rewrite P3 in Hh. pose proof (X_rs _ _ _ _ _ T1 _ _ Hi) as Hm.
        eapply load_zero with (y := th s t); eauto. unfold rheld. now rewrite Ex.
    - intros c. apply inv_local with (s := s) (t := t); simpl; auto.
      + intros u Hu. now rewrite !upd_other.
      + rewrite upd_same. rewrite rheld_rollback; auto. unfold rheld. now rewrite E1, Ex.
      + rewrite upd_same. unfold TI. simpl. eapply TX_rollback; eauto.
  Qed.

  Lemma inv_take s t l : Inv s -> pc (th s t) = Fall l -> tx (th s t) = None -> mem s (W l) = 0 -> Inv (acquired (store s t (th s t) (W l) 1) t l).
  Proof.
    intros H Hp Ex Hm. pose proof (I_t _ H t) as T. unfold TI in T. rewrite Ex in T. destruct T as [T1 T2]. rewrite Hp in T2.
    unfold acquired, record, store. rewrite Ex. simpl. rewrite !upd_same. simpl. rewrite Ex. constructor; simpl.
    - apply (I_bad _ H).
    - destruct (I_g _ H) as (d & o & G1 & G2 & G3 & G4 & G5). exists d, (upd o l (Some t)).
      assert (Ho : o l = None) by (destruct (o l) eqn:E; auto; apply G4 in E; lia).
      splits; auto.
      + simpl. rewrite G1. simpl. now rewrite Ho.
      + intros u k Hk. assert (K : (u = t /\ k = l) \/ In k (rheld (th s u))).
        { destruct (Nat.eq_dec u t) as [->|Nu].
          - rewrite upd_same in Hk. unfold rheld in *. simpl in Hk. rewrite Ex. destruct Hk; auto.
          - rewrite upd_other in Hk by auto. rewrite upd_other in Hk by auto. rewrite kill_rheld in Hk. auto. }
        destruct K as [[-> ->]|K]; [apply upd_same|]. apply G3 in K. rewrite upd_other; auto. congruence.
      + intros k u. unfold upd at 1. destruct (Nat.eqb_spec k l) as [->|Nk].
        * intros E. injection E as <-. rewrite upd_same. unfold rheld, poke. simpl. rewrite Nat.eqb_refl. auto.
        * intros Ho'. apply G4 in Ho' as [A B]. unfold poke. simpl. rewrite (proj2 (Nat.eqb_neq k l) Nk). split; auto.
          upds; [|now rewrite kill_rheld]. unfold rheld in *. simpl. rewrite Ex in A. auto.
      + intros k. unfold upd, poke. simpl. destruct (Nat.eqb k l); [discriminate|auto].
    - intros u. upds.
      + unfold TI. simpl. unfold NT. simpl. split; [constructor; tauto|tauto].
      + apply kill_TI with (m := mem s); auto; [|apply (I_t _ H)].
        intros b Hb. unfold poke. rewrite addr_eqb_neq; auto. intros ->. apply Hb. simpl. auto.
  Qed.

  Lemma look_in b x v : look b x = Some v -> In x (map fst b).
  Proof. induction b as [|[z w] b IH]; simpl; [discriminate|]. destruct (addr_eqb x z) eqn:E; auto. apply addr_eqb_eq in E. subst. auto. Qed.

  Lemma inv_unl s t l v : Inv s -> pc (th s t) = Unl l v ->
    Inv (let y := th s t in let h := remove Nat.eq_dec l (held y) in
         let s1 := record (set_th s t (mkThr Idle h (tx y) (tries y))) t (ERel t l) in
         if Nat.eqb v 0 then rtm_end s1 t else store s1 t (th s1 t) (W l) 0).
  Proof.
    intros H Hp. pose proof (I_t _ H t) as T. unfold TI in T. cbv zeta. destruct (tx (th s t)) as [x|] eqn:Ex.
    - destruct T as (eli & T). pose proof (X_pc _ _ _ _ _ T) as P. rewrite Hp in P. destruct P as (Pi & P0 & P1).
      unfold record. simpl. rewrite upd_same. simpl.
      destruct (Nat.eqb_spec v 0) as [->|Nv].
      + specialize (P0 eq_refl). clear P1. pose proof (X_depth _ _ _ _ _ T) as Dp. rewrite Hp in Dp. simpl in Dp.
        pose proof (remove_len l eli (X_eli _ _ _ _ _ T) P0) as Ln.
        unfold rtm_end. simpl. rewrite upd_same. simpl. destruct (Nat.eqb_spec (depth x) 1) as [D1|D1].
        * (* commit *)
          assert (Hnil : remove Nat.eq_dec l eli = []) by (apply length_zero_iff_nil; lia).
          assert (Hreal' : forall k, In k (remove Nat.eq_dec l (held (th s t))) -> In k (h0 x) /\ look (ws x) (W k) = None).
          { intros k Hk. apply remove_incl in Hk. apply (X_real _ _ _ _ _ T); [tauto|]. intros Hc.
            assert (In k (remove Nat.eq_dec l eli)) by (apply remove_incl; tauto). rewrite Hnil in H0. contradiction. }
          assert (Hgone' : forall k, In k (h0 x) -> ~ In k (remove Nat.eq_dec l (held (th s t))) -> look (ws x) (W k) = Some 0).
          { intros k Hk Hnk. destruct (in_dec Nat.eq_dec k (held (th s t))) as [Hh|]; [|now apply (X_gone _ _ _ _ _ T)].
            destruct (Nat.eq_dec k l) as [->|Nk]; [|exfalso; apply Hnk; apply remove_incl; auto].
            destruct (X_free _ _ _ _ _ T l P0) as [?|(? & Hi & ?)]; tauto. }
          assert (Hf : ~ In l (h0 x) -> mem s (W l) = 0 /\ look (ws x) (W l) = None /\ In (W l, 0) (rs x)).
          { intros Hn. destruct (X_free _ _ _ _ _ T l P0) as [E|(E & Hi & ?)]; [apply (X_ws _ _ _ _ _ T) in E; tauto|].
            splits; auto. now apply (X_rs _ _ _ _ _ T) in Hi. }
          assert (Rh : rheld (th s t) = h0 x) by (unfold rheld; now rewrite Ex).
          constructor; simpl.
          -- apply (I_bad _ H).
          -- destruct (I_g _ H) as (d & o & G1 & G2 & G3 & G4 & G5).
             assert (K1 : forall a w, In (D a, w) (rs x) -> d a = w) by (intros a w Hi; rewrite G2; now apply (X_rs _ _ _ _ _ T)).
             assert (K2 : forall k, In (W k, 0) (rs x) -> o k = None).
             { intros k Hi. apply (X_rs _ _ _ _ _ T) in Hi. destruct (o k) eqn:E; auto. apply G4 in E. lia. }
             assert (K3 : forall k, In k (h0 x) -> o k = Some t) by (intros k Hk; apply G3; now rewrite Rh).
             destruct (X_rep _ _ _ _ _ T d o K1 K2 K3) as (d' & o' & R1 & R2 & R3).
             assert (El : o' l = Some t). { rewrite R3. unfold expect. now rewrite (proj2 (mem_in l (held (th s t))) Pi). }
             assert (Eo : forall k, upd o' l None k = expect t (h0 x) (remove Nat.eq_dec l (held (th s t))) o k).
             { intros k. rewrite expect_rel; auto; [unfold upd; destruct (Nat.eqb k l); auto|apply (X_held _ _ _ _ _ T)|].
               intros ->. destruct (in_dec Nat.eq_dec l (h0 x)) as [|Hn]; auto. right. apply K2. now apply Hf. }
             exists d', (upd o' l None). splits.
             ++ cbn [plain_run app]. rewrite plain_run_app, G1. rewrite R1. simpl. now rewrite El, Nat.eqb_refl.
             ++ intros a. rewrite R2. unfold overlay. now rewrite G2.
             ++ intros u k Hk. rewrite Eo. unfold expect. destruct (Nat.eq_dec u t) as [->|Nu].
                ** rewrite upd_same in Hk. unfold rheld in Hk. simpl in Hk. now rewrite (proj2 (mem_in k _) Hk).
                ** rewrite upd_other in Hk by auto. rewrite kill_rheld in Hk. rewrite !upd_other in Hk by auto. apply G3 in Hk.
                   destruct (existsb (Nat.eqb k) (remove Nat.eq_dec l (held (th s t)))) eqn:E1.
                   { apply mem_in in E1. apply Hreal' in E1 as [E1 _]. apply K3 in E1. congruence. }
                   destruct (existsb (Nat.eqb k) (h0 x)) eqn:E2; auto. apply mem_in in E2. apply K3 in E2. congruence.
             ++ intros k u. rewrite Eo. unfold expect. destruct (existsb (Nat.eqb k) (remove Nat.eq_dec l (held (th s t)))) eqn:E1.
                { intros E. injection E as <-. apply mem_in in E1. rewrite upd_same. unfold rheld. simpl. split; auto.
                  apply Hreal' in E1 as [E1 E2]. unfold overlay. rewrite E2. apply K3 in E1. now apply G4 in E1. }
                destruct (existsb (Nat.eqb k) (h0 x)) eqn:E2; [discriminate|]. intros Ho. apply mem_nin in E2. pose proof (G4 _ _ Ho) as [A B].
                assert (Nu : u <> t) by (intros ->; rewrite Rh in A; contradiction).
                rewrite upd_other by auto. rewrite kill_rheld. rewrite !upd_other by auto. split; auto.
                unfold overlay. destruct (look (ws x) (W k)) eqn:E3; auto. apply (X_ws _ _ _ _ _ T) in E3. tauto.
             ++ intros k. rewrite Eo. unfold expect. destruct (existsb (Nat.eqb k) (remove Nat.eq_dec l (held (th s t)))) eqn:E1; [discriminate|].
                apply mem_nin in E1. unfold overlay. destruct (existsb (Nat.eqb k) (h0 x)) eqn:E2.
                { intros _. apply mem_in in E2. now rewrite (Hgone' k E2 E1). }
                intros Ho. apply mem_nin in E2. destruct (look (ws x) (W k)) eqn:E3; auto. apply (X_ws _ _ _ _ _ T) in E3. tauto.
          -- intros u. destruct (Nat.eq_dec u t) as [->|Nu].
             ++ rewrite upd_same. unfold TI. simpl. unfold NT. simpl. split; [apply remove_NoDup, (X_held _ _ _ _ _ T)|].
                pose proof (X_org _ _ _ _ _ T) as O. destruct (org x); lia.
             ++ rewrite upd_other by auto. apply kill_TI with (m := mem s); auto.
                ** intros a Ha. unfold overlay. destruct (look (ws x) a) eqn:E; auto. apply look_in in E. contradiction.
                ** rewrite !upd_other by auto. apply (I_t _ H).
        * apply inv_local with (s := s) (t := t); simpl; auto.
          -- intros u Hu. now rewrite !upd_other.
          -- rewrite upd_same. unfold rheld. simpl. now rewrite Ex.
          -- rewrite upd_same. unfold TI. simpl. exists (remove Nat.eq_dec l eli). apply TX_end; auto; try lia. now rewrite Hp.
      + specialize (P1 Nv). unfold store. simpl. rewrite upd_same. simpl.
        apply inv_local with (s := s) (t := t); simpl; auto.
        * intros u Hu. now rewrite !upd_other.
        * rewrite upd_same. unfold rheld. simpl. now rewrite Ex.
        * rewrite upd_same. unfold TI. simpl. exists eli. apply TX_store; auto. now rewrite Hp.
    - destruct T as [T1 T2]. rewrite Hp in T2. destruct T2 as (Pi & -> & Pt). simpl. unfold record. simpl. rewrite upd_same. simpl.
      unfold store. simpl. rewrite upd_same. simpl.
      destruct (I_g _ H) as (d & o & G1 & G2 & G3 & G4 & G5).
      assert (Ol : o l = Some t) by (apply G3; unfold rheld; now rewrite Ex).
      constructor; simpl.
      + apply (I_bad _ H).
      + exists d, (upd o l None). splits; auto.
        * simpl. rewrite G1. simpl. now rewrite Ol, Nat.eqb_refl.
        * intros u k Hk. assert (K : In k (rheld (th s u)) /\ k <> l).
          { destruct (Nat.eq_dec u t) as [->|Nu].
            - rewrite upd_same in Hk. unfold rheld in *. simpl in Hk. rewrite Ex. now apply remove_incl in Hk.
            - rewrite upd_other in Hk by auto. rewrite kill_rheld in Hk. rewrite upd_other in Hk by auto. split; auto.
              intros ->. apply G3 in Hk. congruence. }
          rewrite upd_other by tauto. apply G3. tauto.
        * intros k u. unfold upd at 1. destruct (Nat.eqb_spec k l) as [->|Nk]; [discriminate|].
          intros Ho. apply G4 in Ho as [A B]. unfold poke. simpl. rewrite (proj2 (Nat.eqb_neq k l) Nk). split; auto.
          destruct (Nat.eq_dec u t) as [->|Nu].
          -- rewrite upd_same. unfold rheld in *. simpl. rewrite Ex in A. apply remove_incl. auto.
          -- rewrite upd_other by auto. rewrite kill_rheld. now rewrite upd_other.
        * intros k. unfold upd, poke. simpl. destruct (Nat.eqb k l); auto.
      + intros u. destruct (Nat.eq_dec u t) as [->|Nu].
        * rewrite upd_same. unfold TI. simpl. unfold NT. simpl. split; auto. now apply remove_NoDup.
        * rewrite upd_other by auto. apply kill_TI with (m := mem s); auto.
          -- intros b Hb. unfold poke. rewrite addr_eqb_neq; auto. intros ->. apply Hb. simpl. auto.
          -- rewrite upd_other by auto. apply (I_t _ H).
  Qed.

  Lemma inv_simple s t y' : Inv s -> tx (th s t) = None -> rheld y' = rheld (th s t) -> TI t (mem s) y' -> Inv (set_th s t y').
  Proof.
    intros H Ex Er T. apply inv_local with (s := s) (t := t); simpl; auto.
    - intros u Hu. now apply upd_other.
    - now rewrite upd_same.
    - now rewrite upd_same.
  Qed.

  (** rtm_begin() *)
  Lemma inv_begin s t o p : Inv s -> inchk (pc (th s t)) = 0 ->
    match p, o with
    | Chk l r, InLock l' r' => l = l' /\ r = r' /\ pc (th s t) = Begin l r /\ r < RT
    | TChk l, InTry l' => l = l' /\ pc (th s t) = TBegin l
    | _, _ => False
    end -> Inv (set_th s t (rtm_begin (th s t) o p)).
  Proof.
    intros H Hc Hp. pose proof (I_t _ H t) as T. unfold TI in T.
    apply inv_local with (s := s) (t := t); simpl; auto.
    - intros u Hu. now apply upd_other.
    - rewrite upd_same. unfold rheld, rtm_begin. destruct (tx (th s t)) eqn:Ex; simpl; auto.
    - rewrite upd_same. unfold rtm_begin, TI. destruct (tx (th s t)) as [x|] eqn:Ex; simpl.
      + destruct T as (eli & T). exists eli. tx_fields T. rewrite Hc in Hdepth. constructor; simpl; auto.
        * rewrite Hdepth. destruct p, o; try contradiction; simpl; lia.
        * destruct p, o; try contradiction; destruct Hp as (E1 & Hp); [destruct Hp as (E2 & Hp & _)|]; rewrite Hp in Hpc; tauto.
      + exists []. destruct T as [T1 T2].
        assert (K : match p with Chk l _ | TChk l => ~ In l (held (th s t)) | _ => False end /\ match o with InLock l r => ~ In l (held (th s t)) /\ r < RT /\ tries (th s t) <= r | InTry l => ~ In l (held (th s t)) /\ tries (th s t) <= RT end).
        { destruct p, o; try contradiction.
          - destruct Hp as (-> & -> & Hp & Hr). rewrite Hp in T2. tauto.
          - destruct Hp as (-> & Hp). rewrite Hp in T2. tauto. }
        destruct K as [K1 K2]. constructor; simpl; auto; try (intros; contradiction); try (intros; discriminate);
          try (destruct p, o; try contradiction; solve [reflexivity | auto | splits; try tauto; lia]);
          try solve [constructor | intros ? []].
        * intros d o' A B C. exists d, o'. simpl in *. splits; auto. intros k. unfold expect.
          destruct (existsb (Nat.eqb k) (held (th s t))) eqn:E; auto. apply mem_in in E. auto.
  Qed.

  Lemma inv_step s l s' : Inv s -> step RT s l = Some s' -> Inv s'.
  Proof.
    intros H. destruct l as [t k|t k|t|t c|t a|t a v|t k]; simpl.
    - destruct (pc (th s t)) eqn:Hp; try discriminate. destruct (existsb (Nat.eqb k) (held (th s t))) eqn:Hk; [discriminate|].
      intros E; injection E as <-. apply mem_nin in Hk. apply inv_lock with (k := k); auto.
    - destruct (pc (th s t)) eqn:Hp; try discriminate. destruct (existsb (Nat.eqb k) (held (th s t))) eqn:Hk; [discriminate|].
      intros E; injection E as <-. apply mem_nin in Hk. apply inv_lock with (k := k); auto.
    - unfold go. destruct (pc (th s t)) as [|l r|l r|l r c|l r|l|l|l|l|l v] eqn:Hp; try discriminate.
      + intros E; injection E as <-. destruct (Nat.ltb_spec r RT) as [Hr|Hr].
        * apply inv_begin; rewrite ?Hp; auto.
        * pose proof (I_t _ H t) as T. unfold TI in T. destruct (tx (th s t)) as [x|] eqn:Ex.
          { destruct T as (eli & T). pose proof (X_pc _ _ _ _ _ T) as P. rewrite Hp in P. lia. }
          apply inv_simple; auto. unfold TI. simpl. rewrite Ex. destruct T as [T1 T2]. rewrite Hp in T2. split; simpl; auto; split; [tauto|lia].
      + destruct (load s (th s t) (W l)) as [v y1] eqn:El. destruct (inv_chk s t l v y1 H) as (x & Ex & A & B); eauto.
        rewrite Ex. destruct (Nat.eqb_spec v 0); intros E; injection E as <-; auto.
      + pose proof (I_t _ H t) as T. unfold TI in T. destruct (tx (th s t)) as [x|] eqn:Ex.
        { destruct T as (eli & T). pose proof (X_pc _ _ _ _ _ T) as P. rewrite Hp in P. contradiction. }
        intros E; injection E as <-. apply inv_simple; auto. unfold TI. simpl. rewrite Ex. destruct T as [T1 T2]. rewrite Hp in T2.
        split; simpl; auto. destruct (may_retry c || memory_conflict c); [splits; try tauto; lia|].
        destruct (explicit_abort c && negb (nested_abort c)); splits; try tauto; lia.
      + pose proof (I_t _ H t) as T. unfold TI in T. destruct (tx (th s t)) as [x|] eqn:Ex.
        { destruct T as (eli & T). pose proof (X_pc _ _ _ _ _ T) as P. rewrite Hp in P. contradiction. }
        intros E; injection E as <-. destruct (Nat.eqb (mem s (W l)) 0); auto. apply inv_simple; auto. unfold TI. simpl. rewrite Ex. destruct T as [T1 T2]. rewrite Hp in T2.
        split; simpl; auto; splits; try tauto; lia.
      + pose proof (I_t _ H t) as T. unfold TI in T. destruct (tx (th s t)) as [x|] eqn:Ex.
        { destruct T as (eli & T). pose proof (X_pc _ _ _ _ _ T) as P. rewrite Hp in P. contradiction. }
        destruct (Nat.eqb_spec (mem s (W l)) 0) as [Hm|]; [|discriminate]. intros E; injection E as <-. now apply inv_take.
      + intros E; injection E as <-. apply inv_begin; rewrite ?Hp; auto.
      + destruct (load s (th s t) (W l)) as [v y1] eqn:El. destruct (inv_chk s t l v y1 H) as (x & Ex & A & B); eauto.
        rewrite Ex. destruct (Nat.eqb_spec v 0); intros E; injection E as <-; auto.
      + pose proof (I_t _ H t) as T. unfold TI in T. destruct (tx (th s t)) as [x|] eqn:Ex.
        { destruct T as (eli & T). pose proof (X_pc _ _ _ _ _ T) as P. rewrite Hp in P. contradiction. }
        intros E; injection E as <-. unfold record. simpl. rewrite upd_same. simpl. rewrite Ex. destruct T as [T1 T2]. rewrite Hp in T2.
        constructor; simpl.
        * apply (I_bad _ H).
        * apply GI_event; auto. apply (I_g _ H).
        * intros u. upds; [|apply (I_t _ H)]. unfold TI. simpl. rewrite Ex. split; simpl; tauto.
      + intros E; injection E as <-. exact (inv_unl s t l v H Hp).
    - destruct (tx (th s t)) as [x|] eqn:Ex; [|discriminate]. intros E; injection E as <-. now apply inv_abort.
    - destruct (pc (th s t)) eqn:Hp; try discriminate. destruct (load s (th s t) (D a)) as [v y] eqn:El. intros E; injection E as <-. now apply inv_read.
    - destruct (pc (th s t)) eqn:Hp; try discriminate. intros E; injection E as <-. now apply inv_write.
    - destruct (pc (th s t)) eqn:Hp; try discriminate. destruct (existsb (Nat.eqb k) (held (th s t))) eqn:Hk; [|discriminate]. apply mem_in in Hk.
      destruct (load s (th s t) (W k)) as [v y] eqn:El. intros E; injection E as <-. now apply inv_unlock.
  Qed.

  Lemma inv_reachable s : reachable (step RT) init_state s -> Inv s.
  Proof. revert s. apply reachable_inv; [apply inv_init|apply inv_step]. Qed.
End P.
