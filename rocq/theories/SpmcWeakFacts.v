(** Invariant of the lock-free ready queue under the C++ memory model. *)
From Coq Require Import List Arith Bool Lia.
From Verif Require Import Base SpmcWeak SpmcWeakSpec.
Import ListNotations.

(** ** Histories *)
Fixpoint desc {A} (n : nat) (l : hist A) : Prop := match l with [] => True | e :: l' => fst e < n /\ desc (fst e) l' end.
Lemma desc_lt {A} n (l : hist A) e : desc n l -> In e l -> fst e < n.
Proof. revert n. induction l as [|x l IH]; simpl; intros n D H; [tauto|]. destruct D as [D1 D2]. destruct H as [->|H]; auto. specialize (IH _ D2 H). lia. Qed.
Lemma desc_weak {A} n m (l : hist A) : n <= m -> desc n l -> desc m l.
Proof. destruct l; simpl; auto. intros L [H D]. split; auto. lia. Qed.
Lemma desc_inj {A} n (l : hist A) x y : desc n l -> In x l -> In y l -> fst x = fst y -> x = y.
Proof.
  revert n. induction l as [|z l IH]; simpl; intros n D Hx Hy E; [tauto|]. destruct D as [_ D].
  destruct Hx as [->|Hx], Hy as [->|Hy]; auto.
  - pose proof (desc_lt _ _ _ D Hy). lia.
  - pose proof (desc_lt _ _ _ D Hx). lia.
  - eauto.
Qed.
Lemma visible_in {A} o (l : hist A) e : In e (visible o l) -> In e l.
Proof. induction l as [|x l IH]; simpl; auto. destruct (fst x <? o); simpl; tauto. Qed.
(** Nothing older than a known store is visible. *)
Lemma visible_ge {A} n o (l : hist A) e p : desc n l -> In e (visible o l) -> In p l -> fst p < o -> fst p <= fst e.
Proof.
  revert n. induction l as [|x l IH]; simpl; intros n D He Hp Hlt; [tauto|]. destruct D as [_ D].
  destruct (Nat.ltb_spec (fst x) o) as [L|L].
  - destruct He as [<-|[]]. destruct Hp as [->|Hp]; auto. pose proof (desc_lt _ _ _ D Hp). lia.
  - destruct Hp as [->|Hp]; [lia|]. destruct He as [<-|He]; [lia|]. eauto.
Qed.
Lemma nth_visible {A} o (l : hist A) k e : nth_error (visible o l) k = Some e -> In e (visible o l).
Proof. apply nth_error_In. Qed.
(** The newest known store. *)
Definition known {A} (o : nat) (l : hist A) : option (nat * A) := List.find (fun e => fst e <? o) l.
Lemma known_visible {A} n o (l : hist A) e : desc n l -> In e (visible o l) -> fst e < o -> known o l = Some e.
Proof.
  revert n. induction l as [|x l IH]; simpl; intros n D He Hlt; [tauto|]. destruct D as [_ D]. unfold known. simpl.
  destruct (Nat.ltb_spec (fst x) o) as [L|L].
  - destruct He as [<-|[]]; auto.
  - destruct He as [<-|He]; [lia|]. eapply IH; eauto.
Qed.
Lemma known_cons_old {A} o (e : nat * A) l : o <= fst e -> known o (e :: l) = known o l.
Proof. unfold known. simpl. destruct (Nat.ltb_spec (fst e) o); auto. lia. Qed.
Lemma known_cons_new {A} o (e : nat * A) l : fst e < o -> known o (e :: l) = Some e.
Proof. unfold known. simpl. destruct (Nat.ltb_spec (fst e) o); auto. lia. Qed.
Lemma known_head {A} n o (l : hist A) : desc n l -> n <= o -> known o l = match l with e :: _ => Some e | [] => None end.
Proof. destruct l as [|e l]; auto. intros [H _] L. apply known_cons_new. lia. Qed.

Lemma vis_now {A} n o (l : hist A) : (forall e, In e l -> fst e < n) -> n <= o -> visible o l = visible n l.
Proof. destruct l as [|e l]; simpl; auto. intros H L. assert (fst e < n) by auto. destruct (Nat.ltb_spec (fst e) o), (Nat.ltb_spec (fst e) n); auto; lia. Qed.

(** ** The copy made by resize() *)
Lemma mod_neq m t t' : 0 < m -> t < t' -> t' < t + m -> t mod m <> t' mod m.
Proof. intros Hm L1 L2 E. pose proof (Nat.div_mod t m ltac:(lia)) as D1. pose proof (Nat.div_mod t' m ltac:(lia)) as D2. rewrite <- E in D2. assert (t / m < t' / m) by nia. nia. Qed.
Lemma copy_miss old c p x k : forall i new, (forall t, i <= t -> t < i + k -> t mod (2 * c) <> x) -> copy old new c p i k x = new x.
Proof.
  induction k as [|k IH]; intros i new H; auto. cbn [copy]. rewrite IH by (intros t L1 L2; apply H; lia). rewrite upd_other; auto. intros E. apply (H i); auto. lia.
Qed.
Lemma copy_hit old c p t k : 0 < c -> k <= 2 * c -> forall i new, i <= t -> t < i + k ->
  exists l, copy old new c p i k (t mod (2 * c)) = (p, match old (t mod c) with (_, v) :: _ => v | [] => None end) :: l.
Proof.
  intros Hc. induction k as [|k IH]; intros Hk i new L1 L2; [lia|]. cbn [copy]. destruct (Nat.eq_dec t i) as [->|Ne].
  - rewrite copy_miss. { rewrite upd_same. eauto. } intros t A B E. apply (mod_neq (2 * c) i t); auto; lia.
  - apply IH; lia.
Qed.
Lemma copy_fst old c p x k e : forall i new, (forall y e, In e (new y) -> fst e = p) -> In e (copy old new c p i k x) -> fst e = p.
Proof.
  induction k as [|k IH]; intros i new H X; [eapply H; eauto|]. cbn [copy] in X. eapply IH; [|exact X]. intros y e'. unfold upd. destruct (Nat.eqb_spec y (i mod (2 * c))) as [->|]; [|apply H]. intros [<-|Y]; eauto.
Qed.

(** ** Indices *)
(** One above the last index whose element can still be taken. *)
Definition hi (s : st) : nat :=
  match own s with QBot b | QFence b | QTop b | QCas b _ | QEnd b => S b | _ => bottom s end.
(** One above the last index that is written. *)
Definition hic (s : st) : nat := match own s with PFence _ b | PBot _ b => S b | _ => hi s end.

(** A thief that knows the prefix o and finds bottom_ above t finds the element that is now at t. *)
Definition kk (s : st) (o t : nat) : Prop :=
  exists p, In p (bots s) /\ fst (snd p) <= t /\ fst p < o /\
    (forall q, In q (bots s) -> fst p < fst q -> t < fst (snd q) -> spos s t < snd (snd q)) /\
    (hi s <= t -> forall q, In q (bots s) -> fst p < fst q -> fst (snd q) <= t).
Definition head_pos (s : st) : nat := match bots s with e :: _ => fst e | [] => 0 end.
Definition arr_known (s : st) (o : nat) : option nat := match known o (arrs s) with Some (_, (a, _)) => Some a | None => None end.

Definition thief_ok (s : st) (u : nat) : Prop :=
  let o := to_ s u in
  match thief s u with
  | TIdle | TCrashed => True
  | SFence t => t <= top s
  | SBot t => t <= sct s /\ (t = top s -> kk s o t)
  | SArr t => t <= sct s /\ (t = top s -> t < hi s /\ spos s t < o)
  | SCell t a => t <= sct s /\ (t = top s -> t < hi s /\ spos s t < o) /\ (created s a < o -> arr_known s o = Some a) /\ a <= array s
  | SPin t n | SCas t n => t <= sct s /\ (t = top s -> t < hi s /\ gidx s t = n /\ spos s t < o)
  end.
(** Has read a value of bottom_ above the index it wants. *)
Definition past (p : tpc) : option nat := match p with SArr t | SCell t _ | SPin t _ | SCas t _ => Some t | _ => None end.

Definition own_ok (s : st) : Prop :=
  match own s with
  | OIdle | OCrashed => True
  | PTop n b => b = bottom s
  | PArr n b t => b = bottom s /\ t = tv s
  | PCell n b => b = bottom s /\ S b <= tv s + cap s (array s)
  | PFence n b | PBot n b => b = bottom s /\ gidx s b = n /\ S b <= tv s + cap s (array s)
  | QBot b => bottom s = S b
  | QFence b => bottom s = b
  | QTop b => bottom s = b /\ head_pos s < sco s /\
      (tv s < b -> top s <= b /\ forall u, (thief s u = SBot b -> top s = b -> head_pos s < to_ s u) /\ (past (thief s u) = Some b -> top s <> b))
  | QCas b n => bottom s = b /\ b <= tv s /\ (top s = b -> gidx s b = n)
  | QEnd b => bottom s = b /\ top s = S b
  end.
(** The element whose push() has begun and not yet returned. *)
Definition pushing (s : st) : option nat :=
  match own s with PTop n _ | PArr n _ _ | PCell n _ | PFence n _ | PBot n _ => Some n | _ => None end.

Record inv (s : st) : Prop := {
  i_bots : desc (now s) (bots s);
  i_arrs : desc (now s) (arrs s);
  i_arrs0 : forall o, 0 < o -> exists a, arr_known s o = Some a;
  i_rel : (forall e, In e (bots s) -> snd (snd e) <= fst e) /\ (forall e, In e (arrs s) -> snd (snd e) <= fst e);
  i_cre : forall e, In e (arrs s) -> created s (fst (snd e)) = fst e;
  i_arrle : forall e, In e (arrs s) -> fst (snd e) <= array s;
  i_cap : forall a, 0 < cap s a;
  i_pos : relp s <= now s /\ sco s <= now s /\ 0 < sco s /\ 0 < relp s;
  i_to : forall u, to_ s u <= now s /\ 0 < to_ s u;
  i_mtop : forall t, mtop s t <= now s;
  i_spos : forall t, spos s t < now s /\ (spos s t < relp s \/ exists n, own s = PFence n t);
  i_ppos : forall n, ppos s n <= now s;
  i_top : top s <= hi s /\ tv s <= top s /\ sct s <= top s /\ top s <= S (Nat.max (tv s) (sct s));
  i_hic : hic s <= tv s + cap s (array s);
  i_own : own_ok s;
  i_kk : forall t, top s <= t -> kk s (sco s) t;
  i_thief : forall u, thief_ok s u;
  i_cells : forall a i e, In e (cells s a i) -> fst e < now s;
  (* what the owner, and a thief that knows the store, find in a cell *)
  i_co : forall t, tv s <= t -> t < hic s -> exists p n l, cells s (array s) (t mod cap s (array s)) = (p, Some n) :: l /\ (top s <= t -> n = gidx s t);
  i_cc : forall o t a e, o <= now s -> top s <= t -> t < hic s -> spos s t < o -> arr_known s o = Some a -> In e (visible o (cells s a (t mod cap s a))) -> snd e = Some (gidx s t);
  (* elements *)
  i_once : forall n, takes (log s) n <= 1 /\ (0 < takes (log s) n -> pushed (log s) n);
  i_in : forall t, top s <= t -> t < hi s -> takes (log s) (gidx s t) = 0 /\ pushed (log s) (gidx s t);
  i_hb : forall t, top s <= t -> t < hic s -> ppos s (gidx s t) <= spos s t;
  i_inj : forall t t', top s <= t -> t < hic s -> top s <= t' -> t' < hic s -> gidx s t = gidx s t' -> t = t';
  i_all : forall n, pushed (log s) n -> takes (log s) n = 0 -> exists t, top s <= t /\ t < hi s /\ gidx s t = n;
  i_next : forall n, pushed (log s) n -> n < next s;
  i_push : forall n, pushing s = Some n -> n < next s /\ takes (log s) n = 0 /\ ~ pushed (log s) n;
  i_steal : forall u n hb, In (ESteal u (Some (n, hb))) (log s) -> hb = true
}.

Lemma inv_init c : 0 < c -> inv (init_state c).
Proof.
  intros Hc. assert (B : forall A (x : A), visible 1 [(0, x)] = [(0, x)]) by reflexivity.
  assert (H0 : hi (init_state c) = 0) by reflexivity. assert (H1 : hic (init_state c) = 0) by reflexivity.
  split; rewrite ?H0, ?H1; unfold own_ok, kk, thief_ok, pushing, pushed, arr_known, known; simpl; rewrite ?H0; try (intros; tauto); try (intros; lia); auto; try discriminate.
  - intros o Ho. destruct (Nat.ltb_spec 0 o); [eauto|lia].
  - split; intros e [<-|[]]; simpl; auto.
  - intros e [<-|[]]. reflexivity.
  - intros e [<-|[]]. simpl. auto.
  - intros t Ht. exists (0, (0, 0)). simpl. splits; auto; try lia.
    + intros q [<-|[]]; simpl; lia.
    + intros _ q [<-|[]]; simpl; lia.
  - intros a i e [<-|[]]. auto.
Qed.

(** ** Steps of thieves *)
Section Step.
Variable pinned : nat -> bool.
Notation step := (step pinned).

Lemma kk_mono s o o' t : o <= o' -> kk s o t -> kk s o' t.
Proof. intros L (p & H1 & H2 & H3 & H4). exists p. splits; auto; try tauto. lia. Qed.

(** A thief moves without touching anything but its own state. *)
Lemma thief_local s u p o e : inv s -> to_ s u <= o -> o <= now s ->
  thief_ok (thief_to s u p o e) u ->
  (past p = Some (top s) -> past (thief s u) = Some (top s) \/ forall b, own s = QTop b -> tv s < b -> b <> top s) ->
  (forall t, p = SBot t -> False) ->
  (forall n, takes (e ++ log s) n = takes (log s) n) -> (forall n, pushed (e ++ log s) n <-> pushed (log s) n) ->
  (forall v n hb, In (ESteal v (Some (n, hb))) (e ++ log s) -> In (ESteal v (Some (n, hb))) (log s)) ->
  inv (thief_to s u p o e).
Proof.
  intros I Ho Hn T P NB E1 E2 E3. pose proof (i_thief s I) as IT. pose proof (i_own s I) as IO. pose proof (i_to s I) as ITO.
  assert (TO : forall v, to_ (thief_to s u p o e) v <= now s /\ 0 < to_ (thief_to s u p o e) v).
  { intros v. simpl. unfold upd. destruct (v =? u); auto. specialize (ITO u). lia. }
  destruct I. split; auto; simpl.
  - unfold own_ok in *. simpl. destruct (own s) eqn:O; auto. destruct IO as (H1 & H2 & H3). splits; auto. intros L. destruct (H3 L) as [H4 H5]. split; auto. intros v. unfold upd. destruct (Nat.eqb_spec v u) as [->|]; auto. split.
    + intros X. exfalso. eapply NB; eauto.
    + intros X Y. rewrite <- Y in X. destruct (P X) as [Q|Q]; [apply (proj2 (H5 u)); congruence|]. eapply Q; eauto.
  - intros v. destruct (Nat.eq_dec v u) as [->|Ne]; auto. specialize (IT v). unfold thief_ok in *. simpl. rewrite !upd_other by auto. exact IT.
  - intros n. rewrite E1, E2. auto.
  - intros t H1 H2. rewrite E1, E2. auto.
  - intros n. rewrite E1, E2. apply i_all0.
  - intros n. rewrite E2. auto.
  - intros n. rewrite E1, E2. apply i_push0.
  - intros v n hb H. eapply i_steal0. eapply E3. eauto.
Qed.

Ltac fh s := repeat match goal with |- context [hi ?x] => lazymatch x with s => fail | _ => progress change (hi x) with (hi s) end end; repeat match goal with |- context [hic ?x] => lazymatch x with s => fail | _ => progress change (hic x) with (hic s) end end.
Ltac tk := try (intros; reflexivity); try (simpl; intros; discriminate); try (simpl; let X := fresh in intros X; left; match goal with T : thief _ _ = _ |- _ => rewrite T end; exact X); try (simpl; intros; repeat match goal with H : _ \/ _ |- _ => destruct H as [H|H]; [discriminate H|] end; assumption); try (intros; cbn [app In]; unfold pushed; simpl; intuition congruence).
Lemma inv_steal s u t s' : inv s -> step s (Steal u t) = Some s' -> inv s'.
Proof.
  intros I E. simpl in E. destruct (thief s u) eqn:T; try discriminate. destruct (Nat.leb_spec t (top s)) as [Ht|]; [|discriminate]. injection E as <-.
  pose proof (i_to s I u). pose proof (i_mtop s I t). apply thief_local; auto; tk; try lia.
  unfold thief_ok. simpl. rewrite upd_same. auto.
Qed.
Lemma inv_go s u k s' : inv s -> race_free (log s') -> step s (Go u k) = Some s' -> inv s'.
Proof.
  intros I RF E. simpl in E. unfold thief_step in E. pose proof (i_thief s I u) as TK. unfold thief_ok in TK. pose proof (i_to s I u) as [TO TP]. pose proof (i_top s I) as (T1 & T2 & T3 & T4). pose proof (i_pos s I) as (PA & PB & PC & PD).
  destruct (thief s u) as [|t|t|t|t a|t n|t n|] eqn:T; try discriminate.
  - (* fence *)
    injection E as <-. set (o' := Nat.max (to_ s u) (sco s)).
    assert (Ho' : o' <= now s) by (unfold o'; lia).
    assert (Ho2 : to_ s u <= o' /\ sco s <= o') by (unfold o'; lia). clearbody o'.
    assert (KU : t = top s -> kk s o' t) by (intros ->; apply kk_mono with (sco s); [lia|apply (i_kk s I); auto]).
    pose proof (i_thief s I) as IT. pose proof (i_own s I) as IO. pose proof (i_to s I) as ITO. pose proof (i_kk s I) as IK. pose proof (i_pos s I) as IP. pose proof (i_top s I) as ITP.
    destruct I. split; auto; simpl.
    + lia.
    + intros v. unfold upd. destruct (v =? u); auto. lia.
    + fh s. lia.
    + unfold own_ok in *. simpl. destruct (own s) eqn:O; auto. destruct IO as (H1 & H2 & H3). splits; auto; [cbn; unfold head_pos in *; cbn; lia|]. intros L. destruct (H3 L) as [H4 H5]. split; auto. intros v. unfold upd. destruct (Nat.eqb_spec v u) as [->|]; auto. split.
      * intros X Y. unfold head_pos in *. simpl. lia.
      * simpl. discriminate.
    + intros x Hx. apply kk_mono with (sco s); [lia|apply (IK x Hx)].
    + intros v. specialize (IT v). unfold thief_ok in *. simpl. unfold upd. destruct (Nat.eqb_spec v u) as [->|Ne].
      * split; [lia|]. exact KU.
      * destruct (thief s v); auto; (split; [lia|apply IT]).
  - (* bottom_ *)
    destruct (nth_error (visible (to_ s u) (bots s)) k) as [[q [v r]]|] eqn:N; [|discriminate]. apply nth_visible in N.
    pose proof (visible_in _ _ _ N) as Hin. pose proof (proj1 (i_rel s I) _ Hin) as Hr. pose proof (desc_lt _ _ _ (i_bots s I) Hin) as Hq. simpl in Hr, Hq.
    destruct TK as [TK1 TK2]. destruct (Nat.ltb_spec t v) as [Hv|Hv]; injection E as <-; apply thief_local; auto; tk; try lia; try discriminate.
    + unfold thief_ok. simpl. rewrite !upd_same. split; auto. intros ->. destruct (TK2 eq_refl) as (p & P1 & P2 & P3 & P4 & P5).
      pose proof (visible_ge _ _ _ _ _ (i_bots s I) N P1 P3) as Hge. simpl in Hge.
      assert (Hpq : fst p < q). { destruct (Nat.eq_dec (fst p) q) as [Epq|]; [|lia]. assert (p = (q, (v, r))) by (eapply desc_inj; [apply (i_bots s I)|auto|auto|auto]). subst p. simpl in P2. lia. }
      split.
      * unfold hi at 1. simpl. fold (hi s). destruct (le_lt_dec (hi s) (top s)) as [L|L]; auto. specialize (P5 L _ Hin Hpq). simpl in P5. lia.
      * specialize (P4 _ Hin Hpq Hv). simpl in P4. lia.
    + simpl. intros Et. injection Et as ->. right. intros b O L Eb. subst b. pose proof (i_own s I) as IO. unfold own_ok in IO. rewrite O in IO. destruct IO as (B1 & B2 & B3). destruct (B3 L) as [B4 B5]. specialize (proj1 (B5 u) T eq_refl). intros HP.
      unfold head_pos in HP. unfold bottom in B1. destruct (bots s) as [|[hp [hv hr]] bl] eqn:EB; [simpl in N; tauto|]. simpl in HP. simpl in N. destruct (Nat.ltb_spec hp (to_ s u)); [|lia]. destruct N as [N|[]]. injection N as -> -> ->. lia.
    + unfold thief_ok. simpl. now rewrite upd_same.
  - (* array_ *)
    destruct (nth_error (visible (to_ s u) (arrs s)) k) as [[q [a r]]|] eqn:N; [|discriminate]. injection E as <-. apply nth_visible in N.
    pose proof (visible_in _ _ _ N) as Hin. pose proof (proj2 (i_rel s I) _ Hin) as Hr. pose proof (desc_lt _ _ _ (i_arrs s I) Hin) as Hq. pose proof (i_cre s I _ Hin) as Hc. simpl in Hr, Hq, Hc.
    destruct TK as [TK1 TK2]. apply thief_local; auto; tk; try lia; try discriminate.
    + unfold thief_ok. simpl. rewrite !upd_same. splits; auto.
      * intros Et. destruct (TK2 Et). split; auto. lia.
      * rewrite Hc. intros L. assert (Lq : q < to_ s u) by lia. replace (Nat.max (to_ s u) r) with (to_ s u) by lia.
        unfold arr_known. simpl. now rewrite (known_visible _ _ _ _ (i_arrs s I) N Lq).
      * exact (i_arrle s I _ Hin).
  - (* cell *)
    destruct (nth_error (visible (to_ s u) (cells s a (t mod cap s a))) k) as [[q [n|]]|] eqn:N; [| |discriminate]; injection E as <-; apply nth_visible in N; destruct TK as (TK1 & TK2 & TK3 & TK4).
    + assert (HB : created s a < to_ s u). { destruct (Nat.ltb_spec (created s a) (to_ s u)); auto. exfalso. apply (RF u a). simpl. left. destruct (Nat.ltb_spec (created s a) (to_ s u)); [lia|auto]. }
      apply thief_local; auto; tk; try lia; try discriminate.
      * unfold thief_ok. simpl. rewrite !upd_same. split; auto. intros Et. destruct (TK2 Et) as [A1 A2]. splits; auto.
        assert (Hh : t < hic s) by (unfold hic; unfold hi in A1; pose proof (i_own s I) as IO; unfold own_ok in IO; destruct (own s); auto; lia).
        pose proof (i_cc s I (to_ s u) t a (q, Some n) TO ltac:(lia) Hh A2 (TK3 HB) N) as X. simpl in X. injection X as X. auto.
    + apply thief_local; auto; tk; try lia; try discriminate. unfold thief_ok. simpl. now rewrite upd_same.
  - (* pinned *)
    destruct TK as [TK1 TK2]. destruct (pinned (ictx s n)); injection E as <-; apply thief_local; auto; tk; try lia; try discriminate; try (unfold thief_ok; simpl; now rewrite ?upd_same).
  - (* compare_exchange *)
    destruct TK as [TK1 TK2]. destruct (Nat.eqb_spec (top s) t) as [Et|Ne]; injection E as <-.
    2: { apply thief_local; auto; tk; try lia; try discriminate. unfold thief_ok. simpl. now rewrite upd_same. }
    destruct (TK2 (eq_sym Et)) as (A1 & A2 & A3).
    assert (Hh : hi s <= hic s) by (unfold hic, hi; pose proof (i_own s I) as IO; unfold own_ok in IO; destruct (own s); auto; lia).
    pose proof (i_in s I t ltac:(lia) A1) as [B1 B2]. rewrite A2 in B1, B2. pose proof (i_hb s I t ltac:(lia) ltac:(lia)) as B3. rewrite A2 in B3.
    set (o' := Nat.max (to_ s u) (mtop s t)). pose proof (i_mtop s I t) as Mt. assert (Ho' : o' <= now s) by (unfold o'; lia). assert (Ho2 : to_ s u <= o') by (unfold o'; lia). clearbody o'.
    assert (Hhb : (ppos s n <? to_ s u) = true) by (apply Nat.ltb_lt; lia).
    pose proof (i_thief s I) as IT. pose proof (i_own s I) as IO. pose proof (i_to s I) as ITO. pose proof (i_kk s I) as IK. pose proof (i_inj s I) as IJ. pose proof (i_once s I) as IOn. pose proof (i_in s I) as II. pose proof (i_all s I) as IA. pose proof (i_push s I) as IPu. pose proof (i_next s I) as INx.
    destruct I. split; auto; simpl.
    + intros v. unfold upd. destruct (v =? u); auto. lia.
    + intros x. unfold upd. destruct (x =? S t); auto.
    + fh s. lia.
    + unfold own_ok in *. simpl. destruct (own s) as [| | | | | | | |b|b m|b|] eqn:O; auto.
      * destruct IO as (H1 & H2 & H3). splits; auto. intros L. destruct (H3 L) as [H4 H5]. assert (Hb : t <> b). { intros ->. apply (proj2 (H5 u)); auto. now rewrite T. }
        unfold hi in A1. rewrite O in A1. split; [lia|]. intros v. specialize (IT v). unfold thief_ok in IT. unfold upd. destruct (Nat.eqb_spec v u) as [->|]; [simpl; split; discriminate|]. split.
        -- intros Tv. rewrite Tv in IT. lia.
        -- destruct (thief s v); simpl; try discriminate; intros X; injection X as ->; lia.
      * splits; [apply IO|apply IO|intros; exfalso; lia].
      * exfalso. unfold hi in A1. rewrite O in A1. lia.
    + intros x Hx. apply (IK x). lia.
    + intros v. specialize (IT v). unfold thief_ok in *. simpl. unfold upd. destruct (Nat.eqb_spec v u) as [->|Nv]; auto. destruct (thief s v); auto; try lia; try (split; [lia|intros; exfalso; lia]). splits; [lia|intros; exfalso; lia|apply IT|apply IT].
    + intros x H1 H2. destruct (i_co0 x H1 H2) as (q & m & l & X1 & X2). exists q, m, l. split; auto. intros. apply X2. lia.
    + intros o x a e H1 H2 H3. apply i_cc0; auto. lia.
    + intros m. specialize (IOn m). unfold pushed in *. simpl. destruct (Nat.eqb_spec m n) as [->|]; [|simpl; intuition]. rewrite B1. split; auto.
    + intros x H1 H2. destruct (II x ltac:(lia) H2) as [X1 X2]. unfold pushed in *. simpl. rewrite X1. destruct (Nat.eqb_spec (gidx s x) n) as [Ex|]; [|auto]. exfalso.
      assert (x = t) by (apply IJ; try lia; try congruence; apply Nat.lt_le_trans with (hi s); auto). lia.
    + intros x H1. apply i_hb0. lia.
    + intros x x' H1 H2 H3 H4. apply IJ; auto; lia.
    + unfold pushed. simpl. intros m [X|X]; [discriminate|]. destruct (Nat.eqb_spec m n) as [->|Nm]; [discriminate|]. simpl. intros X0. destruct (IA m X X0) as (x & Y1 & Y2 & Y3). exists x. splits; auto. destruct (Nat.eq_dec x t); [congruence|lia].
    + unfold pushed. simpl. intros m [X|X]; [discriminate|]. now apply INx.
    + intros m X. destruct (IPu m X) as (Y1 & Y2 & Y3). unfold pushed in *. simpl. rewrite Y2. destruct (Nat.eqb_spec m n) as [->|]; [tauto|]. splits; auto. intros [Z|Z]; [discriminate|tauto].
    + intros v m hb [X|X]; [injection X as _ _ X; congruence|eauto].
Qed.

(** ** Steps of the owner *)
Lemma hi_hic s : inv s -> hi s <= hic s.
Proof. intros I. unfold hic, hi. pose proof (i_own s I) as IO. unfold own_ok in IO. destruct (own s); auto; lia. Qed.
Lemma own_local s p x e : inv s -> tv s <= x -> x <= top s ->
  hi (own_to s p x e) = hi s -> hic (own_to s p x e) = hic s -> own_ok (own_to s p x e) ->
  (forall n t, own s <> PFence n t) -> (forall n, pushing (own_to s p x e) = Some n -> pushing s = Some n) ->
  (forall n, takes (e ++ log s) n = takes (log s) n) -> (forall n, pushed (e ++ log s) n <-> pushed (log s) n) ->
  (forall v n hb, In (ESteal v (Some (n, hb))) (e ++ log s) -> In (ESteal v (Some (n, hb))) (log s)) ->
  inv (own_to s p x e).
Proof.
  intros I X1 X2 H1 H2 O NF HP E1 E2 E3. destruct I. split; rewrite ?H1, ?H2; auto; simpl.
  - intros t. destruct (i_spos0 t) as [A [B|[n C]]]; auto. exfalso. eapply NF; eauto.
  - lia.
  - fold (array s). change (array (own_to s p x e)) with (array s). lia.
  - intros t Ht. destruct (i_kk0 t Ht) as (q & Q). exists q. rewrite H1. exact Q.
  - intros u. specialize (i_thief0 u). unfold thief_ok in *. simpl. rewrite H1. destruct (thief s u); auto. split; [apply i_thief0|]. intros Et. destruct (proj2 i_thief0 Et) as (q & Q). exists q. rewrite H1. exact Q.
  - intros t A B. apply i_co0; auto. lia.
  - intros n. rewrite E1, E2. auto.
  - intros t A B. rewrite E1, E2. auto.
  - intros n. rewrite E1, E2. apply i_all0.
  - intros n. rewrite E2. auto.
  - intros n A. rewrite E1, E2. auto.
  - intros v n hb A. eapply i_steal0. eapply E3. eauto.
Qed.

Lemma inv_push s c s' : inv s -> step s (Push c) = Some s' -> inv s'.
Proof.
  intros I E. simpl in E. destruct (own s) eqn:O; try discriminate. injection E as <-.
  pose proof (i_next s I) as INx. pose proof (i_once s I) as IOn.
  assert (Hh : hi s = bottom s) by (unfold hi; now rewrite O). assert (Hc : hic s = bottom s) by (unfold hic, hi; now rewrite O).
  assert (FR : forall t, top s <= t -> t < hic s -> gidx s t < next s). { intros t A B. apply INx. apply (i_in s I); auto. lia. }
  destruct I. set (s' := mkSt _ _ _ _ _ _ _ _ _ _ _ _ _ _ _ _ _ _ _ _ _).
  assert (H1 : hi s' = hi s) by (rewrite Hh; reflexivity). assert (H2 : hic s' = hic s) by (rewrite Hc; reflexivity).
  split; rewrite ?H1, ?H2; auto; simpl.
  - intros t. destruct (i_spos0 t) as [A [B|[n C]]]; auto. congruence.
  - intros n. unfold upd. destruct (n =? next s); auto.
  - reflexivity.
  - intros t Ht. destruct (i_kk0 t Ht) as (q & Q). exists q. rewrite H1. exact Q.
  - intros u. specialize (i_thief0 u). unfold thief_ok in *. simpl. rewrite H1. destruct (thief s u); auto. split; [apply i_thief0|]. intros Et. destruct (proj2 i_thief0 Et) as (q & Q). exists q. rewrite H1. exact Q.
  - intros n. destruct (i_once0 n) as [Y Z]. split; auto. intros X. right. exact (Z X).
  - intros t A B. destruct (i_in0 t A B). split; auto. right. auto.
  - intros t A B. rewrite upd_other; auto. specialize (FR t A B). lia.
  - intros n [A|A] B; [discriminate|]. apply i_all0; auto.
  - intros n [A|A]; [discriminate|]. specialize (INx n A). lia.
  - unfold pushing. simpl. intros n A. injection A as <-. splits; auto.
    + destruct (IOn (next s)) as [_ X]. destruct (takes (log s) (next s)) as [|k]; auto. specialize (INx _ (X ltac:(lia))). exfalso. lia.
    + intros [A|A]; [discriminate|]. specialize (INx _ A). lia.
  - intros u n hb [A|A]; [discriminate|]. eauto.
Qed.
Lemma inv_pop s s' : inv s -> step s Pop = Some s' -> inv s'.
Proof.
  intros I E. simpl in E. destruct (own s) eqn:O; try discriminate. pose proof (i_top s I) as (T1 & T2 & _).
  assert (Hh : hi s = bottom s) by (unfold hi; now rewrite O). assert (Hc : hic s = bottom s) by (unfold hic, hi; now rewrite O).
  destruct (bottom s) as [|b] eqn:B; injection E as <-; apply own_local; auto; tk; try congruence; try (rewrite ?Hh, ?Hc; exact B); try exact Logic.I.
Qed.
Lemma no_fence_pushing s : pushing s = None -> forall n t, own s <> PFence n t.
Proof. unfold pushing. intros H n t E. rewrite E in H. discriminate. Qed.

(** The prefix of the owner grows by one store. *)
Lemma known_now s : inv s -> arr_known s (S (now s)) = arr_known s (now s).
Proof. intros I. unfold arr_known. rewrite !(known_head (now s)) by (try apply (i_arrs s I); lia). auto. Qed.
Lemma cc_now s : inv s -> forall o t a e, o <= S (now s) -> top s <= t -> t < hic s -> spos s t < o -> arr_known s o = Some a -> In e (visible o (cells s a (t mod cap s a))) -> snd e = Some (gidx s t).
Proof.
  intros I o t a e Ho H1 H2 H3 H4 H5. destruct (le_lt_dec o (now s)) as [L|L]; [eapply (i_cc s I); eauto|].
  assert (o = S (now s)) by lia. subst o. rewrite known_now in H4 by auto. rewrite (vis_now (now s)) in H5; [|intros; eapply (i_cells s I); eauto|lia].
  eapply (i_cc s I) with (o := now s); eauto. apply (i_spos s I).
Qed.
Lemma spos_rel s : inv s -> (forall n t, own s <> PFence n t) -> forall t, spos s t < relp s.
Proof. intros I NF t. destruct (i_spos s I t) as [_ [A|[n A]]]; auto. exfalso. eapply NF; eauto. Qed.

(** A store to bottom_ (outside push()). *)
Lemma inv_store s v p : inv s -> (forall n t, own s <> PFence n t) ->
  hi (store_bottom s v p []) = hi s -> hic (store_bottom s v p []) = hic s ->
  own_ok (store_bottom s v p []) -> pushing (store_bottom s v p []) = None ->
  (forall t, hi s <= t -> v <= t) ->
  inv (store_bottom s v p []).
Proof.
  intros I NF H1 H2 O NP Hv. pose proof (spos_rel s I NF) as R. pose proof (cc_now s I) as CC.
  pose proof (i_pos s I) as IP.
  assert (KK : forall o t, kk s o t -> kk (store_bottom s v p []) o t).
  { intros o t (q & Q1 & Q2 & Q3 & Q4 & Q5). exists q. rewrite H1. simpl. splits; auto.
    - intros x [<-|X] A B; simpl in *; auto. - intros L x [<-|X] A; simpl in *; auto. }
  destruct I. split; rewrite ?H1, ?H2; auto; simpl.
  - split; auto.
  - eapply desc_weak; [|eauto]. lia.
  - split; [|apply i_rel0]. intros x [<-|X]; simpl; [lia|]. exact (proj1 i_rel0 x X).
  - lia.
  - intros u. specialize (i_to0 u). lia.
  - intros t. specialize (i_mtop0 t). lia.
  - intros t. specialize (i_spos0 t). split; auto. lia.
  - intros n. specialize (i_ppos0 n). lia.
  - intros u. specialize (i_thief0 u). unfold thief_ok in *. simpl. rewrite H1. destruct (thief s u); auto. split; [apply i_thief0|]. intros A. apply KK. now apply i_thief0.
  - intros a i e X. specialize (i_cells0 a i e X). lia.
  - rewrite NP. discriminate.
Qed.

Lemma inv_own s k s' : inv s -> step s (Own k) = Some s' -> inv s'.
Proof.
  intros I E. simpl in E. unfold own_step in E. pose proof (i_own s I) as IO. unfold own_ok in IO. pose proof (i_top s I) as (T1 & T2 & T3 & T4). pose proof (i_pos s I) as (PA & PB & PC & PD).
  destruct (own s) as [|n b|n b t|n b|n b|n b|b|b|b|b n|b|] eqn:O; try discriminate.
  - (* top_ *)
    unfold may_load in E. destruct (Nat.leb_spec (tv s) k) as [K1|]; [|discriminate]. destruct (Nat.leb_spec k (top s)) as [K2|]; [|discriminate]. injection E as <-.
    apply own_local; auto; tk; try congruence; try (unfold hi, hic, hi; simpl; now rewrite O).
    + unfold own_ok. simpl. auto.
    + intros m. unfold pushing. simpl. now rewrite O.
  - (* resize *)
    destruct IO as [-> ->]. set (a := array s) in *. set (c := cap s a) in *. pose proof (i_cap s I a) as Hc. pose proof (i_hic s I) as Hh. fold a c in Hh.
    assert (H1 : hi s = bottom s) by (unfold hi; now rewrite O). assert (H2 : hic s = bottom s) by (unfold hic, hi; now rewrite O). rewrite H2 in Hh.
    destruct (Nat.ltb_spec (c - 1) (bottom s - tv s)) as [G|G]; injection E as <-.
    + pose proof (i_cc s I) as CC. pose proof (i_co s I) as CO. set (nc := copy _ _ _ _ _ _).
      assert (NH : forall t, tv s <= t -> t < bottom s -> exists m l, nc (t mod (2 * c)) = (now s, Some m) :: l /\ (top s <= t -> m = gidx s t)).
      { intros t A B. destruct (CO t A ltac:(lia)) as (q & m & l & X1 & X2). destruct (copy_hit (cells s a) c (now s) t (bottom s - tv s) Hc ltac:(lia) (tv s) (fun _ => [(now s, None)]) A ltac:(lia)) as (l' & Y). fold nc in Y. fold a c in X1. rewrite X1 in Y. eauto. }
      assert (NF : forall x e, In e (nc x) -> fst e = now s). { intros x e. apply copy_fst. intros y e' [<-|[]]. auto. }
      clearbody nc. destruct I. split; auto; simpl.
      * eapply desc_weak; [|eauto]. lia.
      * split; auto.
      * intros o Ho. destruct (le_lt_dec o (now s)) as [L|L].
        -- unfold arr_known. cbn [arrs]. rewrite known_cons_old by auto. apply i_arrs2. auto.
        -- unfold arr_known. cbn [arrs]. rewrite known_cons_new by auto. eauto.
      * split; [apply i_rel0|]. intros e [<-|X]; simpl; [lia|]. exact (proj2 i_rel0 e X).
      * intros e [<-|X]; simpl; [apply upd_same|]. rewrite upd_other; auto. specialize (i_arrle0 e X). fold a in i_arrle0. lia.
      * intros e [<-|X]; simpl; auto. specialize (i_arrle0 e X). fold a in i_arrle0. unfold array. simpl. lia.
      * intros x. unfold upd. destruct (x =? S a); auto. lia.
      * lia.
      * intros u. specialize (i_to0 u). lia.
      * intros t. specialize (i_mtop0 t). lia.
      * intros t. destruct (i_spos0 t) as [A [B|[m B]]]; [auto|congruence].
      * intros m. specialize (i_ppos0 m). lia.
      * change (hi _) with (bottom s). lia.
      * unfold array. simpl. rewrite upd_same. change (hic _) with (bottom s). lia.
      * unfold own_ok, array. simpl. rewrite upd_same. split; auto. lia.
      * intros t Ht. destruct (i_kk0 t Ht) as (q & Q). exists q. rewrite H1 in Q. exact Q.
      * intros u. specialize (i_thief0 u). pose proof (i_to0 u) as [TO _]. unfold thief_ok in *. change (hi (mkSt _ _ _ _ _ _ _ _ _ _ _ _ _ _ _ _ _ _ _ _ _)) with (bottom s). rewrite H1 in i_thief0. simpl. destruct (thief s u); auto.
        -- split; [apply i_thief0|]. intros A. destruct (proj2 i_thief0 A) as (q & Q). exists q. rewrite H1 in Q. exact Q.
        -- destruct i_thief0 as (X1 & X2 & X3 & X4). fold a in X4. splits; auto.
           ++ rewrite upd_other by lia. intros L. unfold arr_known. cbn [arrs]. rewrite known_cons_old by auto. apply X3. auto.
           ++ unfold array. simpl. lia.
      * intros x i e. unfold upd. destruct (x =? S a); intros X; [rewrite (NF _ _ X); auto|]. specialize (i_cells0 x i e X). lia.
      * unfold array. simpl. rewrite !upd_same. change (hic _) with (bottom s). intros t A B. destruct (NH t A B) as (m & l & X & Y). eauto.
      * change (hic _) with (bottom s). intros o t x e Ho A B C D F. destruct (le_lt_dec o (now s)) as [L|L].
        -- unfold arr_known in D. cbn [arrs] in D. rewrite known_cons_old in D by auto. fold (arr_known s o) in D.
           assert (Hx : x <= a). { unfold arr_known in D. destruct (known o (arrs s)) as [[q [y r]]|] eqn:K; [|discriminate]. injection D as ->. unfold known in K. apply find_some in K. exact (i_arrle0 _ (proj1 K)). }
           rewrite !upd_other in F by lia. eapply CC; eauto. lia.
        -- unfold arr_known in D. cbn [arrs] in D. rewrite known_cons_new in D by auto. simpl in D. injection D as <-. rewrite !upd_same in F. destruct (NH t ltac:(lia) B) as (m & l & X & Y). change (c + (c + 0)) with (2 * c) in F. rewrite X in F. simpl in F. destruct (Nat.ltb_spec (now s) o); [|lia]. destruct F as [<-|[]]. simpl. rewrite Y; auto.
      * intros m. destruct (i_once0 m) as [Y Z]. split; auto. intros X. right. exact (Z X).
      * intros t A B. destruct (i_in0 t A) as [X Y]; [now rewrite H1|]. split; auto. right. auto.
      * change (hic _) with (bottom s). rewrite <- H2. auto.
      * change (hic _) with (bottom s). rewrite <- H2. auto.
      * intros m [X|X] Y; [discriminate|]. destruct (i_all0 m X Y) as (t & Z). rewrite H1 in Z. eauto.
      * intros m [X|X]; [discriminate|]. auto.
      * unfold pushing. simpl. intros m X. destruct (i_push0 m) as (X1 & X2 & X3); [unfold pushing; now rewrite O|]. splits; auto. intros [Y|Y]; [discriminate|auto].
      * intros u m hb [X|X]; [discriminate|]. eauto.
    + apply own_local; auto; tk; try congruence; try (unfold hi, hic, hi; simpl; now rewrite O).
      * unfold own_ok. simpl. change (array (own_to _ _ _ _)) with a. fold c. split; auto. lia.
      * intros m. unfold pushing. simpl. now rewrite O.
  - (* cell *)
    injection E as <-. destruct IO as [-> IO]. set (a := array s) in *. set (c := cap s a) in *. set (b := bottom s) in *. pose proof (i_cap s I a) as Hc. fold c in Hc.
    assert (H1 : hi s = b) by (unfold hi; now rewrite O). assert (H2 : hic s = b) by (unfold hic, hi; now rewrite O).
    pose proof (cc_now s I) as CC. rewrite H2 in CC. pose proof (known_now s I) as KN.
    assert (KA : arr_known s (now s) = Some a). { unfold arr_known. rewrite (known_head (now s)); auto; [|apply (i_arrs s I)]. destruct (i_arrs0 s I 1 ltac:(auto)) as (y & Y). unfold arr_known in Y. unfold a, array. destruct (arrs s) as [|[q [x r]] l]; [discriminate|auto]. }
    assert (SL : forall t, tv s <= t -> t < b -> t mod c <> b mod c) by (intros t A B; apply mod_neq; lia).
    assert (KK : forall o t, kk s o t -> forall s', bots s' = bots s -> hi s' = b -> spos s' = upd (spos s) b (now s) -> kk s' o t).
    { intros o t (q & Q1 & Q2 & Q3 & Q4 & Q5) s' E1 E2 E3. exists q. rewrite E1, E2, E3. splits; auto; [|intros L; apply Q5; lia]. intros x X1 X2 X3. unfold upd. destruct (Nat.eqb_spec t b) as [->|]; auto. specialize (Q5 ltac:(lia) x X1 X2). lia. }
    assert (Pn : pushing s = Some n) by (unfold pushing; now rewrite O). pose proof (i_push s I n Pn) as (P1 & P2 & P3).
    assert (FR : forall t, top s <= t -> t < b -> gidx s t <> n). { intros t A B X. apply P3. rewrite <- X. apply (i_in s I); auto. lia. }
    destruct I. split; auto; simpl.
    + eapply desc_weak; [|eauto]. lia.
    + eapply desc_weak; [|eauto]. lia.
    + lia.
    + intros u. specialize (i_to0 u). lia.
    + intros t. specialize (i_mtop0 t). lia.
    + intros t. unfold upd. destruct (Nat.eqb_spec t b) as [->|]; [split; eauto|]. destruct (i_spos0 t) as [A [B|[m B]]]; [auto|congruence].
    + intros m. specialize (i_ppos0 m). lia.
    + change (hi _) with b. lia.
    + unfold own_ok. simpl. rewrite upd_same. change (array _) with a. fold c. splits; auto.
    + intros u. specialize (i_thief0 u). pose proof (i_to0 u) as [TO _]. unfold thief_ok in *. change (hi (mkSt _ _ _ _ _ _ _ _ _ _ _ _ _ _ _ _ _ _ _ _ _)) with b. rewrite H1 in i_thief0. simpl.
      assert (UP : forall t, t < b -> upd (spos s) b (now s) t = spos s t /\ upd (gidx s) b n t = gidx s t) by (intros; split; apply upd_other; lia).
      destruct (thief s u); auto.
      * split; [apply i_thief0|]. intros A. eapply KK; [apply i_thief0; auto| | |]; reflexivity.
      * split; [apply i_thief0|]. intros A. destruct i_thief0 as (_ & X). specialize (X A). rewrite (proj1 (UP t ltac:(lia))). auto.
      * splits; try apply i_thief0. intros A. destruct i_thief0 as (_ & X & _). specialize (X A). rewrite (proj1 (UP t ltac:(lia))). auto.
      * split; [apply i_thief0|]. intros A. destruct i_thief0 as (_ & X). specialize (X A). rewrite (proj1 (UP t ltac:(lia))), (proj2 (UP t ltac:(lia))). auto.
      * split; [apply i_thief0|]. intros A. destruct i_thief0 as (_ & X). specialize (X A). rewrite (proj1 (UP t ltac:(lia))), (proj2 (UP t ltac:(lia))). auto.
    + intros x i e. unfold upd. destruct (Nat.eqb_spec x a) as [->|]; [|intros X; specialize (i_cells0 x i e X); lia]. destruct (Nat.eqb_spec i (b mod c)) as [->|]; [|intros X; specialize (i_cells0 a i e X); lia].
      intros [<-|X]; simpl; [auto|]. specialize (i_cells0 _ _ e X). lia.
    + change (array _) with a. change (hic _) with (S b). fold c. intros t A B. rewrite upd_same. destruct (Nat.eq_dec t b) as [->|Ne].
      * rewrite !upd_same. eauto.
      * rewrite !upd_other by (auto; apply SL; lia). apply i_co0; auto. lia.
    + change (hic _) with (S b). intros o t x e Ho A B C D F. change (arr_known (mkSt _ _ _ _ _ _ _ _ _ _ _ _ _ _ _ _ _ _ _ _ _) o) with (arr_known s o) in D. destruct (Nat.eq_dec t b) as [->|Ne].
      * rewrite upd_same in *. assert (o = S (now s)) by lia. subst o. rewrite KN, KA in D. injection D as <-. rewrite upd_same in F. fold c in F. rewrite upd_same in F. simpl in F. destruct (Nat.ltb_spec (now s) (S (now s))); [|lia]. destruct F as [<-|[]]. auto.
      * rewrite upd_other in C by auto. rewrite upd_other by auto. apply (CC o t x e); auto; [lia|]. unfold upd in F. destruct (Nat.eqb_spec x a) as [->|]; auto. fold c in F. destruct (Nat.eqb_spec (t mod c) (b mod c)) as [X|]; auto. exfalso. apply (SL t); auto; lia.
    + change (hi _) with b. rewrite H1 in i_in0. intros t A B. rewrite upd_other by lia. auto.
    + change (hic _) with (S b). rewrite H2 in i_hb0. intros t A B. unfold upd. destruct (Nat.eqb_spec t b) as [->|]; auto. apply i_hb0; lia.
    + change (hic _) with (S b). rewrite H2 in i_inj0. intros t t' A B C D. unfold upd. destruct (Nat.eqb_spec t b) as [->|], (Nat.eqb_spec t' b) as [->|]; auto; intros X.
      * exfalso. apply (FR t'); auto. lia.
      * exfalso. apply (FR t); auto. lia.
      * apply i_inj0; auto; lia.
    + change (hi _) with b. rewrite H1 in i_all0. intros m X Y. destruct (i_all0 m X Y) as (t & Z1 & Z2 & Z3). exists t. rewrite upd_other by lia. auto.
    + unfold pushing. simpl. unfold pushing in i_push0. rewrite O in i_push0. auto.
  - (* release fence *)
    injection E as <-. destruct I. split; auto; simpl; auto.
    + lia.
    + intros t. destruct (i_spos0 t). auto.
    + unfold hi in *. rewrite O in *. exact (conj T1 (conj T2 (conj T3 T4))).
    + unfold hic in *. rewrite O in *. exact i_hic0.
    + intros t Ht. destruct (i_kk0 t Ht) as (q & Q). exists q. unfold hi in *. rewrite O in *. exact Q.
    + intros u. specialize (i_thief0 u). unfold thief_ok, kk, hi in *. rewrite O in *. exact i_thief0.
    + unfold hic in *. rewrite O in *. exact i_co0.
    + unfold hic in *. rewrite O in *. exact i_cc0.
    + unfold hi in *. rewrite O in *. exact i_in0.
    + unfold hic in *. rewrite O in *. exact i_hb0.
    + unfold hic in *. rewrite O in *. exact i_inj0.
    + unfold hi in *. rewrite O in *. exact i_all0.
    + unfold pushing in *. rewrite O in *. exact i_push0.
  - (* bottom_ *)
    injection E as <-. destruct IO as (Hb & Hg & IO). pose proof (spos_rel s I ltac:(congruence)) as R. pose proof (cc_now s I) as CC.
    assert (H1 : hi s = b) by (unfold hi; now rewrite O). assert (H2 : hic s = S b) by (unfold hic, hi; now rewrite O). rewrite H2 in CC.
    assert (Pn : pushing s = Some n) by (unfold pushing; now rewrite O). pose proof (i_push s I n Pn) as (P1 & P2 & P3).
    assert (KK : forall o t, kk s o t -> kk (store_bottom s (S b) OIdle [EPushed n]) o t).
    { intros o t (q & Q1 & Q2 & Q3 & Q4 & Q5). exists q. rewrite H1 in Q5. change (hi (store_bottom s (S b) OIdle [EPushed n])) with (S b). simpl. splits; auto.
      - intros x [<-|X] A B; simpl in *; auto. - intros L x [<-|X] A; simpl in *; auto. apply Q5; auto. lia. }
    destruct I. split; auto; simpl.
    + split; auto.
    + eapply desc_weak; [|eauto]. lia.
    + split; [|apply i_rel0]. intros x [<-|X]; simpl; [lia|]. exact (proj1 i_rel0 x X).
    + lia.
    + intros u. specialize (i_to0 u). lia.
    + intros t. specialize (i_mtop0 t). lia.
    + intros t. specialize (i_spos0 t). split; auto. lia.
    + intros m. specialize (i_ppos0 m). lia.
    + change (hi _) with (S b). lia.
    + exact Logic.I.
    + intros u. specialize (i_thief0 u). unfold thief_ok in *. change (hi (store_bottom _ _ _ _)) with (S b). rewrite H1 in i_thief0. simpl. destruct (thief s u); auto.
      * split; [apply i_thief0|]. intros A. apply KK. now apply i_thief0.
      * split; [apply i_thief0|]. intros A. destruct i_thief0 as [_ X]. specialize (X A). split; [lia|apply X].
      * splits; try apply i_thief0. intros A. destruct i_thief0 as [_ [X _]]. specialize (X A). split; [lia|apply X].
      * split; [apply i_thief0|]. intros A. destruct i_thief0 as [_ X]. specialize (X A). splits; [lia|apply X|apply X].
      * split; [apply i_thief0|]. intros A. destruct i_thief0 as [_ X]. specialize (X A). splits; [lia|apply X|apply X].
    + intros x i e X. specialize (i_cells0 x i e X). lia.
    + change (hic _) with (S b). rewrite <- H2. auto.
    + intros m. destruct (i_once0 m) as [Y Z]. split; auto. intros X. right. exact (Z X).
    + change (hi _) with (S b). intros t A B. destruct (Nat.eq_dec t b) as [->|]; [rewrite Hg; split; auto; left; auto|]. destruct (i_in0 t A) as [X Y]; [lia|]. split; auto. right. auto.
    + change (hic _) with (S b). rewrite <- H2. auto.
    + change (hic _) with (S b). rewrite <- H2. auto.
    + change (hi _) with (S b). intros m [X|X] Y; [injection X as <-; exists b; splits; auto; lia|]. destruct (i_all0 m X Y) as (t & Z1 & Z2 & Z3). exists t. splits; auto. lia.
    + intros m [X|X]; [injection X as <-; auto|]. auto.
    + discriminate.
    + intros u m hb [X|X]; [discriminate|]. eauto.
  - (* pop: bottom_ *)
    injection E as <-. apply inv_store; auto; try congruence; try (unfold hi, hic, hi; simpl; now rewrite O).
    + reflexivity.
    + intros t. unfold hi. rewrite O. lia.
  - (* seq_cst fence *)
    injection E as <-. set (x := Nat.max (tv s) (sct s)). assert (X1 : tv s <= x /\ sct s <= x /\ x <= top s /\ top s <= S x) by (unfold x; lia). clearbody x.
    assert (H1 : hi s = S b) by (unfold hi; now rewrite O). assert (H2 : hic s = S b) by (unfold hic, hi; now rewrite O).
    pose proof (spos_rel s I ltac:(congruence)) as R. pose proof (i_thief s I) as IT.
    assert (HP : head_pos s < now s). { unfold head_pos. pose proof (i_bots s I) as D. destruct (bots s) as [|e l]; simpl in D |- *; [lia|apply D]. }
    assert (KK : forall o t, kk s o t -> forall s', bots s' = bots s -> hi s' = S b -> spos s' = spos s -> kk s' o t).
    { intros o t (q & Q) s' E1 E2 E3. exists q. rewrite E1, E2, E3, <- H1. auto. }
    destruct I. split; auto; simpl.
    + lia.
    + intros t. destruct (i_spos0 t). auto.
    + change (hi _) with (S b). lia.
    + change (array _) with (array s). change (hic _) with (S b). lia.
    + unfold own_ok. simpl. splits; auto. intros L. split; [lia|]. intros u. specialize (IT u). unfold thief_ok in IT. split.
      * intros T. rewrite T in IT. lia.
      * destruct (thief s u); simpl; try discriminate; intros Y; injection Y as ->; lia.
    + intros t Ht. apply KK; auto. apply kk_mono with (sco s); auto.
    + intros u. specialize (i_thief0 u). unfold thief_ok in *. change (hi (mkSt _ _ _ _ _ _ _ _ _ _ _ _ _ _ _ _ _ _ _ _ _)) with (S b). rewrite H1 in i_thief0. simpl. destruct (thief s u); auto; try (split; [lia|apply i_thief0]).
      split; [lia|]. intros A. apply KK; auto. now apply i_thief0.
    + change (array _) with (array s). change (hic _) with (S b). rewrite <- H2. intros t A B. apply i_co0; auto. lia.
    + change (hic _) with (S b). rewrite <- H2. auto.
    + change (hi _) with (S b). rewrite <- H1. auto.
    + change (hic _) with (S b). rewrite <- H2. auto.
    + change (hic _) with (S b). rewrite <- H2. auto.
    + change (hi _) with (S b). rewrite <- H1. auto.
    + discriminate.
  - (* pop: top_ *)
    destruct IO as (Hb & HS & IO). unfold may_load in E. destruct (Nat.leb_spec (tv s) k) as [K1|]; [|discriminate]. destruct (Nat.leb_spec k (top s)) as [K2|]; [|discriminate]. simpl in E.
    assert (H1 : hi s = S b) by (unfold hi; now rewrite O). assert (H2 : hic s = S b) by (unfold hic, hi; now rewrite O).
    destruct (Nat.leb_spec k b) as [K3|K3].
    2: { injection E as <-. apply own_local; auto; tk; try congruence; try (unfold hi, hic, hi; simpl; now rewrite O). unfold own_ok. simpl. split; auto. lia. }
    destruct (i_co s I b ltac:(lia) ltac:(lia)) as (q & n & l & C1 & C2). rewrite C1 in E. destruct (Nat.eqb_spec k b) as [->|Ne]; injection E as <-.
    + apply own_local; auto; tk; try congruence; try (unfold hi, hic, hi; simpl; now rewrite O). unfold own_ok. simpl. splits; auto. intros A. symmetry. apply C2. lia.
    + destruct (IO ltac:(lia)) as [TB IT2]. specialize (C2 TB).
      pose proof (i_in s I b TB ltac:(lia)) as [N1 N2]. rewrite <- C2 in N1, N2.
      assert (FR : forall t, top s <= t -> t < S b -> gidx s t = n -> t = b). { intros t A B X. apply (i_inj s I); try lia; congruence. }
      assert (KK : forall o t, kk s o t -> (t = b -> head_pos s < o) -> kk (own_to s OIdle k [EPop (Some n)]) o t).
      { intros o t K Ho. destruct (Nat.eq_dec t b) as [->|Nt].
        - specialize (Ho eq_refl). pose proof (i_bots s I) as D. unfold bottom, head_pos, kk in *. change (bots (own_to s OIdle k [EPop (Some n)])) with (bots s). destruct K as (q' & Q1 & _). destruct (bots s) as [|[hp [hv hr]] bl]; [destruct Q1|]. exists (hp, (hv, hr)). simpl in *. splits; auto; try lia.
          + intros e [<-|X] A; simpl in A; [lia|]. pose proof (desc_lt _ _ _ (proj2 D) X). lia.
          + intros _ e [<-|X] A; simpl in A; [lia|]. pose proof (desc_lt _ _ _ (proj2 D) X). lia.
        - destruct K as (q' & Q1 & Q2 & Q3 & Q4 & Q5). exists q'. change (hi _) with (bottom s). simpl. splits; auto. intros L. apply Q5. lia. }
      pose proof (spos_rel s I ltac:(congruence)) as R.
      destruct I. split; auto; simpl.
      * intros t. split; auto. apply i_spos0.
      * change (hi _) with (bottom s). lia.
      * change (array _) with (array s). change (hic _) with (bottom s). lia.
      * exact Logic.I.
      * intros u. specialize (i_thief0 u). specialize (IT2 u). unfold thief_ok in *. change (hi (own_to _ _ _ _)) with (bottom s). rewrite H1 in i_thief0. simpl. destruct (thief s u) as [|t|t|t|t x|t m|t m|]; auto.
        -- split; [apply i_thief0|]. intros ->. apply KK; [now apply i_thief0|]. intros X. apply (proj1 IT2); congruence.
        -- split; [apply i_thief0|]. intros ->. destruct i_thief0 as [_ X]. specialize (X eq_refl). split; [|apply X]. destruct (Nat.eq_dec (top s) b) as [Y|]; [|lia]. exfalso. apply (proj2 IT2); auto. simpl. congruence.
        -- splits; try apply i_thief0. intros ->. destruct i_thief0 as [_ [X _]]. specialize (X eq_refl). split; [|apply X]. destruct (Nat.eq_dec (top s) b) as [Y|]; [|lia]. exfalso. apply (proj2 IT2); auto. simpl. congruence.
        -- split; [apply i_thief0|]. intros ->. destruct i_thief0 as [_ X]. specialize (X eq_refl). splits; try apply X. destruct (Nat.eq_dec (top s) b) as [Y|]; [|lia]. exfalso. apply (proj2 IT2); auto. simpl. congruence.
        -- split; [apply i_thief0|]. intros ->. destruct i_thief0 as [_ X]. specialize (X eq_refl). splits; try apply X. destruct (Nat.eq_dec (top s) b) as [Y|]; [|lia]. exfalso. apply (proj2 IT2); auto. simpl. congruence.
      * change (array _) with (array s). change (hic _) with (bottom s). intros t A B. apply i_co0; lia.
      * change (hic _) with (bottom s). intros o t a e A B C. apply i_cc0; auto. lia.
      * intros m. specialize (i_once0 m). unfold pushed in *. simpl. destruct (Nat.eqb_spec m n) as [->|]; [|simpl; intuition]. rewrite N1. split; auto.
      * change (hi _) with (bottom s). intros t A B. destruct (i_in0 t A ltac:(lia)) as [X Y]. unfold pushed in *. simpl. rewrite X. destruct (Nat.eqb_spec (gidx s t) n) as [Z|]; [|auto]. exfalso. specialize (FR t A ltac:(lia) Z). lia.
      * change (hic _) with (bottom s). intros t A B. apply i_hb0; auto. lia.
      * change (hic _) with (bottom s). intros t t' A B C D. apply i_inj0; auto; lia.
      * change (hi _) with (bottom s). unfold pushed. simpl. intros m [X|X]; [discriminate|]. destruct (Nat.eqb_spec m n) as [->|Nm]; [discriminate|]. simpl. intros Y. destruct (i_all0 m X Y) as (t & Z1 & Z2 & Z3). exists t. splits; auto. destruct (Nat.eq_dec t b); [congruence|lia].
      * intros m [X|X]; [discriminate|]. auto.
      * discriminate.
      * intros u m hb [X|X]; [discriminate|]. eauto.
  - (* pop: compare_exchange *)
    destruct IO as (Hb & Hv & Hg). destruct (Nat.eqb_spec (top s) b) as [Et|Ne]; injection E as <-.
    2: { assert (H1 : hi s = S b) by (unfold hi; now rewrite O). apply own_local; auto; tk; try congruence; try (unfold hi, hic, hi; simpl; now rewrite O). unfold own_ok. simpl. split; auto. lia. }
    specialize (Hg Et). assert (H1 : hi s = S b) by (unfold hi; now rewrite O). assert (H2 : hic s = S b) by (unfold hic, hi; now rewrite O).
    pose proof (i_in s I b ltac:(lia) ltac:(lia)) as [N1 N2]. rewrite Hg in N1, N2. pose proof (spos_rel s I ltac:(congruence)) as R. pose proof (i_hic s I) as HH.
    destruct I. split; auto; simpl.
    + intros t. unfold upd. destruct (t =? S b); auto.
    + intros t. split; auto. apply i_spos0.
    + change (hi _) with (S b). splits; auto; try lia. destruct (sct s); lia.
    + change (array _) with (array s). change (hic _) with (S b). lia.
    + unfold own_ok. simpl. auto.
    + intros t Ht. destruct (i_kk0 t ltac:(lia)) as (q & Q). exists q. rewrite H1 in Q. exact Q.
    + intros u. specialize (i_thief0 u). unfold thief_ok in *. change (hi (mkSt _ _ _ _ _ _ _ _ _ _ _ _ _ _ _ _ _ _ _ _ _)) with (S b). simpl. destruct (thief s u); auto; try lia; try (split; [lia|intros; exfalso; lia]). splits; [lia|intros; exfalso; lia|apply i_thief0|apply i_thief0].
    + change (hic _) with (S b). lia.
    + change (hic _) with (S b). intros; lia.
    + intros m. specialize (i_once0 m). unfold pushed in *. simpl. destruct (Nat.eqb_spec m n) as [->|]; [|simpl; intuition]. rewrite N1. split; auto.
    + change (hi _) with (S b). lia.
    + change (hic _) with (S b). lia.
    + change (hic _) with (S b). lia.
    + unfold pushed. simpl. intros m [X|X]; [discriminate|]. destruct (Nat.eqb_spec m n) as [->|Nm]; [discriminate|]. simpl. intros Y. destruct (i_all0 m X Y) as (t & Z1 & Z2 & Z3). exfalso. assert (t = b) by lia. congruence.
    + intros m [X|X]; [discriminate|]. auto.
    + discriminate.
    + intros u m hb [X|X]; [discriminate|]. eauto.
  - (* pop: bottom_ again *)
    injection E as <-. apply inv_store; auto; try congruence; try (unfold hi, hic, hi; simpl; now rewrite O).
    + exact Logic.I.
Qed.

Lemma inv_step s l s' : inv s -> race_free (log s') -> step s l = Some s' -> inv s'.
Proof.
  intros I RF E. destruct l; [eapply inv_push|eapply inv_pop|eapply inv_own|eapply inv_steal|eapply inv_go]; eauto.
Qed.

(** ** Executions *)
Ltac stepcases E :=
  repeat match type of E with
         | context [match ?x with _ => _ end] => let Q := fresh "Q" in destruct x eqn:Q; try discriminate
         end.
Lemma step_log s l s' : step s l = Some s' -> exists e, log s' = e ++ log s.
Proof.
  intros E. destruct l; simpl in E; unfold own_step, thief_step in E; stepcases E; injection E as <-; simpl; first [now eexists []|now eexists [_]|now eexists [_; _]].
Qed.
Lemma race_free_app e lg : race_free (e ++ lg) -> race_free lg.
Proof. intros H u a X. apply (H u a). apply in_or_app. auto. Qed.
Lemma inv_reach c s : 0 < c -> reachable step (init_state c) s -> race_free (log s) -> inv s.
Proof.
  intros Hc R. pattern s. eapply reachable_inv; [| |exact R]; clear s R.
  - intros _. now apply inv_init.
  - intros s l s' IH E RF. destruct (step_log _ _ _ E) as (e & X). eapply inv_step; eauto. apply IH. rewrite X in RF. eapply race_free_app; eauto.
Qed.
(** A null result of pop() is logged only when nothing is left. *)
Lemma none_step s l s' : inv s -> step s l = Some s' ->
  exists e, log s' = e ++ log s /\ (In (EPop None) e -> e = [EPop None] /\ top s = hi s).
Proof.
  intros I E. pose proof (i_top s I) as (T1 & _). pose proof (i_own s I) as IO. unfold own_ok in IO.
  destruct l; simpl in E; [| |unfold own_step in E| |unfold thief_step in E]; stepcases E; injection E as <-; simpl;
    try (now (exists []; split; [reflexivity|intros []])); try (now (eexists [_]; split; [reflexivity|intros [X|[]]; discriminate])); try (now (eexists [_; _]; split; [reflexivity|intros [X|[X|[]]]; discriminate])).
  - exists [EPop None]. split; auto. intros _. split; auto. unfold may_load in *. try rewrite Q in *. apply andb_prop in Q0. destruct Q0 as [_ Q0]. apply Nat.leb_le in Q0. apply Nat.leb_gt in Q1. unfold hi in *. try rewrite Q in *. lia.
  - exists [EPop None]. split; auto. intros _. split; auto. try rewrite Q in *. apply Nat.eqb_neq in Q0. unfold hi in *. try rewrite Q in *. pose proof (i_top s I) as (_ & T2 & _). lia.
Qed.
Lemma none_reach c s : 0 < c -> reachable step (init_state c) s -> race_free (log s) ->
  forall l1 l2 n, log s = l1 ++ EPop None :: l2 -> pushed l2 n -> takes l2 n = 1.
Proof.
  intros Hc R. assert (H : reachable step (init_state c) s /\ (race_free (log s) -> forall l1 l2 n, log s = l1 ++ EPop None :: l2 -> pushed l2 n -> takes l2 n = 1)); [|apply H].
  pattern s. eapply reachable_inv; [| |exact R]; clear s R.
  - split; [apply reachable_refl|]. intros _ l1 l2 n E. destruct l1; discriminate.
  - intros s l s' [R IH] E. split; [eapply reachable_step; eauto|]. intros RF l1 l2 n EL P.
    assert (RF0 : race_free (log s)). { destruct (step_log _ _ _ E) as (e & X). rewrite X in RF. eapply race_free_app; eauto. }
    pose proof (inv_reach c s Hc R RF0) as I. destruct (none_step _ _ _ I E) as (e & X & Y). rewrite X in EL.
    destruct (app_eq_app _ _ _ _ EL) as (m & [[A B]|[A B]]).
    + destruct m as [|x m].
      * simpl in B. rewrite app_nil_r in A. apply (IH RF0 [] l2 n); auto.
      * injection B as <- B. destruct Y as [Y1 Y2]; [rewrite A; apply in_or_app; right; left; auto|].
        rewrite Y1 in A. destruct l1 as [|z l1]; [|destruct l1; discriminate]. injection A as <-. subst l2. simpl in P |- *.
        destruct (i_once s I n) as [O1 _]. destruct (takes (log s) n) as [|k] eqn:T; [|lia].
        destruct (i_all s I n P T) as (t & Z1 & Z2 & _). lia.
    + apply (IH RF0 m l2 n); auto.
Qed.

(** Without growth there is one array, built before everything else. *)
Lemma created_reach c s : reachable step (init_state c) s -> (forall u, 0 < to_ s u) /\ (0 < sco s /\ 0 < now s) /\ (no_growth (log s) -> (forall a, created s a = 0) /\ race_free (log s)).
Proof.
  intros R. pattern s. eapply reachable_inv; [| |exact R]; clear s R.
  - simpl. splits; auto. intros _. split; auto. intros u a [].
  - intros s l s' (T & [S0 S1] & IH) E.
    assert (NG : forall e, no_growth (e ++ log s) -> no_growth (log s)) by (intros e H X; apply H; apply in_or_app; auto).
    assert (UP : forall u v o, to_ s u <= o -> 0 < upd (to_ s) u o v) by (intros u v o H; unfold upd; destruct (v =? u); auto; specialize (T u); lia).
    assert (RF : forall x lg, (forall u a, x <> EArray u a false) -> race_free lg -> race_free (x :: lg)) by (intros x lg H1 H2 u a [X|X]; [eapply H1; eauto|eapply H2; eauto]).
    assert (AR : forall u a, no_growth (log s) -> EArray u a (created s a <? to_ s u) = EArray u a true). { intros u a H. rewrite (proj1 (IH H) a). specialize (T u). destruct (to_ s u); [lia|auto]. }
    destruct l; simpl in E; [| |unfold own_step in E| |unfold thief_step in E]; stepcases E; injection E as <-; simpl;
      (splits; [try assumption; try (intros; apply UP; lia)|try assumption; lia|try assumption; lia|intros H; try (exfalso; apply H; left; reflexivity); first [apply (NG []) in H|apply (NG [_]) in H|apply (NG [_; _]) in H]; destruct (IH H) as [H1 H2]; split; try assumption; try (rewrite AR by assumption); repeat (apply RF; [intros; discriminate|]); try assumption]).
Qed.
End Step.
