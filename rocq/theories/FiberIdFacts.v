(** Facts about FiberId.v for C140. *)
From Coq Require Import List Arith Bool Lia.
From Verif Require Import Base FiberId FiberIdSpec.
Import ListNotations.

Definition b2n (b : bool) : nat := if b then 1 else 0.
Definition good (r : list event) (e : event) : Prop := match e with
  | ECmp x y b => (x = y -> b = true) /\ (b = true -> (x = None <-> y = None)) /\ (exists_in r x -> exists_in r y -> (b = true <-> x = y))
  | ESelf n x => x = Some n
  | EJoined n m => n <> m /\ In (ENew m) r
  | EName n m _ => n = m \/ In (EGone m) r
  | _ => True end.
Fixpoint all_good (l : list event) : Prop := match l with [] => True | e :: r => good r e /\ all_good r end.

(** [b]: an address with a reference that is about to be released, or 0. *)
Record inv (b : nat) (s : st) : Prop := mkInv {
  i_mem : forall a n, mem s a = Some n -> adr s n = a /\ n < next s;
  i_pos : forall n, n < next s -> adr s n <> 0 /\ In (ENew n) (log s) /\ (mem s (adr s n) = Some n \/ In (EGone n) (log s));
  i_run : forall n, run s n = true -> n < next s /\ mem s (adr s n) = Some n;
  i_hnd : forall h, hnd s h <> 0 -> exists n, mem s (hnd s h) = Some n;
  i_inj : forall h g, hnd s h = hnd s g -> hnd s h <> 0 -> h = g;
  i_ref : forall a n, mem s a = Some n -> b2n (a =? b) + b2n (run s n) <= refs s a;
  i_own : forall h n, hnd s h <> 0 -> mem s (hnd s h) = Some n -> S (b2n (hnd s h =? b) + b2n (run s n)) <= refs s (hnd s h);
  i_ids : forall i, match who s i with Some n => ids s i = adr s n /\ n < next s | None => ids s i = 0 end;
  i_nam : forall a m k, In (a, (m, k)) (names s) -> adr s m = a /\ m < next s /\ k < length (names s);
  i_fnd : forall n m k, In (EName n m k) (log s) -> n < next s /\ find (fun p => id_eq (fst p) (adr s n)) (names s) = Some (adr s n, (m, k));
  i_num : forall a m k a' m', In (a, (m, k)) (names s) -> In (a', (m', k)) (names s) -> a = a' /\ m = m';
  i_log : all_good (log s) }.

Lemma release_inv b s n : inv b s -> mem s b = Some n -> inv 0 (release s b).
Proof.
  intros I M. pose proof (i_mem _ _ I) as Im. pose proof (i_pos _ _ I) as Ip. pose proof (i_run _ _ I) as Ir. pose proof (i_hnd _ _ I) as Ih.
  pose proof (i_inj _ _ I) as Ij. pose proof (i_ref _ _ I) as If. pose proof (i_own _ _ I) as Io. pose proof (i_ids _ _ I) as Ii. pose proof (i_nam _ _ I) as In0. pose proof (i_fnd _ _ I) as Ifd. pose proof (i_num _ _ I) as Inu. pose proof (i_log _ _ I) as Il.
  pose proof (Im _ _ M) as (An & Nn). pose proof (proj1 (Ip _ Nn)) as B0. rewrite An in B0.
  assert (A0 : forall a m, mem s a = Some m -> a =? 0 = false) by (intros a m Q; apply Nat.eqb_neq; intros ->; destruct (Im _ _ Q) as (E & L); destruct (Ip _ L); congruence).
  pose proof (If _ _ M) as R. rewrite Nat.eqb_refl in R.
  assert (Keep : inv 0 (mkSt (mem s) (upd (refs s) b (pred (refs s b))) (adr s) (run s) (hnd s) (ids s) (who s) (names s) (next s) (log s))).
  { constructor; simpl; auto.
    - intros a m Q. rewrite (A0 _ _ Q). specialize (If _ _ Q). destruct (Nat.eq_dec a b).
      + subst a. upds. rewrite Nat.eqb_refl in If. simpl in *. lia.
      + upds. simpl. lia.
    - intros h m H Q. rewrite (A0 _ _ Q). specialize (Io _ _ H Q). destruct (Nat.eq_dec (hnd s h) b) as [E|E].
      + rewrite E in *. upds. rewrite Nat.eqb_refl in Io. simpl in *. lia.
      + rewrite upd_other by auto. simpl. lia. }
  unfold release. rewrite M. destruct (refs s b) as [|[|r]] eqn:RB; auto.
  assert (NR : run s n = false) by (destruct (run s n); simpl in R; auto; lia).
  assert (NH : forall h, hnd s h <> b).
  { intros h E. specialize (Io h n). rewrite E, Nat.eqb_refl, RB in Io. specialize (Io B0 M). simpl in Io. lia. }
  constructor; simpl; auto.
  - intros a m Q. upds; [discriminate|]. auto.
  - intros m L. destruct (Ip _ L) as (P & W & D). splits; auto. destruct (Nat.eq_dec (adr s m) b) as [E|E].
    + destruct D as [D|D]; auto. rewrite E in D. assert (m = n) by congruence. subst. auto.
    + rewrite upd_other by auto. destruct D; auto.
  - intros m Q. destruct (Ir _ Q) as (L & W). split; auto. rewrite upd_other; auto. intros E. rewrite E in W. assert (m = n) by congruence. congruence.
  - intros h H. rewrite upd_other; auto.
  - intros a m Q. upds; [discriminate|]. rewrite (A0 _ _ Q). specialize (If _ _ Q). simpl. lia.
  - intros h m H Q. rewrite upd_other in Q by auto. rewrite upd_other by auto. rewrite (A0 _ _ Q). specialize (Io _ _ H Q). simpl. lia.
  - intros k1 k2 k3 [E|E]; [discriminate|eauto].
Qed.

Lemma add_inv b s e : inv b s -> good (log s) e -> (forall n m k, e = EName n m k -> n < next s /\ find (fun p => id_eq (fst p) (adr s n)) (names s) = Some (adr s n, (m, k))) -> inv b (add s e).
Proof.
  intros I G F. destruct I. constructor; simpl; auto.
  - intros n L. destruct (i_pos0 _ L) as (P & W & D). splits; auto. destruct D; auto.
  - intros n m k [E|E]; auto.
Qed.

Lemma fresh_inv s a r : inv 0 s -> free_at s a = true -> 1 <= r -> inv 0 (fresh s a r).
Proof.
  intros I F R. unfold free_at in F. destruct a as [|a']; [discriminate|]. set (a := S a') in *. destruct (mem s a) eqn:M; [discriminate|].
  assert (A0 : a <> 0) by (unfold a; lia). clearbody a.
  destruct I. assert (NL : forall m, m < next s -> m <> next s) by (intros; lia). constructor; simpl; auto.
  - intros c n Q. destruct (Nat.eq_dec c a) as [->|E].
    + rewrite upd_same in Q. injection Q as <-. rewrite upd_same. split; auto.
    + rewrite upd_other in Q by auto. destruct (i_mem0 _ _ Q) as (W & L). rewrite upd_other by auto. split; auto.
  - intros n L. destruct (Nat.eq_dec n (next s)) as [->|E].
    + rewrite !upd_same. auto.
    + assert (L' : n < next s) by lia. destruct (i_pos0 _ L') as (P & W & D). rewrite (upd_other _ _ _ _ E). splits; auto.
      destruct D as [D|D]; auto. left. rewrite upd_other; auto. congruence.
  - intros n Q. destruct (Nat.eq_dec n (next s)) as [->|E].
    + rewrite !upd_same. auto.
    + rewrite upd_other in Q by auto. destruct (i_run0 _ Q) as (L & W). rewrite (upd_other _ _ _ _ E). split; auto. rewrite upd_other; auto. congruence.
  - intros h H. destruct (i_hnd0 _ H) as (n & W). exists n. rewrite upd_other; auto. congruence.
  - intros c n Q. destruct (Nat.eq_dec c a) as [->|E].
    + rewrite upd_same in Q. injection Q as <-. rewrite !upd_same. apply Nat.eqb_neq in A0. rewrite A0. simpl. lia.
    + rewrite upd_other in Q by auto. destruct (i_mem0 _ _ Q). rewrite !upd_other by auto. auto.
  - intros h n H Q. destruct (i_hnd0 _ H) as (k & W). assert (hnd s h <> a) by congruence. rewrite upd_other in Q by auto.
    destruct (i_mem0 _ _ Q). rewrite !upd_other by auto. auto.
  - intros i. specialize (i_ids0 i). destruct (who s i); auto. destruct i_ids0 as (W & L). rewrite upd_other by auto. split; auto.
  - intros c m k Q. destruct (i_nam0 _ _ _ Q) as (W & L & K). rewrite upd_other by auto. splits; auto.
  - intros n m k [E|E]; [discriminate|]. destruct (i_fnd0 _ _ _ E) as (L & W). rewrite !upd_other by auto. split; auto.
Qed.

Lemma step_inv s l s' : inv 0 s -> step s l = Some s' -> inv 0 s'.
Proof.
  intros I H. pose proof (i_mem _ _ I) as Im. pose proof (i_pos _ _ I) as Ip. pose proof (i_run _ _ I) as Ir. pose proof (i_hnd _ _ I) as Ih.
  pose proof (i_inj _ _ I) as Ij. pose proof (i_ref _ _ I) as If. pose proof (i_own _ _ I) as Io. pose proof (i_ids _ _ I) as Ii. pose proof (i_nam _ _ I) as In0. pose proof (i_fnd _ _ I) as Ifd. pose proof (i_num _ _ I) as Inu. pose proof (i_log _ _ I) as Il.
  assert (A0 : forall a m, mem s a = Some m -> a <> 0) by (intros a m Q ->; destruct (Im _ _ Q) as (E & L); destruct (Ip _ L); congruence).
  assert (M0 : forall a m, mem s a = Some m -> (a =? 0) = false) by (intros a m Q; apply Nat.eqb_neq; eauto).
  assert (Drop : forall h n, hnd s h <> 0 -> mem s (hnd s h) = Some n -> inv (hnd s h) (set_hnd s h 0)).
  { intros h n H0 Q. constructor; simpl; auto.
    - intros g G. upds; [congruence|auto].
    - intros g1 g2 E G. destruct (Nat.eq_dec g1 h) as [->|E1]; [rewrite upd_same in G; congruence|]. rewrite (upd_other _ _ _ _ E1) in *.
      destruct (Nat.eq_dec g2 h) as [->|E2]; [rewrite upd_same in E; congruence|]. rewrite (upd_other _ _ _ _ E2) in *. auto.
    - intros a m W. destruct (Nat.eqb_spec a (hnd s h)) as [->|E].
      + specialize (Io _ _ H0 W). rewrite (M0 _ _ W) in Io. simpl in *. lia.
      + specialize (If _ _ W). simpl. lia.
    - intros g m G W. destruct (Nat.eq_dec g h) as [->|E]; [rewrite upd_same in G; congruence|]. rewrite (upd_other _ _ _ _ E) in *.
      specialize (Io _ _ G W). destruct (Nat.eqb_spec (hnd s g) (hnd s h)) as [E'|E']; [elim E; auto|]. simpl. lia. }
  destruct l; simpl in H.
  - destruct (free_at s a) eqn:F; inversion H; subst. apply fresh_inv; auto.
  - destruct (free_at s a) eqn:F; simpl in H; [|discriminate]. destruct (Nat.eqb_spec (hnd s h) 0) as [Z|]; inversion H; subst.
    assert (MA : mem s a = None) by (unfold free_at in F; destruct a; [discriminate|]; destruct (mem s (S a)); congruence).
    assert (AA : a <> 0) by (unfold free_at in F; destruct a; congruence).
    pose proof (fresh_inv s a 2 I F ltac:(lia)) as I2. destruct I2. constructor; simpl; auto.
    + intros g G. destruct (Nat.eq_dec g h) as [->|E].
      * rewrite !upd_same. eauto.
      * rewrite (upd_other _ _ _ _ E) in *. apply (i_hnd0 _ G).
    + intros g1 g2 E G. assert (X : forall g, hnd s g <> a) by (intros g W; destruct (Ih g); [congruence|]; congruence).
      destruct (Nat.eq_dec g1 h) as [->|E1], (Nat.eq_dec g2 h) as [->|E2]; auto; rewrite ?upd_same, ?(upd_other _ _ _ g1 E1), ?(upd_other _ _ _ g2 E2) in *; auto.
      * symmetry in E. elim (X _ E).
      * elim (X _ E).
    + intros g n G Q. destruct (Nat.eq_dec g h) as [->|E].
      * rewrite !upd_same in *. injection Q as <-. rewrite upd_same. apply Nat.eqb_neq in AA. rewrite AA. simpl. lia.
      * rewrite (upd_other _ _ _ _ E) in *. apply (i_own0 _ _ G Q).
  - destruct (run s n) eqn:R; inversion H; subst. destruct (Ir _ R) as (L & M). apply release_inv with n; auto.
    constructor; simpl; auto.
    + intros m Q. upds; [discriminate|auto].
    + intros a m Q. specialize (If _ _ Q). rewrite (M0 _ _ Q) in If. simpl in If. destruct (Nat.eqb_spec a (adr s n)) as [->|E].
      * assert (m = n) by congruence. subst. rewrite upd_same, R in *. simpl in *. lia.
      * destruct (Nat.eq_dec m n) as [->|E']; [destruct (Im _ _ Q); congruence|]. rewrite upd_other by auto. simpl. lia.
    + intros g m G Q. specialize (Io _ _ G Q). rewrite (M0 _ _ Q) in Io. simpl in Io. destruct (Nat.eqb_spec (hnd s g) (adr s n)) as [W|E].
      * rewrite W in *. assert (m = n) by congruence. subst. rewrite upd_same, R in *. simpl in *. lia.
      * destruct (Nat.eq_dec m n) as [->|E']; [destruct (Im _ _ Q); congruence|]. rewrite upd_other by auto. simpl. lia.
  - destruct (hnd s h) as [|q] eqn:Q; [discriminate|]. assert (Z : hnd s h <> 0) by congruence. destruct (Ih _ Z) as (m & W). inversion H; subst. rewrite <- Q. eapply release_inv; eauto.
  - destruct (run s n) eqn:R; [|discriminate]. destruct (Ir _ R) as (L & M). unfold id_eq in H. destruct (Nat.eqb_spec (adr s n) (hnd s h)) as [E|E].
    + inversion H; subst. apply add_inv; auto; [|discriminate]. simpl. rewrite <- E. unfold owner. destruct (adr s n) eqn:X; auto. elim (A0 _ _ M). auto.
    + destruct (hnd s h) as [|q] eqn:Q; [inversion H; subst; apply add_inv; simpl; auto; discriminate|]. rewrite <- Q in *. assert (Z : hnd s h <> 0) by congruence.
      destruct (mem s (hnd s h)) as [m|] eqn:W; [|discriminate]. destruct (run s m) eqn:RM; [discriminate|]. inversion H; subst.
      assert (J : inv 0 (release (set_hnd s h 0) (hnd s h))) by (eapply release_inv; eauto).
      apply add_inv; auto; [|discriminate]. simpl. destruct (Im _ _ W) as (AM & LM). split; [intros ->; congruence|].
      apply (i_pos _ _ J). unfold release. simpl. destruct (refs s (hnd s h)) as [|[|]]; simpl; auto; rewrite ?W; simpl; auto.
  - destruct (Nat.eqb_spec (hnd s g) 0) as [Z|]; inversion H; subst. destruct (Nat.eq_dec h g) as [->|N].
    { assert (W : forall k, upd (upd (hnd s) g (hnd s g)) g 0 k = hnd s k) by (intros k; destruct (Nat.eq_dec k g) as [->|E]; [rewrite upd_same; auto|rewrite !upd_other; auto]).
      constructor; simpl; auto.
      - intros k. rewrite W. auto.
      - intros k1 k2. rewrite !W. auto.
      - intros k n. rewrite !W. auto. }
    assert (W : forall k, upd (upd (hnd s) g (hnd s h)) h 0 k = if Nat.eq_dec k h then 0 else if Nat.eq_dec k g then hnd s h else hnd s k).
    { intros k. destruct (Nat.eq_dec k h) as [->|E]; [rewrite upd_same; auto|]. rewrite upd_other by auto. destruct (Nat.eq_dec k g) as [->|E']; [rewrite upd_same; auto|rewrite upd_other; auto]. }
    constructor; simpl; auto.
    + intros k. rewrite W. destruct (Nat.eq_dec k h); [congruence|]. destruct (Nat.eq_dec k g); auto.
    + intros k1 k2. rewrite !W. destruct (Nat.eq_dec k1 h); [congruence|]. destruct (Nat.eq_dec k2 h); [congruence|].
      destruct (Nat.eq_dec k1 g), (Nat.eq_dec k2 g); intros; try congruence; auto.
      * elim n0. symmetry. apply Ij; auto.
      * elim n. apply Ij; auto.
    + intros k n0. rewrite !W. destruct (Nat.eq_dec k h); [congruence|]. destruct (Nat.eq_dec k g); auto.
  - inversion H; subst. constructor; simpl; auto. intros j. destruct (Nat.eq_dec j i) as [->|E]; [|rewrite !upd_other by auto; apply Ii].
    rewrite !upd_same. unfold owner. destruct (hnd s h) as [|q] eqn:Q; auto. rewrite <- Q. assert (Z : hnd s h <> 0) by congruence. destruct (Ih _ Z) as (m & W). rewrite W. destruct (Im _ _ W). auto.
  - destruct (run s n) eqn:R; inversion H; subst. destruct (Ir _ R). constructor; simpl; auto. intros j. destruct (Nat.eq_dec j i) as [->|E]; [rewrite !upd_same; auto|rewrite !upd_other by auto; apply Ii].
  - inversion H; subst. constructor; simpl; auto. intros j. destruct (Nat.eq_dec j i) as [->|E]; [rewrite !upd_same; auto|rewrite !upd_other by auto; apply Ii].
  - inversion H; subst. apply add_inv; auto; [|discriminate]. simpl. pose proof (Ii i) as X. pose proof (Ii j) as Y. unfold id_eq.
    destruct (who s i) as [n|] eqn:WI, (who s j) as [m|] eqn:WJ.
    + destruct X as (X & LX), Y as (Y & LY). rewrite X, Y. splits.
      * intros Q. injection Q as ->. apply Nat.eqb_refl.
      * intros _. split; discriminate.
      * intros G1 G2. specialize (G1 _ eq_refl). specialize (G2 _ eq_refl). rewrite Nat.eqb_eq. split; [|congruence]. intros E.
        destruct (Ip _ LX) as (_ & _ & [D1|D1]); [|tauto]. destruct (Ip _ LY) as (_ & _ & [D2|D2]); [|tauto]. congruence.
    + destruct X as (X & LX). destruct (Ip _ LX) as (P & _). rewrite X, Y. apply Nat.eqb_neq in P. rewrite P. splits; try discriminate. intros; split; discriminate.
    + destruct Y as (Y & LX). destruct (Ip _ LX) as (P & _). rewrite X, Y. apply not_eq_sym, Nat.eqb_neq in P. rewrite P. splits; try discriminate. intros; split; discriminate.
    + rewrite X, Y. splits; auto; intros; split; auto.
  - destruct (run s n) eqn:R; [|discriminate]. destruct (Ir _ R) as (L & M). destruct (find _ (names s)) as [[a (m, k)]|] eqn:F.
    + inversion H; subst. pose proof F as F0. apply find_some in F. simpl in F. destruct F as (F & E). unfold id_eq in E. apply Nat.eqb_eq in E. subst a.
      apply add_inv; auto.
      * simpl. destruct (In0 _ _ _ F) as (AM & LM & _). destruct (Ip _ LM) as (_ & _ & [D|D]); auto. left. congruence.
      * intros n1 m1 k1 Q. injection Q as <- <- <-. auto.
    + inversion H; subst. apply add_inv; simpl; auto.
      * constructor; simpl; auto.
        -- intros a m k [E|E]; [injection E as <- <- <-; auto|]. destruct (In0 _ _ _ E) as (W1 & W2 & W3). auto.
        -- intros n1 m1 k1 E. destruct (Ifd _ _ _ E) as (L1 & W1). split; auto. destruct (id_eq (adr s n) (adr s n1)) eqn:Q; auto.
           unfold id_eq in Q. apply Nat.eqb_eq in Q. rewrite Q in F. congruence.
        -- intros a m k a' m' [E|E] [E'|E']; eauto.
           ++ injection E as <- <- <-. injection E' as <- <-. auto.
           ++ injection E as <- <- <-. destruct (In0 _ _ _ E'). lia.
           ++ injection E' as <- <- <-. destruct (In0 _ _ _ E). lia.
      * intros n1 m1 k1 Q. injection Q as <- <- <-. unfold id_eq. rewrite Nat.eqb_refl. auto.
Qed.

Lemma reach_inv s : reachable step init_state s -> inv 0 s.
Proof.
  apply reachable_inv; [|intros; eapply step_inv; eauto]. constructor; simpl; auto; try discriminate; try tauto; try lia.
Qed.
Lemma good_split l1 e l2 : all_good (l1 ++ e :: l2) -> good l2 e.
Proof. induction l1; simpl; tauto. Qed.
Lemma good_in l e : all_good l -> In e l -> exists l1 l2, l = l1 ++ e :: l2 /\ good l2 e.
Proof. intros G H. apply in_split in H. destruct H as (l1 & l2 & ->). exists l1, l2. split; auto. eapply good_split; eauto. Qed.
