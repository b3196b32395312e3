From Coq Require Import List Arith Bool Lia.
From Verif Require Import Base AsioTimer AsioTimerSpec.
Import ListNotations.

Definition pc_in (i n : nat) (p : pc) : option top :=
  match p with
  | S1in t | N2in t => Some (TExpires t)
  | S2in _ | N1in => Some (TWait (i, n))
  | _ => None
  end.
Definition is_n2 (p : pc) : bool := match p with N2 | N2in _ => true | _ => false end.
Definition is_s (p : pc) : bool := match p with S1 _ | S1in _ | S2 _ | S2in _ => true | _ => false end.
Definition is_n (p : pc) : bool := match p with N1 | N1in | N2 | N2in _ => true | _ => false end.

Fixpoint all_good (h : list event) : Prop :=
  match h with
  | [] => True
  | ERetNotify i w :: h' => fst w = i /\ In w (handlers h') /\ all_good h'
  | EHandler w :: h' => In w (started h') /\ all_good h'
  | _ :: h' => all_good h'
  end.

Record inv (s : st) : Prop := {
  i_in : forall i, inside (log s) i = pc_in i (num s i) (pcs s i);
  i_s : forall i, is_s (pcs s i) = true -> i = 0;
  i_n : forall i, is_n (pcs s i) = true -> i <> 0 /\ In (ECallNotify i) (log s);
  i_st : forall w, In w (started (log s)) <-> snd w < num s (fst w);
  i_acc : forall w, In w (started (log s)) <-> In w (pend s) \/ In w (handlers (log s));
  i_nd : NoDup (pend s ++ handlers (log s));
  i_n2 : forall i, is_n2 (pcs s i) = true -> 0 < num s i;
  i_t : forall i t, pcs s i = N2in t -> t <= now s;
  i_s2 : forall i t, pcs s i = S2 t \/ pcs s i = S2in t -> expiry s <= max t (now s);
  i_last : forall t w, last_suspend (log s) = Some (t, w) -> pcs s 0 = Out /\ In w (started (log s)) /\ expiry s <= max t (now s);
  i_rd : NoDup (returned (log s));
  i_rl : forall w, In w (returned (log s)) -> snd w < (if is_n2 (pcs s (fst w)) then pred (num s (fst w)) else num s (fst w));
  i_good : all_good (log s)
}.

Lemma h_app p h : handlers (map EHandler p ++ h) = p ++ handlers h.
Proof. induction p; simpl; congruence. Qed.
Lemma in_app_ p h i : inside (map EHandler p ++ h) i = inside h i.
Proof. induction p; simpl; auto. Qed.
Lemma st_app p h : started (map EHandler p ++ h) = started h.
Proof. induction p; simpl; auto. Qed.
Lemma ls_app p h : last_suspend (map EHandler p ++ h) = last_suspend h.
Proof. induction p; simpl; auto. Qed.
Lemma re_app p h : returned (map EHandler p ++ h) = returned h.
Proof. induction p; simpl; auto. Qed.
Lemma cn_app p h i : In (ECallNotify i) (map EHandler p ++ h) <-> In (ECallNotify i) h.
Proof. induction p; simpl; [tauto|]. rewrite IHp. split; [intros [A|A]; [discriminate|auto]|auto]. Qed.
Lemma go_app p h : all_good (map EHandler p ++ h) <-> (forall w, In w p -> In w (started h)) /\ all_good h.
Proof.
  induction p; simpl; [firstorder|]. rewrite IHp, st_app. firstorder; subst; auto.
Qed.
#[global] Hint Rewrite h_app in_app_ st_app ls_app re_app cn_app go_app : ev.

Lemma inv_init : inv init.
Proof. constructor; simpl; intros; try discriminate; try constructor; try tauto; try lia; destruct H; discriminate. Qed.

Ltac at_ i j := destruct (Nat.eq_dec i j) as [->|]; [rewrite ?upd_same in *|rewrite ?upd_other in * by auto].

(** Moving one thread without touching the timer. *)
Lemma inv_go s i p e : inv s ->
  (forall j, inside (e :: log s) j = if j =? i then pc_in i (num s i) p else inside (log s) j) ->
  handlers (e :: log s) = handlers (log s) -> started (e :: log s) = started (log s) ->
  returned (e :: log s) = returned (log s) -> (all_good (log s) -> all_good (e :: log s)) ->
  (forall t w, last_suspend (e :: log s) = Some (t, w) -> last_suspend (log s) = Some (t, w) /\ (i = 0 -> p = Out)) ->
  (is_s p = true -> i = 0) -> (is_n p = true -> i <> 0 /\ In (ECallNotify i) (e :: log s)) ->
  is_n2 p = is_n2 (pcs s i) -> (forall t, p = N2in t -> t <= now s) ->
  (forall t, p = S2 t \/ p = S2in t -> expiry s <= max t (now s)) ->
  inv (emit (go s i p) e).
Proof.
  intros I Hin Hh Hs Hr Hg Hl Hp Hn H2 Ht Hs2. destruct I.
  constructor; unfold emit, go; cbn [log pcs num pend expiry now]; rewrite ?Hh, ?Hs, ?Hr; auto.
  - intros j. rewrite Hin. unfold upd. destruct (Nat.eqb_spec j i); subst; auto.
  - intros j. at_ j i; auto.
  - intros j. at_ j i; auto. intros A. apply i_n0 in A. simpl. tauto.
  - intros j. at_ j i; auto. rewrite H2. auto.
  - intros j t. at_ j i; eauto.
  - intros j t. at_ j i; eauto.
  - intros t w A. apply Hl in A. destruct A as [A B]. apply i_last0 in A. destruct A as (A & A').
    split; auto. unfold upd. destruct (Nat.eqb_spec 0 i); auto.
  - intros w A. apply i_rl0 in A. unfold upd. destruct (Nat.eqb_spec (fst w) i); subst; auto. now rewrite H2.
Qed.

Lemma nodup_swap (p q : list wid) : NoDup (p ++ q) -> NoDup ([] ++ (p ++ q)).
Proof. auto. Qed.

(** expires_at() and expiration. *)
Lemma inv_cancel s t : inv s -> t <= now s \/ (forall u, pcs s 0 <> S2 u /\ pcs s 0 <> S2in u) /\ last_suspend (log s) = None ->
  inv (expires_at s t).
Proof.
  intros I H. destruct I. constructor; unfold expires_at; cbn [log pcs num pend expiry now]; intros *; autorewrite with ev; auto.
  - rewrite i_acc0, in_app_iff. simpl. tauto.
  - eauto.
  - intros A. destruct H as [H|[H _]]; [lia|].
    assert (i = 0) by (apply i_s0; destruct A as [-> | ->]; reflexivity). subst.
    destruct A as [A|A]; specialize (H t0); tauto.
  - intros A. destruct H as [H|[_ H]]; [|congruence]. apply i_last0 in A. intuition lia.
  - split; auto. intros w A. apply i_acc0; auto.
Qed.

Lemma inv_expire s : inv s -> inv (expire s).
Proof.
  intros I. destruct I. constructor; unfold expire; cbn [log pcs num pend expiry now]; intros *; autorewrite with ev; eauto.
  - rewrite i_acc0, in_app_iff. simpl. tauto.
  - split; auto. intros w A. apply i_acc0; auto.
Qed.

Lemma fresh s i : inv s -> ~ In (i, num s i) (started (log s)).
Proof. intros I A. apply (i_st _ I) in A. simpl in A. lia. Qed.

Lemma last_none s : inv s -> pcs s 0 <> Out -> last_suspend (log s) = None.
Proof.
  intros I A. destruct (last_suspend (log s)) as [[t w]|] eqn:E; auto. apply (i_last _ I) in E. tauto.
Qed.

Lemma inv_step s l s' : inv s -> step s l = Some s' -> inv s'.
Proof.
  intros I H. destruct l as [t|i|i| |]; simpl in H.
  - destruct (pcs s 0) eqn:P; inversion H; subst; clear H.
    apply inv_go; auto; simpl; try (intros; discriminate); auto.
    + intros j. destruct (Nat.eqb_spec j 0); subst; auto. rewrite (i_in _ I), P. reflexivity.
    + now rewrite P.
    + intros u [A|A]; discriminate.
  - destruct (Nat.eqb_spec i 0); try discriminate. destruct (pcs s i) eqn:P; inversion H; subst; clear H.
    apply inv_go; auto; simpl; try (intros; discriminate); auto.
    + intros j. destruct (Nat.eqb_spec j i); subst; auto. rewrite (i_in _ I), P. reflexivity.
    + intros t w A. split; auto. tauto.
    + now rewrite P.
    + intros u [A|A]; discriminate.
  - unfold run_step in H. destruct (pcs s i) as [|t|t|t|t| | | |t] eqn:P; inversion H; subst; clear H.
    + (* S1 *) assert (i = 0) by (apply (i_s _ I); now rewrite P). subst.
      apply inv_go; auto; simpl; try (intros; discriminate); auto.
      * intros t' w' A. apply (i_last _ I) in A. destruct A. congruence.
      * now rewrite P.
      * intros u [A|A]; discriminate.
    + (* S1in *) assert (i = 0) by (apply (i_s _ I); now rewrite P). subst.
      pose proof (inv_cancel s t I) as C. destruct C as [].
      { right. split; [intros u; rewrite P; split; discriminate|apply last_none; auto; congruence]. }
      unfold expires_at in *; cbn [log pcs num pend expiry now] in *.
      constructor; unfold emit, go, expires_at; cbn [log pcs num pend expiry now]; simpl inside; simpl started; simpl handlers; simpl last_suspend; simpl returned; simpl all_good; auto.
      * intros j. destruct (Nat.eqb_spec j 0); subst; rewrite ?upd_same, ?upd_other; auto.
      * intros j. at_ j 0; auto.
      * intros j. at_ j 0; [discriminate|]. intros A. apply i_n0 in A. simpl. tauto.
      * intros j. at_ j 0; [discriminate|auto].
      * intros j u. at_ j 0; [discriminate|eauto].
      * intros j u. at_ j 0; [intros [A|A]; [inversion A; lia|discriminate]|eauto].
      * intros u w A. apply i_last0 in A. destruct A. congruence.
      * intros w A. apply i_rl0 in A. unfold upd. destruct (Nat.eqb_spec (fst w) 0) as [E|]; auto.
        rewrite E, P in A. simpl in A. now rewrite E.
    + (* S2 *) assert (i = 0) by (apply (i_s _ I); now rewrite P). subst.
      apply inv_go; auto; simpl; try (intros; discriminate); auto.
      * intros t' w' A. apply (i_last _ I) in A. destruct A. congruence.
      * now rewrite P.
      * intros u [A|A]; inversion A; subst. apply (i_s2 _ I 0). auto.
    + (* S2in *) assert (i = 0) by (apply (i_s _ I); now rewrite P). subst.
      pose proof (fresh s 0 I) as F. pose proof (i_s2 _ I 0 t (or_intror P)) as X. destruct I.
      constructor; unfold emit, go, async_wait; cbn [log pcs num pend expiry now]; simpl inside; simpl started; simpl handlers; simpl last_suspend; simpl returned; simpl all_good; auto.
      * intros j. destruct (Nat.eqb_spec j 0); subst; rewrite ?upd_same, ?upd_other; auto.
      * intros j. at_ j 0; auto. 
      * intros j. at_ j 0; [discriminate|]. intros A. apply i_n0 in A. simpl. tauto.
      * intros [j n]. simpl. rewrite i_st0. simpl. at_ j 0; split; intros A.
        -- destruct A as [A|A]; [inversion A; lia|lia].
        -- destruct (Nat.eq_dec n (num s 0)); [left; congruence|right; lia].
        -- destruct A as [A|A]; [congruence|auto].
        -- auto.
      * intros w. simpl. rewrite i_acc0. tauto.
      * simpl. constructor; auto. rewrite in_app_iff, <- i_acc0. auto.
      * intros j. at_ j 0; [discriminate|auto].
      * intros j u. at_ j 0; [discriminate|eauto].
      * intros j u. at_ j 0; [intros [A|A]; discriminate|eauto].
      * intros u w A. inversion A; subst. rewrite upd_same. splits; auto. now left.
      * constructor; auto. intros A. apply i_rl0 in A. simpl in A. rewrite P in A. simpl in A. lia.
      * intros w [<-|A]; simpl; rewrite ?upd_same; simpl; [lia|]. apply i_rl0 in A. unfold upd.
        destruct (Nat.eqb_spec (fst w) 0) as [E|]; auto. rewrite E, P in A. simpl in *. rewrite ?E. lia.
    + (* N1 *) assert (A := i_n _ I i). rewrite P in A. specialize (A eq_refl).
      apply inv_go; auto; simpl; try (intros; discriminate); auto.
      * intros t' w' B. split; auto. tauto.
      * tauto.
      * now rewrite P.
      * intros u [B|B]; discriminate.
    + (* N1in *) assert (N := i_n _ I i). rewrite P in N. specialize (N eq_refl).
      pose proof (fresh s i I) as F. destruct I.
      constructor; unfold emit, go, async_wait; cbn [log pcs num pend expiry now]; simpl inside; simpl started; simpl handlers; simpl last_suspend; simpl returned; simpl all_good; auto.
      * intros j. destruct (Nat.eqb_spec j i); subst; rewrite ?upd_same, ?upd_other; auto.
      * intros j. at_ j i; auto. discriminate.
      * intros j. at_ j i; [simpl; tauto|]. intros A. apply i_n0 in A. simpl. tauto.
      * intros [j n]. simpl. rewrite i_st0. simpl. at_ j i; split; intros A.
        -- destruct A as [A|A]; [inversion A; lia|lia].
        -- destruct (Nat.eq_dec n (num s i)); [left; congruence|right; lia].
        -- destruct A as [A|A]; [congruence|auto].
        -- auto.
      * intros w. simpl. rewrite i_acc0. tauto.
      * simpl. constructor; auto. rewrite in_app_iff, <- i_acc0. auto.
      * intros j. at_ j i; [lia|auto].
      * intros j u. at_ j i; [discriminate|eauto].
      * intros j u. at_ j i; [intros [A|A]; discriminate|eauto].
      * intros u w A. apply i_last0 in A. rewrite upd_other by (destruct N; congruence). simpl In. tauto.
      * intros w A. apply i_rl0 in A. unfold upd.
        destruct (Nat.eqb_spec (fst w) i) as [E|]; auto. rewrite E, P in A. simpl in *. rewrite ?E. lia.
    + (* N2 *) assert (A := i_n _ I i). rewrite P in A. specialize (A eq_refl).
      apply inv_go; auto; simpl; try (intros; discriminate); auto.
      * intros t' w' B. split; auto. tauto.
      * tauto.
      * now rewrite P.
      * intros u E. inversion E. auto.
      * intros u [B|B]; discriminate.
    + (* N2in *) assert (N := i_n _ I i). rewrite P in N. specialize (N eq_refl).
      pose proof (i_t _ I _ _ P) as X. assert (Z := i_n2 _ I i). rewrite P in Z. specialize (Z eq_refl).
      assert (Y : In (i, pred (num s i)) (started (log s))) by (apply (i_st _ I); simpl; lia).
      destruct (inv_cancel s t I (or_introl X)).
      unfold expires_at in *; cbn [log pcs num pend expiry now] in *.
      constructor; unfold emit, go, expires_at; cbn [log pcs num pend expiry now]; simpl inside; simpl started; simpl handlers; simpl last_suspend; simpl returned; simpl all_good; auto.
      * intros j. destruct (Nat.eqb_spec j i); subst; rewrite ?upd_same, ?upd_other; auto.
      * intros j. at_ j i; auto. discriminate.
      * intros j. at_ j i; [discriminate|]. intros A. apply i_n0 in A. simpl. tauto.
      * intros j. at_ j i; [discriminate|auto].
      * intros j u. at_ j i; [discriminate|eauto].
      * intros j u. at_ j i; [intros [A|A]; discriminate|eauto].
      * intros u w A. apply i_last0 in A. rewrite upd_other by (destruct N; congruence). auto.
      * constructor; auto. intros A. apply i_rl0 in A. simpl in A. rewrite P in A. simpl in A. lia.
      * intros w [<-|A]; simpl; rewrite ?upd_same; simpl; [lia|]. apply i_rl0 in A. unfold upd.
        destruct (Nat.eqb_spec (fst w) i) as [E|]; auto. rewrite E, P in A. simpl in *. rewrite ?E. lia.
      * splits; auto. apply (i_acc _ I) in Y. rewrite h_app, in_app_iff. auto.
  - destruct (pend s) eqn:E; try discriminate. destruct (expiry s <=? now s); inversion H; subst. now apply inv_expire.
  - inversion H; subst; clear H. destruct I. constructor; cbn [log pcs num pend expiry now]; auto.
    + intros i t A. apply i_t0 in A. lia.
    + intros i t A. apply i_s3 in A. lia.
    + intros t w A. apply i_last0 in A. intuition lia.
Qed.

Lemma inv_reach s : reachable step init s -> inv s.
Proof. apply (reachable_inv step inv init inv_init inv_step). Qed.

Lemma good_split h1 i w h0 : all_good (h1 ++ ERetNotify i w :: h0) -> fst w = i /\ In w (handlers h0).
Proof. induction h1 as [|e h1 IH]; simpl; [tauto|]. destruct e; auto; intros A; apply IH; tauto. Qed.
