(** Invariants of handles of fibers. *)
From Coq Require Import List Arith Bool Lia.
From Verif Require Import Base Handle HandleSpec.
Import ListNotations.

Definition self (s : st) (c : nat) : nat := if reaped s c then 0 else 1.
Record inv (s : st) : Prop := mkInv {
  i_pos : 0 < count s;
  i_uniq : forall a b c, hnd s a = Some (Some c) -> hnd s b = Some (Some c) -> a = b;
  i_held : forall h c, hnd s h = Some (Some c) -> 0 < c < count s /\ refs s c = 1 + self s c;
  i_free : forall c, 0 < c < count s -> (forall h, hnd s h <> Some (Some c)) -> refs s c = self s c;
  i_reap : forall c, reaped s c = true -> ended s c = true;
  i_end : forall c, ended s c = true -> 0 < c < count s;
  i_join : forall f h c, joining s f = Some (h, c) -> 0 < c < count s;
  l_made : forall c, made (log s) c <-> 0 < c < count s;
  l_end : forall c, In (EEnd c) (log s) <-> ended s c = true;
  l_joined : forall f h c, In (EJoined f h c) (log s) -> ended s c = true;
  l_free : forall c, In (EFree c) (log s) <-> 0 < c < count s /\ refs s c = 0;
  l_dang : forall c, ~ In (EDangling c) (log s);
  l_abort : aborted s = true <-> exists f h, In (EAbort f h) (log s);
  l_why : forall f h, In (EAbort f h) (log s) -> exists c, hnd s h = Some (Some c)
}.
(** Events that no invariant is about. *)
Definition dull (s : st) (e : event) : Prop :=
  match e with EDetach _ _ _ | EWait _ _ _ | EReset _ _ _ | EInvalid _ _ | EDeadlock _ _ | EBadHandle _ _ => True | EJoined _ _ c => ended s c = true | _ => False end.

Lemma inv_init : inv init_state.
Proof. constructor; cbn; try easy; try lia. - intros c. split; [intros (f & h & [])|lia]. - split; [discriminate|intros (f & h & [])]. Qed.

(** A change of the handles that moves the references around. *)
Lemma inv_moved s m es (p : nat -> nat) :
  inv s -> aborted s = false -> Forall (dull s) es ->
  (forall h c, m h = Some (Some c) <-> hnd s (p h) = Some (Some c)) -> (forall a b, p a = p b -> a = b) -> (forall h, exists x, p x = h) ->
  inv (set_hnd s m es).
Proof.
  intros I A D M Pi Ps. rewrite Forall_forall in D. destruct I.
  assert (X : forall e, In e (es ++ log s) -> dull s e \/ In e (log s)) by (intros e H; apply in_app_or in H; destruct H; auto).
  assert (Y : forall e, In e (log s) -> In e (es ++ log s)) by (intros; apply in_or_app; auto).
  constructor; cbn [set_hnd hnd count refs ended reaped joining aborted log self]; auto.
  - intros a b c H1 H2. apply Pi. apply M in H1, H2. eauto.
  - intros h c H. apply M in H. eapply i_held0; eauto.
  - intros c H N. apply i_free0; auto. intros h E. destruct (Ps h) as [x <-]. apply (N x). now apply M.
  - intros c. rewrite <- l_made0. unfold made. split; intros (f & h & H); exists f, h; auto. destruct (X _ H) as [Z|]; auto. destruct Z.
  - intros c. rewrite <- l_end0. split; auto. intros H. destruct (X _ H) as [Z|]; auto. destruct Z.
  - intros f h c H. destruct (X _ H) as [Z|]; eauto.
  - intros c. rewrite <- l_free0. split; auto. intros H. destruct (X _ H) as [Z|]; auto. destruct Z.
  - intros c H. destruct (X _ H) as [Z|Z]; auto. exact (l_dang0 c Z).
  - rewrite l_abort0. split; intros (f & h & H); exists f, h; auto. destruct (X _ H) as [Z|]; auto. destruct Z.
  - intros f h H. destruct (X _ H) as [Z|Z]; [destruct Z|]. exfalso. assert (aborted s = true) by (apply l_abort0; eauto). congruence.
Qed.
Lemma inv_emit s es : inv s -> aborted s = false -> Forall (dull s) es -> inv (emit s es).
Proof. intros I A D. apply (inv_moved s _ es (fun x => x)); auto. - tauto. - eauto. Qed.
Lemma inv_set s h v : inv s -> aborted s = false -> (forall c, hnd s h <> Some (Some c)) -> (forall c, v <> Some (Some c)) -> inv (set_hnd s (upd (hnd s) h v) []).
Proof.
  intros I A N V. apply (inv_moved s _ [] (fun x => x)); auto.
  - intros x c. upds; [|tauto]. split; intros H; exfalso; [eapply V|eapply N]; eauto.
  - eauto.
Qed.
Definition tr (a b x : nat) : nat := if Nat.eqb x b then a else if Nat.eqb x a then b else x.
Lemma swap_tr m a b x : swap m a b x = m (tr a b x).
Proof. unfold swap, tr, upd. destruct (Nat.eqb_spec x b), (Nat.eqb_spec x a), (Nat.eqb_spec a b), (Nat.eqb_spec b a); subst; auto; congruence. Qed.
Lemma tr_tr a b x : tr a b (tr a b x) = x.
Proof.
  unfold tr. destruct (Nat.eqb_spec x b) as [->|].
  - rewrite Nat.eqb_refl. destruct (Nat.eqb_spec a b); auto.
  - destruct (Nat.eqb_spec x a) as [->|]. + rewrite Nat.eqb_refl. auto.
    + destruct (Nat.eqb_spec x b), (Nat.eqb_spec x a); congruence.
Qed.
Lemma inv_swap s a b : inv s -> aborted s = false -> inv (set_hnd s (swap (hnd s) a b) []).
Proof.
  intros I A. apply (inv_moved s _ [] (tr a b)); auto.
  - intros h c. now rewrite swap_tr.
  - intros x y H. rewrite <- (tr_tr a b x), H. apply tr_tr.
  - intros h. exists (tr a b h). apply tr_tr.
Qed.
Lemma inv_joining s f v : inv s -> (forall h c, v = Some (h, c) -> 0 < c < count s) -> inv (set_joining s f v).
Proof. intros I V. destruct I. constructor; cbn [set_joining hnd count refs ended reaped joining aborted log self]; auto. intros g h c. upds; eauto. Qed.

Lemma in_release s c e : In e (log (release s c)) <-> In e (log s) \/ refs s c = 0 /\ e = EDangling c \/ refs s c = 1 /\ e = EFree c.
Proof. unfold release. destruct (refs s c) as [|[|r]] eqn:E; cbn; split; intros H; repeat (destruct H as [H|H]); subst; auto; destruct H; try discriminate; subst; auto. Qed.
Lemma release_fields s c : refs s c <> 0 -> hnd (release s c) = hnd s /\ count (release s c) = count s /\ refs (release s c) = upd (refs s) c (refs s c - 1) /\ ended (release s c) = ended s /\ reaped (release s c) = reaped s /\ joining (release s c) = joining s /\ aborted (release s c) = aborted s.
Proof. unfold release. destruct (refs s c) as [|[|r]] eqn:E; cbn; try congruence; intros _; rewrite ?Nat.sub_0_r; auto 10. Qed.

(** A reference is given up: the numbers add up afterwards. *)
Lemma inv_release s0 s c : inv s0 -> aborted s = false -> 0 < c < count s -> refs s0 c = S (refs s0 c - 1) ->
  count s = count s0 -> ended s = ended s0 -> joining s = joining s0 -> aborted s0 = false -> log s = log s0 -> refs s = refs s0 ->
  (forall a b c, hnd s a = Some (Some c) -> hnd s b = Some (Some c) -> a = b) ->
  (forall c, reaped s c = true -> ended s c = true) ->
  (forall h d, hnd s h = Some (Some d) -> 0 < d < count s /\ upd (refs s) c (refs s c - 1) d = 1 + self s d) ->
  (forall d, 0 < d < count s -> (forall h, hnd s h <> Some (Some d)) -> upd (refs s) c (refs s c - 1) d = self s d) ->
  inv (release s c).
Proof.
  intros I A C R En Ee Ej A0 El Er U Rp H1 H2.
  destruct (release_fields s c) as (F1 & F2 & F3 & F4 & F5 & F6 & F7); [rewrite Er; lia|].
  assert (Nz : refs s c <> 0) by (rewrite Er; lia).
  destruct I. constructor; unfold self; rewrite ?F1, ?F2, ?F3, ?F4, ?F5, ?F6, ?F7; auto.
  - lia.
  - rewrite Ee, En. auto.
  - rewrite Ej, En. auto.
  - intros d. rewrite En, <- l_made0. unfold made. rewrite <- El. split; intros (f & h & H); exists f, h; [apply in_release in H|apply in_release; auto].
    destruct H as [H|[(_ & H)|(_ & H)]]; auto; discriminate.
  - intros d. rewrite in_release, Ee, El, <- l_end0. split; auto. intros [H|[(_ & H)|(_ & H)]]; auto; discriminate.
  - intros f h d H. apply in_release in H. rewrite Ee. destruct H as [H|[(_ & H)|(_ & H)]]; try discriminate. rewrite El in H. eauto.
  - intros d. rewrite in_release, El, l_free0, En, Er. split.
    + intros [(X & Y)|[(X & Y)|(X & Y)]].
      * split; auto. upds; auto. lia.
      * rewrite Er in *. lia.
      * injection Y as ->. rewrite upd_same. split; [lia|lia].
    + intros (X & Y). destruct (Nat.eq_dec d c) as [->|D]; updt; auto. right. right. split; auto. rewrite Er in *. lia.
  - intros d H. apply in_release in H. destruct H as [H|[(H & _)|(_ & H)]]; try discriminate; try congruence. rewrite El in H. exact (l_dang0 d H).
  - rewrite A. split; [discriminate|]. intros (f & h & H). apply in_release in H. destruct H as [H|[(_ & H)|(_ & H)]]; try discriminate. rewrite El in H. rewrite <- A0. apply l_abort0. eauto.
  - intros f h H. exfalso. apply in_release in H. destruct H as [H|[(_ & H)|(_ & H)]]; try discriminate. rewrite El in H. assert (aborted s0 = true) by (apply l_abort0; eauto). congruence.
Qed.
Lemma inv_reset s h : inv s -> aborted s = false -> inv (reset s h).
Proof.
  intros I A. unfold reset. destruct (hnd s h) as [[c|]|] eqn:H; auto. destruct (i_held s I h c H) as (C & R).
  apply (inv_release s); auto; cbn [set_hnd hnd count refs ended reaped joining aborted log app]; try lia; try apply I.
  - intros a b d. upds; try discriminate. apply I.
  - intros x d. unfold self. cbn [set_hnd reaped]. intros X. assert (x <> h) by (intros ->; rewrite upd_same in X; discriminate). updt.
    destruct (Nat.eq_dec d c) as [->|]; [exfalso; apply H0; eapply (i_uniq s I); eauto|]. updt. apply (i_held s I x d X).
  - intros d D N. unfold self. cbn [set_hnd reaped]. destruct (Nat.eq_dec d c) as [->|].
    + updt. rewrite R. unfold self. lia.
    + updt. apply (i_free s I); auto. intros x X. apply (N x). destruct (Nat.eq_dec x h) as [->|]; [congruence|]. now updt.
Qed.
Lemma inv_finish s f h c : inv s -> aborted s = false -> ended s c = true -> inv (finish_join s f h c).
Proof.
  intros I A E. unfold finish_join. destruct (hnd s h) as [[d|]|] eqn:H.
  - apply inv_reset; auto. apply inv_emit; auto. repeat constructor; auto.
  - apply inv_emit; auto.
  - apply inv_emit; auto. repeat constructor.
Qed.
Lemma inv_abort s f h c : inv s -> aborted s = false -> hnd s h = Some (Some c) -> inv (abort s f h).
Proof.
  intros I A H. destruct I. constructor; cbn [abort hnd count refs ended reaped joining aborted log]; auto.
  - intros d. rewrite <- l_made0. unfold made. cbn. split; intros (g & x & X); exists g, x; auto. destruct X; [discriminate|auto].
  - intros d. rewrite <- l_end0. cbn. split; auto. intros [X|X]; [discriminate|auto].
  - intros g x d [X|X]; [discriminate|eauto].
  - intros d. rewrite <- l_free0. cbn. split; auto. intros [X|X]; [discriminate|auto].
  - intros d [X|X]; [discriminate|]. exact (l_dang0 d X).
  - split; auto. intros _. exists f, h. now left.
  - intros g x [X|X]; [injection X as <- <-; eauto|eauto].
Qed.

Lemma inv_step s l s' : inv s -> step s l = Some s' -> inv s'.
Proof.
  intros I E. unfold step in E. destruct (aborted s) eqn:A; [discriminate|]. destruct l as [f h|f h|f d r|f d r|f a b|f h|f h|f h|f|c|c].
  - destruct (can_act s f); [|discriminate]. destruct (hnd s h) eqn:H; [discriminate|]. injection E as <-. destruct I.
    constructor; cbn [hnd count refs ended reaped joining aborted log]; unfold self; cbn [reaped].
    + lia.
    + intros a b c. upds; auto; intros X Y; try (injection X as <-); try (injection Y as <-); auto.
      * apply i_held0 in Y. lia.
      * apply i_held0 in X. lia.
      * eauto.
    + intros x c. destruct (Nat.eq_dec x h) as [->|]; updt.
      * intros [= <-]. updt. destruct (reaped s (count s)) eqn:Y; [apply i_reap0, i_end0 in Y; lia|]. split; [lia|auto].
      * intros X. destruct (i_held0 _ _ X) as (Y & Z). assert (c <> count s) by lia. updt. split; [lia|]. apply Z.
    + intros c C N. destruct (Nat.eq_dec c (count s)) as [->|]; [exfalso; apply (N h); now updt|]. updt. apply i_free0; [lia|].
      intros x X. apply (N x). assert (x <> h) by congruence. now updt.
    + auto.
    + intros c X. apply i_end0 in X. lia.
    + intros g x c X. apply i_join0 in X. lia.
    + intros d. split.
      * intros (g & x & [X|X]); [injection X as <- <- <-; lia|]. assert (0 < d < count s) by (apply l_made0; now exists g, x). lia.
      * intros X. destruct (Nat.eq_dec d (count s)) as [->|]; [exists f, h; now left|]. destruct (proj2 (l_made0 d)) as (g & x & Y); [lia|]. exists g, x. now right.
    + intros c. rewrite <- l_end0. cbn. split; auto. intros [X|X]; [discriminate|auto].
    + intros g x d [X|X]; [discriminate|eauto].
    + intros d. cbn. split.
      * intros [X|X]; [discriminate|]. apply l_free0 in X. assert (d <> count s) by lia. updt. lia.
      * intros (X & Y). destruct (Nat.eq_dec d (count s)) as [->|]; updt; [discriminate|]. right. apply l_free0. lia.
    + intros d [X|X]; [discriminate|]. exact (l_dang0 d X).
    + split; [discriminate|]. intros (g & x & [X|X]); [discriminate|]. rewrite <- A. apply l_abort0. eauto.
    + intros g x [X|X]; [discriminate|]. exfalso. assert (aborted s = true) by (apply l_abort0; eauto). congruence.
  - destruct (can_act s f); [|discriminate]. destruct (hnd s h) eqn:H; [discriminate|]. injection E as <-. apply inv_set; auto; intros c; congruence.
  - destruct (can_act s f); [|discriminate]. destruct (hnd s d) eqn:H; [discriminate|]. destruct (hnd s r) eqn:H2; [|discriminate]. injection E as <-.
    apply (inv_swap (set_hnd s (upd (hnd s) d (Some None)) [])); auto. apply inv_set; auto; intros c; congruence.
  - destruct (can_act s f); [|discriminate]. destruct (hnd s d) as [[x|]|] eqn:H; [|destruct (Nat.eqb d r)|discriminate]; (destruct (hnd s r) eqn:H2; [|discriminate]); injection E as <-; auto.
    + eapply inv_abort; eauto.
    + apply inv_swap; auto.
  - destruct (can_act s f); [|discriminate]. destruct (hnd s a) eqn:H; [|discriminate]. destruct (hnd s b) eqn:H2; [|discriminate]. injection E as <-. now apply inv_swap.
  - destruct (can_act s f); [|discriminate]. destruct (hnd s h) as [[x|]|] eqn:H; [| |discriminate]; injection E as <-.
    + eapply inv_abort; eauto.
    + apply inv_set; auto; intros c; congruence.
  - destruct (can_act s f); [|discriminate]. destruct (hnd s h) as [[x|]|] eqn:H; [| |discriminate]; injection E as <-.
    + apply inv_reset; auto. apply inv_emit; auto. repeat constructor.
    + apply inv_emit; auto. repeat constructor.
  - destruct (can_act s f); [|discriminate]. unfold join in E. destruct (hnd s h) as [[c|]|] eqn:H; [| |discriminate].
    + destruct (i_held s I h c H) as (C & R). destruct (Nat.eqb c f); [injection E as <-; apply inv_emit; auto; repeat constructor|].
      destruct (Nat.eqb_spec (refs s c) 0); [lia|]. destruct (ended s c) eqn:N; injection E as <-.
      * apply inv_finish; auto.
      * apply inv_joining; [apply inv_emit; auto; repeat constructor|]. intros x y [= <- <-]. exact C.
    + injection E as <-. apply inv_emit; auto. repeat constructor.
  - destruct (joining s f) as [[h c]|] eqn:J; [|discriminate]. destruct (ended s c) eqn:N; [|discriminate]. injection E as <-.
    apply inv_finish; auto. apply inv_joining; auto. discriminate.
  - destruct (_ && _) eqn:C in E; [|discriminate]. destruct (joining s c) eqn:J; [discriminate|]. injection E as <-.
    apply andb_true_iff in C. destruct C as (C & C3). apply andb_true_iff in C. destruct C as (C1 & C2). apply Nat.ltb_lt in C1, C2.
    destruct I. constructor; cbn [hnd count refs ended reaped joining aborted log]; unfold self; cbn [reaped]; auto.
    + intros d X. upds; auto.
    + intros d. upds; auto.
    + intros d. rewrite <- l_made0. unfold made. cbn. split; intros (g & x & X); exists g, x; auto. destruct X; [discriminate|auto].
    + intros d. cbn. rewrite l_end0. upds; split; auto. intros [X|X]; auto. injection X as ->. congruence.
    + intros g x d [X|X]; [discriminate|]. upds; eauto.
    + intros d. rewrite <- l_free0. cbn. split; auto. intros [X|X]; [discriminate|auto].
    + intros d [X|X]; [discriminate|]. exact (l_dang0 d X).
    + split; [discriminate|]. intros (g & x & [X|X]); [discriminate|]. rewrite <- A. apply l_abort0. eauto.
    + intros g x [X|X]; [discriminate|]. eauto.
  - destruct (_ && _) eqn:C in E; [|discriminate]. injection E as <-. apply andb_true_iff in C. destruct C as (C1 & C2). apply negb_true_iff in C2.
    pose proof (i_end s I c C1) as C. 
    assert (R : refs s c <> 0).
    { intros Z. assert (Nh : forall h, hnd s h <> Some (Some c)) by (intros h X; destruct (i_held s I h c X); lia). pose proof (i_free s I c C Nh) as Y. unfold self in Y. rewrite C2 in Y. lia. }
    apply (inv_release s); auto; cbn [hnd count refs ended reaped joining aborted log]; try lia; try apply I.
    + intros d. upds; auto. apply I.
    + intros h d X. destruct (i_held s I h d X) as (Y & Z). split; auto. unfold self in *. cbn [reaped]. upds; auto. rewrite C2 in Z. lia.
    + intros d D N. pose proof (i_free s I d D N) as Z. unfold self in *. cbn [reaped]. upds; auto. rewrite C2 in Z. lia.
Qed.

Lemma inv_reach s : reachable step init_state s -> inv s.
Proof. apply reachable_inv; [apply inv_init|apply inv_step]. Qed.
Lemma quiet_reach s : quiet s -> reachable step init_state s.
Proof. induction 1; [apply reachable_refl|eapply reachable_step; eauto]. Qed.

(** What impl_.reset() changes. *)
Lemma reset_effect s h : inv s ->
  count (reset s h) = count s /\ ended (reset s h) = ended s /\ joining (reset s h) = joining s /\ aborted (reset s h) = aborted s /\
  (forall x, hnd (reset s h) x = if Nat.eqb x h then match hnd s h with Some _ => Some None | None => None end else hnd s x) /\
  (forall e, (forall c, e <> EFree c) -> In e (log (reset s h)) <-> In e (log s)).
Proof.
  intros I. unfold reset. destruct (hnd s h) as [[c|]|] eqn:H.
  - destruct (i_held s I h c H) as (_ & R).
    destruct (release_fields (set_hnd s (upd (hnd s) h (Some None)) []) c) as (F1 & F2 & F3 & F4 & F5 & F6 & F7); [cbn; lia|].
    rewrite F1, F2, F4, F6, F7. cbn [set_hnd hnd count ended joining aborted]. splits; auto.
    intros e N. rewrite in_release. cbn [set_hnd refs log app]. split; auto. intros [X|[(X & _)|(_ & X)]]; auto; [lia|exfalso; eapply N; eauto].
  - splits; auto; [|tauto]. intros x. destruct (Nat.eqb_spec x h); subst; auto.
  - splits; auto; [|tauto]. intros x. destruct (Nat.eqb_spec x h); subst; auto.
Qed.

Record qinv (s : st) : Prop := mkQ {
  q_join : forall f h c, joining s f = Some (h, c) -> hnd s h = Some (Some c) \/ hnd s h = Some None;
  q_kept : forall c, 0 < c < count s -> ended s c = false -> ~ detached (log s) c -> exists h, hnd s h = Some (Some c);
  q_bad : forall f h, ~ In (EBadHandle f h) (log s);
  q_reset : forall f h c, In (EReset f h c) (log s) -> ended s c = true
}.
Lemma qinv_init : qinv init_state.
Proof. constructor; cbn; try easy; lia. Qed.

(** Changes of the handles only. *)
Lemma qinv_set s m es : qinv s -> (forall e, In e es -> match e with EWait _ _ _ | EInvalid _ _ | EDeadlock _ _ | EJoined _ _ _ | EDetach _ _ _ => True | _ => False end) ->
  (forall f h c, joining s f = Some (h, c) -> m h = hnd s h \/ m h = Some None) ->
  (forall h c, hnd s h = Some (Some c) -> (exists x, m x = Some (Some c)) \/ ended s c = true \/ detached es c) ->
  qinv (set_hnd s m es).
Proof.
  intros [Qj Qk Qb Qr] D J K. constructor; cbn [set_hnd joining hnd count ended log].
  - intros f h c X. destruct (J f h c X) as [->| ->]; eauto.
  - intros c C E N. destruct (Qk c C E) as [h H].
    + intros (f & h & X). apply N. exists f, h. apply in_or_app. auto.
    + destruct (K h c H) as [X|[X|(f & x & X)]]; [exact X|congruence|]. exfalso. apply N. exists f, x. apply in_or_app. auto.
  - intros f h X. apply in_app_or in X. destruct X as [X|X]; [exact (D _ X)|exact (Qb f h X)].
  - intros f h c X. apply in_app_or in X. destruct X as [X|X]; [destruct (D _ X)|eauto].
Qed.
Lemma qinv_emit s es : qinv s -> (forall e, In e es -> match e with EWait _ _ _ | EInvalid _ _ | EDeadlock _ _ | EJoined _ _ _ | EDetach _ _ _ => True | _ => False end) -> qinv (emit s es).
Proof. intros Q D. apply qinv_set; eauto. Qed.
(** The handle is emptied; the fiber it referred to has terminated or is detached. *)
Lemma qinv_reset s h : inv s -> (forall f, ~ exists c, joining s f = Some (h, c) /\ hnd s h = None) -> qinv s -> (forall c, hnd s h = Some (Some c) -> ended s c = true \/ detached (log s) c) -> qinv (reset s h).
Proof.
  intros I _ [Qj Qk Qb Qr] H. destruct (reset_effect s h I) as (F1 & F2 & F3 & F4 & F5 & F6). constructor.
  - intros f x c. rewrite F3, F5. intros X. destruct (Qj f x c X) as [Y|Y]; rewrite ?Y; destruct (Nat.eqb_spec x h) as [->|]; auto; rewrite Y; auto.
  - intros c. rewrite F1, F2. intros C E N. destruct (Qk c C E) as [x X].
    + intros (f & y & Y). apply N. exists f, y. apply F6; [discriminate|auto].
    + exists x. rewrite F5. destruct (Nat.eqb_spec x h) as [->|]; auto. exfalso. destruct (H c X) as [Y|(f & y & Y)]; [congruence|]. apply N. exists f, y. apply F6; [discriminate|auto].
  - intros f x X. apply F6 in X; [|discriminate]. exact (Qb f x X).
  - intros f x c X. apply F6 in X; [|discriminate]. rewrite F2. eauto.
Qed.
Lemma qinv_finish s f h c : inv s -> aborted s = false -> qinv s -> ended s c = true -> hnd s h = Some (Some c) \/ hnd s h = Some None -> qinv (finish_join s f h c).
Proof.
  intros I A Q E H. unfold finish_join. destruct H as [H|H]; rewrite H.
  - apply qinv_reset.
    + apply inv_emit; auto. repeat constructor; auto.
    + cbn. intros g (d & _ & X). congruence.
    + destruct Q as [Qj Qk Qb Qr]. constructor; cbn [emit set_hnd joining hnd count ended log app]; auto.
      * intros d D Ed N. apply Qk; auto. intros (g & x & X). apply N. exists g, x. cbn; auto.
      * intros g x [X|[X|X]]; try discriminate. exact (Qb g x X).
      * intros g x d [X|[X|X]]; try discriminate; eauto. now injection X as <- <- <-.
    + cbn. intros d X. left. congruence.
  - apply qinv_emit; auto. intros e [<-|[]]. exact Logic.I.
Qed.

Lemma qinv_step s l s' : inv s -> qinv s -> (forall h, being_joined s h -> ~ writes l h) -> step s l = Some s' -> qinv s'.
Proof.
  intros I Q W E. unfold step in E. destruct (aborted s) eqn:A; [discriminate|].
  assert (NW : forall f h c, joining s f = Some (h, c) -> ~ writes l h) by (intros f h c X; apply W; exists f, c; auto). clear W.
  destruct l as [f h|f h|f d r|f d r|f a b|f h|f h|f h|f|c|c]; cbn [writes] in NW.
  - destruct (can_act s f); [|discriminate]. destruct (hnd s h) eqn:H; [discriminate|]. injection E as <-. destruct Q as [Qj Qk Qb Qr].
    constructor; cbn [joining hnd count ended log].
    + intros g x c X. pose proof (NW g x c X). updt. eauto.
    + intros c C Ec N. destruct (Nat.eq_dec c (count s)) as [->|]; [exists h; now updt|]. destruct (Qk c) as [x X]; auto; [lia| |].
      * intros (g & x & X). apply N. exists g, x. now right.
      * exists x. assert (x <> h) by congruence. now updt.
    + intros g x [X|X]; [discriminate|]. exact (Qb g x X).
    + intros g x c [X|X]; [discriminate|eauto].
  - destruct (can_act s f); [|discriminate]. destruct (hnd s h) eqn:H; [discriminate|]. injection E as <-. apply qinv_set; auto.
    + intros e [].
    + intros g x c X. pose proof (NW g x c X). updt. auto.
    + intros x c X. left. exists x. assert (x <> h) by congruence. now updt.
  - destruct (can_act s f); [|discriminate]. destruct (hnd s d) eqn:H; [discriminate|]. destruct (hnd s r) as [v|] eqn:H2; [|discriminate]. injection E as <-. apply qinv_set; auto.
    + intros e [].
    + intros g x c X. pose proof (NW g x c X) as Y. unfold swap. destruct (Nat.eq_dec x r) as [->|]; updt; auto. 
    + intros x c X. left. assert (x <> d) by congruence. assert (r <> d) by congruence. destruct (Nat.eq_dec x r) as [->|]; [exists d|exists x]; unfold swap; now updt.
  - destruct (can_act s f); [|discriminate]. destruct (hnd s d) as [[x|]|] eqn:H; [|destruct (Nat.eqb d r) eqn:Dr|discriminate]; (destruct (hnd s r) eqn:H2; [|discriminate]); injection E as <-; auto.
    + destruct Q as [Qj Qk Qb Qr]. constructor; cbn [abort joining hnd count ended log]; auto.
      * intros c C Ec N. apply Qk; auto. intros (g & y & X). apply N. exists g, y. now right.
      * intros g y [X|X]; [discriminate|]. exact (Qb g y X).
      * intros g y c [X|X]; [discriminate|eauto].
    + apply qinv_set; auto.
      * intros e [].
      * intros g x c X. pose proof (NW g x c X) as Y. left. unfold swap. assert (x <> d) by (intros ->; tauto). assert (x <> r) by (intros ->; tauto). now updt.
      * intros x c X. left. exists (tr d r x). now rewrite swap_tr, tr_tr.
  - destruct (can_act s f); [|discriminate]. destruct (hnd s a) eqn:H; [|discriminate]. destruct (hnd s b) eqn:H2; [|discriminate]. injection E as <-. apply qinv_set; auto.
    + intros e [].
    + intros g x c X. pose proof (NW g x c X) as Y. left. unfold swap. assert (x <> a) by (intros ->; tauto). assert (x <> b) by (intros ->; tauto). now updt.
    + intros x c X. left. exists (tr a b x). now rewrite swap_tr, tr_tr.
  - destruct (can_act s f); [|discriminate]. destruct (hnd s h) as [[x|]|] eqn:H; [| |discriminate]; injection E as <-.
    + destruct Q as [Qj Qk Qb Qr]. constructor; cbn [abort joining hnd count ended log]; auto.
      * intros c C Ec N. apply Qk; auto. intros (g & y & X). apply N. exists g, y. now right.
      * intros g y [X|X]; [discriminate|]. exact (Qb g y X).
      * intros g y c [X|X]; [discriminate|eauto].
    + apply qinv_set; auto.
      * intros e [].
      * intros g x c X. pose proof (NW g x c X). updt. auto.
      * intros x c X. left. exists x. assert (x <> h) by congruence. now updt.
  - destruct (can_act s f); [|discriminate]. destruct (hnd s h) as [[x|]|] eqn:H; [| |discriminate]; injection E as <-.
    + apply qinv_reset.
      * apply inv_emit; auto. repeat constructor.
      * cbn. intros g (d & _ & X). congruence.
      * apply qinv_emit; auto. intros e [<-|[]]. exact Logic.I.
      * cbn. intros c X. right. exists f, h. left. congruence.
    + apply qinv_emit; auto. intros e [<-|[]]. exact Logic.I.
  - destruct (can_act s f); [|discriminate]. unfold join in E. destruct (hnd s h) as [[c|]|] eqn:H; [| |discriminate].
    + destruct (Nat.eqb c f); [injection E as <-; apply qinv_emit; auto; intros e [<-|[]]; exact Logic.I|].
      destruct (i_held s I h c H) as (C & R). destruct (Nat.eqb_spec (refs s c) 0); [lia|]. destruct (ended s c) eqn:N; injection E as <-.
      * apply qinv_finish; auto.
      * assert (Q' : qinv (emit s [EWait f h c])) by (apply qinv_emit; auto; intros e [<-|[]]; exact Logic.I).
        destruct Q' as [Qj Qk Qb Qr]. constructor; cbn [set_joining joining hnd count ended log]; auto.
        intros g x d. upds; [|eauto]. intros [= <- <-]. auto.
    + injection E as <-. apply qinv_emit; auto. intros e [<-|[]]. exact Logic.I.
  - destruct (joining s f) as [[h c]|] eqn:J; [|discriminate]. destruct (ended s c) eqn:N; [|discriminate]. injection E as <-.
    apply qinv_finish; auto.
    + apply inv_joining; auto. discriminate.
    + pose proof Q as [Qj Qk Qb Qr]. constructor; cbn [set_joining joining hnd count ended log]; auto. intros g x d. upds; [discriminate|eauto].
    + cbn [set_joining hnd]. eapply (q_join s Q); eauto.
  - destruct (_ && _) eqn:C in E; [|discriminate]. destruct (joining s c) eqn:J; [discriminate|]. injection E as <-.
    destruct Q as [Qj Qk Qb Qr]. constructor; cbn [joining hnd count ended log]; auto.
    + intros d D Ed N. assert (d <> c) by (intros ->; rewrite upd_same in Ed; discriminate). updt. apply Qk; auto. intros (g & x & X). apply N. exists g, x. now right.
    + intros g x [X|X]; [discriminate|]. exact (Qb g x X).
    + intros g x d [X|X]; [discriminate|]. upds; eauto.
  - destruct (_ && _) eqn:C in E; [|discriminate]. injection E as <-. apply andb_true_iff in C. destruct C as (C1 & C2). apply negb_true_iff in C2.
    pose proof (i_end s I c C1) as C.
    assert (R : refs s c <> 0).
    { intros Z. assert (Nh : forall h, hnd s h <> Some (Some c)) by (intros h X; destruct (i_held s I h c X); lia). pose proof (i_free s I c C Nh) as Y. unfold self in Y. rewrite C2 in Y. lia. }
    match goal with |- qinv (release ?x c) => destruct (release_fields x c) as (F1 & F2 & F3 & F4 & F5 & F6 & F7); [exact R|]; assert (L : forall e, (forall d, e <> EFree d) -> In e (log (release x c)) <-> In e (log s)) end.
    { intros e N. rewrite in_release. cbn [refs log]. split; auto. intros [X|[(X & _)|(_ & X)]]; auto; [congruence|exfalso; eapply N; eauto]. }
    destruct Q as [Qj Qk Qb Qr]. constructor; rewrite ?F1, ?F2, ?F4, ?F6; cbn [joining hnd count ended]; auto.
    + intros d D Ed N. apply Qk; auto. intros (g & x & X). apply N. exists g, x. apply L; [discriminate|auto].
    + intros g x X. apply L in X; [|discriminate]. exact (Qb g x X).
    + intros g x d X. apply L in X; [|discriminate]. eauto.
Qed.
Lemma qinv_quiet s : quiet s -> qinv s.
Proof. induction 1; [apply qinv_init|]. eapply qinv_step; eauto. apply inv_reach, quiet_reach; auto. Qed.
