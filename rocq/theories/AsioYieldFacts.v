(** Invariant for AsioYield. *)
From Coq Require Import List Arith Bool Lia.
From Verif Require Import Base AsioYield AsioYieldSpec.
Import ListNotations.

Definition fits (h : hpc) (t : state_t) (p : fpc) : Prop :=
  match h with
  | HNone | HValue | HLock => (t = Init /\ p = FStarted) \/ (t = Waiting /\ p = FBlocked)
  | HWake true => t = Complete /\ p = FBlocked
  | HWake false | HDone => t = Complete /\ (p = FStarted \/ p = FResumed \/ p = FGone)
  end.
Definition live (p : fpc) : bool := match p with FStarted | FBlocked | FResumed => true | _ => false end.
Definition running (h : hpc) : bool := match h with HValue | HLock | HWake _ => true | _ => false end.
Definition stored (h : hpc) (o : op_t) : Prop :=
  match h with HNone | HValue => True | HLock => value o = hval o | _ => value o = hval o /\ ecv o = hec o end.

(** What the log says about operation n. *)
Record seen (o : op_t) (n : nat) (l : list event) : Prop := {
  se_start : forall f b, In (EStart f n b) l <-> f = fib o /\ b = bound o;
  se_inv : forall ec v, In (EInvoke n ec v) l <-> h o <> HNone /\ ec = hec o /\ v = hval o;
  se_susp : forall f, In (ESuspend f n) l -> f = fib o;
  se_susp2 : fp o = FBlocked -> In (ESuspend (fib o) n) l;
  se_susp3 : fp o = FStarted -> forall f, ~ In (ESuspend f n) l;
  se_wake : In (EWake n) l -> fp o = FResumed \/ fp o = FGone;
  se_wake2 : fp o = FResumed -> forall f, In (ESuspend f n) l -> In (EWake n) l;
  se_ret : (exists f r, In (EReturn f n r) l) <-> fp o = FGone;
  se_del : In (EDelete n) l <-> deleted o = true
}.
Record okop (o : op_t) : Prop := {
  ok_fits : fits (h o) (stt o) (fp o);
  ok_refs : refs o = copies o + (if alive o then 1 else 0);
  ok_del : deleted o = true <-> refs o = 0;
  ok_alive : alive o = live (fp o);
  ok_run : running (h o) = true -> copies o > 0;
  ok_stored : stored (h o) o;
  ok_fp : fp o <> FNone
}.
Definition about (e : event) : nat := match e with EStart _ m _ | EInvoke m _ _ | EWake m | ESuspend _ m | EReturn _ m _ | EDelete m | EDangling m | EBadWake m => m end.
Record inv (s : st) : Prop := {
  i_old : forall n, n < count s -> okop (ops s n) /\ seen (ops s n) n (log s);
  i_new : forall n, count s <= n -> ops s n = no_op;
  i_fresh : forall n e, count s <= n -> In e (log s) -> about e <> n;
  i_legal : legal (log s)
}.
Lemma inv_init : inv init_state.
Proof. split; simpl; intros; auto; lia. Qed.

(** An event about another operation does not matter. *)
Lemma in_other : forall (e : event) (es l : list event) n, (forall x, In x es -> about x <> n) -> about e = n -> (In e (es ++ l) <-> In e l).
Proof. intros e es l n H A. rewrite in_app_iff. split; auto. intros [X|X]; auto. exfalso. apply (H e X A). Qed.
Lemma seen_other : forall o n es l, (forall x, In x es -> about x <> n) -> seen o n l -> seen o n (es ++ l).
Proof.
  intros o n es l H S. destruct S.
  assert (E : forall e, about e = n -> (In e (es ++ l) <-> In e l)) by (intros; apply in_other with n; auto).
  split; intros.
  - rewrite E by auto. auto.
  - rewrite E by auto. auto.
  - rewrite E in * by auto. auto.
  - rewrite E by auto. auto.
  - rewrite E by auto. auto.
  - rewrite E in * by auto. auto.
  - rewrite E in * by auto. eauto.
  - rewrite <- se_ret0. split; intros (f & r & X); exists f, r; [rewrite E in X|rewrite E]; auto.
  - rewrite E by auto. auto.
Qed.
(** Changing one operation. *)
Lemma inv_put : forall s n o es, inv s -> n < count s -> (forall x, In x es -> about x = n) -> okop o -> seen o n (es ++ log s) -> legal (es ++ log s) -> inv (put s n o es).
Proof.
  intros s n o es I N A O S L. destruct I. split; cbn [put ops count log].
  - intros m M. unfold upd. destruct (Nat.eqb_spec m n) as [->|D]; [tauto|].
    destruct (i_old0 m M). split; auto. apply seen_other; auto. intros x X. rewrite (A x X). auto.
  - intros m M. unfold upd. destruct (Nat.eqb_spec m n); [lia|auto].
  - intros m e M X. apply in_app_iff in X as [X|X]; [|eauto]. rewrite (A e X). lia.
  - auto.
Qed.
Lemma inv_busy : forall s b, inv s -> inv (mkSt (ops s) (count s) b (log s)).
Proof. intros s b I. destruct I. split; auto. Qed.

Ltac ins := repeat match goal with
  | H : In _ (_ :: _) |- _ => destruct H as [H|H]
  | H : In _ [] |- _ => destruct H
  end.
Ltac sgo := intros; simpl in *; ins; try discriminate; try congruence; try tauto.

Lemma inv_start : forall s f b, inv s -> inv (start s f b).
Proof.
  intros s f b I. destruct I. unfold start.
  assert (F : forall e, In e (log s) -> about e <> count s) by (intros e; apply i_fresh0; lia).
  split; cbn [ops count log].
  - intros n N. unfold upd. destruct (Nat.eqb_spec n (count s)) as [->|D].
    + split.
      * split; simpl; auto; try lia; try discriminate.
      * split; simpl.
        -- intros g c. split; [intros [X|X]; [inversion X; auto|exfalso; apply (F _ X); auto]|intros (-> & ->); auto].
        -- intros ec v. split; [intros [X|X]; [discriminate|exfalso; apply (F _ X); auto]|intros (X & _); congruence].
        -- intros g [X|X]; [discriminate|exfalso; apply (F _ X); auto].
        -- discriminate.
        -- intros _ g [X|X]; [discriminate|apply (F _ X); auto].
        -- intros [X|X]; [discriminate|exfalso; apply (F _ X); auto].
        -- discriminate.
        -- split; [intros (g & r & [X|X]); [discriminate|exfalso; apply (F _ X); auto]|discriminate].
        -- split; [intros [X|X]; [discriminate|exfalso; apply (F _ X); auto]|discriminate].
    + destruct (i_old0 n ltac:(lia)). split; auto. apply (seen_other _ _ [EStart f (count s) b]); auto.
      intros x [<-|[]]. simpl. auto.
  - intros n N. unfold upd. destruct (Nat.eqb_spec n (count s)); [lia|]. apply i_new0. lia.
  - intros n e N [<-|X]; [simpl; lia|]. apply i_fresh0; auto. lia.
  - simpl. split; auto. intros g c X. apply (F _ X). auto.
Qed.
(** Operations that exist. *)
Lemma exists_copies : forall s n, inv s -> copies (ops s n) <> 0 -> n < count s.
Proof. intros s n I H. destruct (le_lt_dec (count s) n) as [L|L]; auto. rewrite (i_new s I n L) in H. simpl in H. congruence. Qed.
Lemma exists_h : forall s n, inv s -> h (ops s n) <> HNone -> n < count s.
Proof. intros s n I H. destruct (le_lt_dec (count s) n) as [L|L]; auto. rewrite (i_new s I n L) in H. simpl in H. congruence. Qed.
Lemma exists_fp : forall s n, inv s -> fp (ops s n) <> FNone -> n < count s.
Proof. intros s n I H. destruct (le_lt_dec (count s) n) as [L|L]; auto. rewrite (i_new s I n L) in H. simpl in H. congruence. Qed.

(** A step that changes neither what the log shows nor the log. *)
Lemma seen_same : forall o o' n l, seen o n l -> fib o' = fib o -> bound o' = bound o -> (h o' = HNone <-> h o = HNone) -> hec o' = hec o -> hval o' = hval o -> fp o' = fp o -> deleted o' = deleted o -> seen o' n l.
Proof. intros o o' n l S E1 E2 E3 E4 E5 E6 E7. destruct S. split; rewrite ?E1, ?E2, ?E4, ?E5, ?E6, ?E7; auto. intros ec v. rewrite se_inv0, ?E4, ?E5. tauto. Qed.

Lemma inv_copy : forall s n, inv s -> copies (ops s n) <> 0 ->
  inv (put s n (let o := ops s n in mkOp (fib o) (bound o) (stt o) (S (refs o)) (deleted o) (S (copies o)) (h o) (hec o) (hval o) (alive o) (value o) (ecv o) (fp o)) []).
Proof.
  intros s n I H. pose proof (exists_copies s n I H) as N. destruct (i_old s I n N) as [O S].
  apply inv_put; auto.
  - intros x [].
  - destruct O. split; simpl; auto; try lia. rewrite ok_del0. lia.
  - simpl. eapply seen_same; [exact S|..]; simpl; auto; tauto.
  - exact (i_legal s I).
Qed.
Lemma inv_invoke : forall s n ec v, inv s -> copies (ops s n) <> 0 -> h (ops s n) = HNone ->
  inv (put s n (let o := ops s n in mkOp (fib o) (bound o) (stt o) (refs o) (deleted o) (copies o) HValue ec v (alive o) (value o) (ecv o) (fp o)) [EInvoke n ec v]).
Proof.
  intros s n ec v I H H0. pose proof (exists_copies s n I H) as N. destruct (i_old s I n N) as [O S].
  assert (NI : forall ec' v', ~ In (EInvoke n ec' v') (log s)). { intros ec' v' X. apply (se_inv _ _ _ S) in X. tauto. }
  apply inv_put; auto.
  - intros x [<-|[]]. auto.
  - destruct O. rewrite H0 in *. split; simpl; auto; try lia.
  - destruct S. split; simpl.
    + intros f b. split; [intros [X|X]; [discriminate|apply se_start0; auto]|intros X; right; apply se_start0; auto].
    + intros e w. split; [intros [X|X]; [inversion X; splits; auto; discriminate|exfalso; eapply NI; eauto]|intros (_ & -> & ->); auto].
    + intros f [X|X]; [discriminate|eauto].
    + auto.
    + intros P f [X|X]; [discriminate|eapply se_susp5; eauto].
    + intros [X|X]; [discriminate|auto].
    + intros P f [X|X]; [discriminate|right; eapply se_wake3; eauto].
    + rewrite <- se_ret0. split; intros (f & r & X); exists f, r; [destruct X as [X|X]; [discriminate|auto]|auto].
    + rewrite <- se_del0. split; [intros [X|X]; [discriminate|auto]|auto].
  - simpl. split; [|exact (i_legal s I)]. split; auto. exists (fib (ops s n)), (bound (ops s n)). apply (se_start _ _ _ S). auto.
Qed.
Lemma release_seen : forall o n, okop o -> refs o <> 0 ->
  (refs o = 1 /\ deleted o = false /\ release o n = (0, true, [EDelete n])) \/ (refs o > 1 /\ deleted o = false /\ release o n = (refs o - 1, false, [])).
Proof.
  intros o n O R. destruct O. assert (D : deleted o = false). { destruct (deleted o); auto. destruct ok_del0 as [X _]. specialize (X eq_refl). lia. }
  unfold release. destruct (refs o) as [|[|r]] eqn:E; [lia|left; auto|right; splits; auto; [lia|rewrite D; f_equal]].
Qed.
Lemma inv_drop : forall s n, inv s -> copies (ops s n) <> 0 -> (running (h (ops s n)) = true -> copies (ops s n) > 1) -> inv (drop s n).
Proof.
  intros s n I H R. pose proof (exists_copies s n I H) as N. destruct (i_old s I n N) as [O S].
  assert (RF : refs (ops s n) <> 0) by (rewrite (ok_refs _ O); lia).
  unfold drop. destruct (release_seen _ n O RF) as [(R1 & D & E)|(R1 & D & E)]; rewrite E; apply inv_put; auto.
  - intros x [<-|[]]. auto.
  - destruct O. split; simpl; auto; try tauto.
    + destruct (alive (ops s n)); lia.
    + intros X. specialize (R X). lia.
  - assert (G : fp (ops s n) = FGone).
    { pose proof (ok_refs _ O) as RR. rewrite (ok_alive _ O) in RR. pose proof (ok_fp _ O). destruct (fp (ops s n)); simpl in RR; auto; try lia. congruence. }
    destruct S. split; simpl.
    + intros f b. split; [intros [X|X]; [discriminate|apply se_start0; auto]|intros X; right; apply se_start0; auto].
    + intros e w. split; [intros [X|X]; [discriminate|apply se_inv0; auto]|intros X; right; apply se_inv0; auto].
    + intros f [X|X]; [discriminate|eauto].
    + auto.
    + intros P f [X|X]; [discriminate|eapply se_susp5; eauto].
    + intros [X|X]; [discriminate|auto].
    + intros P f [X|X]; [discriminate|right; eapply se_wake3; eauto].
    + rewrite <- se_ret0. split; intros (f & r & X); exists f, r; [destruct X as [X|X]; [discriminate|auto]|auto].
    + split; auto.
  - assert (G : fp (ops s n) = FGone).
    { pose proof (ok_refs _ O) as RR. rewrite (ok_alive _ O) in RR. pose proof (ok_fp _ O). destruct (fp (ops s n)); simpl in RR; auto; try lia. congruence. }
    simpl. split; [|exact (i_legal s I)]. split.
    + apply (se_ret _ _ _ S). auto.
    + rewrite (se_del _ _ _ S), D. discriminate.
  - intros x [].
  - destruct O. split; simpl; auto; try lia.
    + intros X. specialize (R X). lia.
  - simpl. eapply seen_same; [exact S|..]; simpl; auto; tauto.
  - exact (i_legal s I).
Qed.

Lemma not_deleted : forall o, okop o -> refs o <> 0 -> deleted o = false.
Proof. intros o O R. destruct (release_seen o 0 O R) as [(_ & D & _)|(_ & D & _)]; auto. Qed.

Lemma inv_hnd : forall s n s', inv s -> hstep s n = Some s' -> inv s'.
Proof.
  intros s n s' I H. unfold hstep in H.
  assert (N : n < count s). { apply exists_h; auto. intros X. rewrite X in H. discriminate. }
  destruct (i_old s I n N) as [O S]. pose proof (ok_fits _ O) as F. pose proof (ok_run _ O) as RN. pose proof (ok_alive _ O) as AL. pose proof (ok_stored _ O) as ST. pose proof (ok_refs _ O) as RF.
  destruct (h (ops s n)) as [| | |w|] eqn:E; try discriminate; simpl in F, RN, ST; specialize (RN eq_refl).
  - (* store the value *)
    assert (A : alive (ops s n) = true) by (rewrite AL; destruct F as [[_ X]|[_ X]]; rewrite X; auto).
    inversion H; subst s'; clear H. rewrite A. apply inv_put; auto.
    + intros x [].
    + destruct O. rewrite A in *. split; simpl; auto.
    + simpl. eapply seen_same; [exact S|..]; simpl; auto. rewrite E. split; discriminate.
    + exact (i_legal s I).
  - (* critical section *)
    assert (A : alive (ops s n) = true) by (rewrite AL; destruct F as [[_ X]|[_ X]]; rewrite X; auto).
    assert (D : deleted (ops s n) = false) by (apply not_deleted; auto; lia).
    inversion H; subst s'; clear H. rewrite A, D. simpl. apply inv_put; auto.
    + intros x [].
    + destruct O. rewrite A, D in *. split; simpl; auto. destruct F as [[-> ->]|[-> ->]]; auto.
    + simpl. eapply seen_same; [exact S|..]; simpl; auto. rewrite E. split; discriminate.
    + exact (i_legal s I).
  - destruct w.
    + (* wake the fiber *)
      destruct F as [F1 F2]. rewrite F2 in H. inversion H; subst s'; clear H.
      assert (NW : ~ In (EWake n) (log s)). { intros X. apply (se_wake _ _ _ S) in X. destruct X; congruence. }
      apply inv_put; auto.
      * intros x [<-|[]]. auto.
      * destruct O. rewrite F2 in *. split; simpl; auto; try discriminate.
      * destruct S. split; simpl.
        -- intros f b. split; [intros [X|X]; [discriminate|apply se_start0; auto]|intros X; right; apply se_start0; auto].
        -- intros e w. rewrite E in se_inv0. split; [intros [X|X]; [discriminate|apply se_inv0 in X; splits; try tauto; discriminate]|intros (_ & X); right; apply se_inv0; split; auto; discriminate].
        -- intros f [X|X]; [discriminate|eauto].
        -- discriminate.
        -- discriminate.
        -- auto.
        -- auto.
        -- rewrite F2 in se_ret0. split; [intros (f & r & [X|X]); [discriminate|]|discriminate]. exfalso. assert (Z : FBlocked = FGone) by (apply se_ret0; eauto). discriminate.
        -- rewrite <- se_del0. split; [intros [X|X]; [discriminate|auto]|auto].
      * simpl. split; [|exact (i_legal s I)]. splits; auto.
        -- exists (fib (ops s n)). apply (se_susp2 _ _ _ S). auto.
        -- exists (hec (ops s n)), (hval (ops s n)). apply (se_inv _ _ _ S). rewrite E. splits; auto. discriminate.
    + inversion H; subst s'; clear H. apply inv_put; auto.
      * intros x [].
      * destruct O. split; simpl; auto; try discriminate.
      * simpl. eapply seen_same; [exact S|..]; simpl; auto. rewrite E. split; discriminate.
      * exact (i_legal s I).
Qed.

Lemma inv_fib : forall s n s', inv s -> fstep s n = Some s' -> inv s'.
Proof.
  intros s n s' I H. unfold fstep in H.
  assert (N : n < count s). { apply exists_fp; auto. intros X. rewrite X in H. discriminate. }
  destruct (i_old s I n N) as [O S]. pose proof (ok_fits _ O) as F. pose proof (ok_alive _ O) as AL. pose proof (ok_stored _ O) as ST. pose proof (ok_refs _ O) as RF.
  destruct (fp (ops s n)) eqn:E; try discriminate; simpl in AL; rewrite AL in RF; assert (R0 : refs (ops s n) <> 0) by lia.
  - (* wait() *)
    pose proof (not_deleted _ O R0) as D. rewrite D in H.
    assert (NS := se_susp3 _ _ _ S E).
    assert (NR : forall g r, ~ In (EReturn g n r) (log s)). { intros g r X. assert (Z : FStarted = FGone) by (rewrite <- E; apply (se_ret _ _ _ S); eauto). discriminate. }
    assert (NW : ~ In (EWake n) (log s)). { intros X. apply (se_wake _ _ _ S) in X. destruct X; congruence. }
    destruct (stt (ops s n)) eqn:T.
    + inversion H; subst s'; clear H. apply inv_put; auto.
      * intros x [<-|[]]. auto.
      * destruct O. rewrite E, T, AL, D in *. split; simpl; auto; try discriminate.
        destruct (h (ops s n)) as [| | |[]|]; simpl in *; intuition discriminate.
      * destruct S. split; simpl.
        -- intros f b. split; [intros [X|X]; [discriminate|apply se_start0; auto]|intros X; right; apply se_start0; auto].
        -- intros e w. split; [intros [X|X]; [discriminate|apply se_inv0; auto]|intros X; right; apply se_inv0; auto].
        -- intros f [X|X]; [inversion X; auto|eauto].
        -- auto.
        -- discriminate.
        -- intros [X|X]; [discriminate|tauto].
        -- discriminate.
        -- split; [intros (f & r & [X|X]); [discriminate|exfalso; eapply NR; eauto]|discriminate].
        -- rewrite D in se_del0. rewrite <- se_del0. split; [intros [X|X]; [discriminate|auto]|auto].
      * simpl. split; [|exact (i_legal s I)]. splits; auto. exists (bound (ops s n)). apply (se_start _ _ _ S). auto.
    + exfalso. destruct (h (ops s n)) as [| | |[]|]; simpl in F; intuition discriminate.
    + inversion H; subst s'; clear H. apply inv_put; auto.
      * intros x [].
      * destruct O. rewrite E, T, AL, D in *. split; simpl; auto; try discriminate.
        destruct (h (ops s n)) as [| | |[]|]; simpl in *; intuition discriminate.
      * destruct S. simpl. split; simpl; auto; try discriminate.
        -- intros _ f X. exfalso. eapply NS; eauto.
        -- split; [intros (f & r & X); exfalso; eapply NR; eauto|discriminate].
        -- rewrite <- D. auto.
      * exact (i_legal s I).
  - (* return *)
    assert (HD : stt (ops s n) = Complete /\ (h (ops s n) = HWake false \/ h (ops s n) = HDone)).
    { destruct (h (ops s n)) as [| | |[]|]; simpl in F; intuition discriminate. }
    destruct HD as [T HD].
    assert (VE : value (ops s n) = hval (ops s n) /\ ecv (ops s n) = hec (ops s n)) by (destruct HD as [X|X]; rewrite X in ST; simpl in ST; auto).
    assert (HN : h (ops s n) <> HNone) by (destruct HD as [X|X]; rewrite X; discriminate).
    set (r := if bound (ops s n) then _ else _) in H.
    assert (RR : r = delivered (bound (ops s n)) (hec (ops s n)) (hval (ops s n))).
    { subst r. destruct VE as [-> ->]. unfold delivered. destruct (bound (ops s n)), (hec (ops s n)); auto. }
    assert (NR : forall g r, ~ In (EReturn g n r) (log s)). { intros g q X. assert (Z : FResumed = FGone) by (rewrite <- E; apply (se_ret _ _ _ S); eauto). discriminate. }
    assert (ND : ~ In (EDelete n) (log s)). { rewrite (se_del _ _ _ S), (not_deleted _ O R0). discriminate. }
    assert (J : justified (EReturn (fib (ops s n)) n r) (log s)).
    { simpl. splits; auto.
      - exists (bound (ops s n)), (hec (ops s n)), (hval (ops s n)). splits; auto; [apply (se_start _ _ _ S); auto|apply (se_inv _ _ _ S); auto].
      - intros X. eapply (se_wake2 _ _ _ S); eauto. }
    clearbody r.
    destruct (release_seen _ n O R0) as [(R1 & D & RE)|(R1 & D & RE)]; rewrite RE in H; inversion H; subst s'; clear H;
      match goal with |- inv (mkSt (upd _ _ ?o) _ ?b _) => first [apply (inv_busy (put s n o [EDelete n; EReturn (fib (ops s n)) n r]) b) | apply (inv_busy (put s n o [EReturn (fib (ops s n)) n r]) b)] end; apply inv_put; auto.
    + intros x [<-|[<-|[]]]; auto.
    + destruct O. split; simpl; auto; try discriminate; try tauto.
      * rewrite T. destruct HD as [-> | ->]; simpl; auto.
      * lia.
    + destruct S. split; simpl.
      * intros f b. split; [intros [X|[X|X]]; [discriminate|discriminate|apply se_start0; auto]|intros X; right; right; apply se_start0; auto].
      * intros e w. split; [intros [X|[X|X]]; [discriminate|discriminate|apply se_inv0; auto]|intros X; right; right; apply se_inv0; auto].
      * intros f [X|[X|X]]; [discriminate|discriminate|eauto].
      * discriminate.
      * discriminate.
      * auto.
      * discriminate.
      * split; auto. intros _. eauto.
      * split; auto.
    + cbn [app legal]. split; [|split; [exact J|exact (i_legal s I)]]. simpl. split; [eauto|]. intros [X|X]; [discriminate|auto].
    + intros x [<-|[]]. auto.
    + destruct O. split; simpl; auto; try discriminate; try tauto.
      * rewrite T. destruct HD as [-> | ->]; simpl; auto.
      * lia.
      * split; [discriminate|lia].
    + destruct S. split; simpl.
      * intros f b. split; [intros [X|X]; [discriminate|apply se_start0; auto]|intros X; right; apply se_start0; auto].
      * intros e w. split; [intros [X|X]; [discriminate|apply se_inv0; auto]|intros X; right; apply se_inv0; auto].
      * intros f [X|X]; [discriminate|eauto].
      * discriminate.
      * discriminate.
      * auto.
      * discriminate.
      * split; auto. intros _. eauto.
      * split; [intros [X|X]; [discriminate|tauto]|discriminate].
    + simpl. split; [exact J|exact (i_legal s I)].
Qed.

Lemma inv_step : forall s l s', inv s -> step s l = Some s' -> inv s'.
Proof.
  intros s l s' I H. destruct l; simpl in H.
  - destruct (busy s f); inversion H. apply inv_start; auto.
  - destruct (copies (ops s n)) eqn:E; inversion H. rewrite <- E. apply inv_copy; auto. congruence.
  - destruct (copies (ops s n)) as [|[|c]] eqn:E; try discriminate.
    + assert (running (h (ops s n)) = false /\ s' = drop s n) as [X ->] by (destruct (h (ops s n)); inversion H; auto).
      apply inv_drop; auto; [congruence|]. rewrite X. discriminate.
    + inversion H. apply inv_drop; auto; [congruence|]. rewrite E. lia.
  - destruct (copies (ops s n)) eqn:E; try discriminate. destruct (h (ops s n)) eqn:E2; inversion H. rewrite <- E. apply inv_invoke; auto. congruence.
  - eapply inv_hnd; eauto.
  - eapply inv_fib; eauto.
Qed.
Theorem reach_inv : forall s, reachable step init_state s -> inv s.
Proof. intros. eapply reachable_inv; eauto using inv_init, inv_step. Qed.
