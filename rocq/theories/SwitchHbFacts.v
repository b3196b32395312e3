(** Facts about SwitchHb.v for C138: the part of the invariant that does not depend on the state of the threads. *)
From Coq Require Import List Arith Bool Lia.
From Verif Require Import Base MutexHb SwitchHb SwitchHbSpec.
Import ListNotations.

Lemma ordered_incl l w : ordered l w = true <-> incl l w.
Proof.
  unfold ordered. rewrite forallb_forall. unfold incl. split; intros H a L; specialize (H a L).
  - apply existsb_exists in H. destruct H as (b & B & E). apply Nat.eqb_eq in E. subst. exact B.
  - apply existsb_exists. exists a. split; [exact H|apply Nat.eqb_refl].
Qed.
Lemma cupd_same {A} (m : ctx -> A) c v : cupd m c v c = v.
Proof. unfold cupd. destruct (ctx_dec c c); congruence. Qed.
Lemma cupd_other {A} (m : ctx -> A) c v d : d <> c -> cupd m c v d = m d.
Proof. unfold cupd. destruct (ctx_dec d c); congruence. Qed.
Lemma oupd_same {A} (m : obj -> A) c v : oupd m c v c = v.
Proof. unfold oupd. destruct (obj_dec c c); congruence. Qed.
Lemma oupd_other {A} (m : obj -> A) c v d : d <> c -> oupd m c v d = m d.
Proof. unfold oupd. destruct (obj_dec d c); congruence. Qed.
Ltac cc d c := destruct (ctx_dec d c); [subst d; rewrite ?cupd_same in * | rewrite ?(cupd_other _ c _ d) in * by assumption].

Ltac ut u t := destruct (Nat.eq_dec u t); [subst u; rewrite ?upd_same in * | rewrite ?(upd_other _ t _ u) in * by assumption].

(** The view that the next holder of the spinlock of o has. *)
Definition lockview (s : st) (o : obj) : list nat := match slk s o with Some t => tv s t | None => sv s o end.
(** g has ended and its end is in w. *)
Definition ended (s : st) (g : ctx) (w : list nat) : Prop := exists v, In (EEnd g v) (log s) /\ incl v w.
Definition hold (s : st) (c : ctx) : Prop := match place s c with
  | No => seen s c = [] /\ accB s c = [] /\ sched s c = None
  | Run t | Loc t | Tmp t => incl (seen s c) (tv s t) /\ sched s c = Some t
  | Hand t => incl (seen s c) (tv s t) /\ sched s c <> None
  | Que => incl (seen s c) (qv s c) /\ incl (accB s c) (qv s c) /\ sched s c = None
  | Rem t => incl (seen s c) (rv s t) /\ sched s c = Some t
  | Wait | Dead => exists t, sched s c = Some t /\ incl (seen s c) (tv s t) end.
Definition fin (l : list event) : Prop := forall l1 g n v l2, l = l1 ++ EAct g n v :: l2 -> forall w, ~ In (EEnd g w) l2.
Definition join_ok (l : list event) : Prop := forall l1 c g w l2, l = l1 ++ EJoined c g w :: l2 -> exists w', In (EEnd g w') l2 /\ incl w' w.
(** A waker of c that is not outdated: in the queue of o. *)
Definition live (s : st) (c : ctx) (o : obj) : Prop := In (c, ep s c) (wq s o).
Definition asleep (s : st) (c : ctx) : Prop := sleepq s c <> None /\ swk s c = ep s c.
Definition pend_ok (s : st) (c : ctx) : Prop := forall g, pend s c = PJoin g -> ended s g (seen s c) \/ (exists t, place s c = Hand t /\ ended s g (tv s t)) \/ (place s c = Wait /\ ~ asleep s c /\ forall o, live s c o -> o = OJ g).
Record core (s : st) : Prop := {
  k_acc : forall c, incl (accA s c) (seen s c);
  k_log : forall e c w, In e (log s) -> at_ e c w -> incl w (seen s c);
  k_ord : in_order (log s);
  k_clean : clean (log s);
  k_num : numbered (log s) /\ forall n, In n (acts (log s)) -> n < next s;
  k_hold : forall c, hold s c;
  k_B : forall c t, sched s c = Some t -> incl (accB s c) (tv s t);
  k_sleep : forall c t, sleepq s c = Some t -> sched s c = Some t /\ swk s c <= ep s c /\ (swk s c = ep s c -> place s c = Wait);
  k_wq : forall c e o, In (c, e) (wq s o) -> e <= ep s c /\ (e = ep s c -> place s c = Wait /\ incl (seen s c) (lockview s o));
  k_uniq : forall c o o', live s c o -> live s c o' -> o = o';
  k_pend : forall c, pend_ok s c;
  k_term : forall g, term s g = true -> ended s g (lockview s (OJ g));
  k_end : forall g w, In (EEnd g w) (log s) -> term s g = true;
  k_join : join_ok (log s);
  k_fin : fin (log s) }.

(** Only views grow. *)
Definition grow (s s' : st) : Prop := (forall t, incl (tv s t) (tv s' t)) /\ (forall t, incl (rv s t) (rv s' t)) /\ (forall q, incl (qv s q) (qv s' q)) /\ (forall o, incl (lockview s o) (lockview s' o)).
Lemma core_views s s' : core s -> grow s s' -> next s <= next s' ->
  (forall c, accB s' c = accB s c \/ exists t, sched s c = Some t /\ incl (accB s' c) (tv s' t)) ->
  place s' = place s -> sched s' = sched s -> sleepq s' = sleepq s -> swk s' = swk s -> ep s' = ep s -> term s' = term s -> pend s' = pend s -> accA s' = accA s -> seen s' = seen s -> wq s' = wq s -> log s' = log s -> core s'.
Proof.
  intros K (Gt & Gr & Gq & Gl) N B E1 E2 E3 E4 E5 E6 E7 E8 E9 E10 E11. destruct K. constructor; unfold pend_ok, live, asleep, ended in *; rewrite ?E1, ?E2, ?E3, ?E4, ?E5, ?E6, ?E7, ?E8, ?E9, ?E10, ?E11 in *; auto.
  - destruct k_num0. split; auto. intros n H1. specialize (H0 n H1). lia.
  - intros c. specialize (k_hold0 c). unfold hold in *. rewrite E1, E2, E9. destruct (place s c) eqn:P.
    + destruct k_hold0 as (A1 & A2 & A3). splits; auto. destruct (B c) as [X | (t & X & _)]; congruence.
    + destruct k_hold0; split; auto. eapply incl_tran; eauto.
    + destruct k_hold0; split; auto. eapply incl_tran; eauto.
    + destruct k_hold0 as (A1 & A2 & A3). splits; auto; [eapply incl_tran; eauto|]. destruct (B c) as [X | (t & X & _)]; [rewrite X; eapply incl_tran; eauto | congruence].
    + destruct k_hold0; split; auto. eapply incl_tran; eauto.
    + destruct k_hold0; split; auto. eapply incl_tran; eauto.
    + destruct k_hold0; split; auto. eapply incl_tran; eauto.
    + destruct k_hold0 as (t & A1 & A2). exists t. split; auto. eapply incl_tran; eauto.
    + destruct k_hold0 as (t & A1 & A2). exists t. split; auto. eapply incl_tran; eauto.
  - intros c t H. destruct (B c) as [X | (t' & X & Y)]; [rewrite X; eapply incl_tran; eauto|]. assert (t' = t) by congruence. subst. exact Y.
  - intros c e o H. destruct (k_wq0 c e o H) as (A1 & A2). split; auto. intros X. destruct (A2 X). split; auto. eapply incl_tran; eauto.
  - intros c g H. destruct (k_pend0 c g H) as [X | [(t & X & v & V & I) | X]]; auto. right. left. exists t. split; auto. exists v. split; auto. eapply incl_tran; eauto.
  - intros g H. destruct (k_term0 g H) as (v & V & W). exists v. split; auto. eapply incl_tran; eauto.
Qed.
Lemma grow_tv s t v : incl (tv s t) v -> grow s (set_tv s t v).
Proof.
  intros H. unfold grow; splits; simpl; auto using incl_refl.
  - intros u. ut u t; [exact H | apply incl_refl].
  - intros o. unfold lockview. simpl. destruct (slk s o) as [u|]; [|apply incl_refl]. ut u t; [exact H | apply incl_refl].
Qed.
Lemma core_tv s t v : core s -> incl (tv s t) v -> core (set_tv s t v).
Proof. intros K H. eapply core_views; eauto using grow_tv. Qed.
Lemma core_qv s c v : core s -> place s c <> Que -> core (set_qv s c v).
Proof.
  intros K N. destruct K; constructor; unfold pend_ok, live, asleep, ended in *; simpl; auto.
  intros d. specialize (k_hold0 d). unfold hold in *. simpl. destruct (place s d) eqn:P; auto. rewrite cupd_other by congruence. exact k_hold0.
Qed.
Lemma core_rv s q v : core s -> incl (rv s q) v -> core (set_rv s q v).
Proof.
  intros K H. eapply core_views; eauto. unfold grow; splits; simpl; auto using incl_refl.
  intros u. ut u q; [exact H | apply incl_refl].
Qed.
Lemma core_act s t c : core s -> core (set_act s t c).
Proof. intros K. eapply core_views; eauto. unfold grow; splits; simpl; auto using incl_refl. Qed.
Lemma core_pc s t c : core s -> core (set_pc s t c).
Proof. intros K. eapply core_views; eauto. unfold grow; splits; simpl; auto using incl_refl. Qed.
Lemma core_lock s t o : core s -> slk s o = None -> core (lock s t o).
Proof.
  intros K H. eapply core_views; eauto. unfold grow; splits; simpl; auto using incl_refl.
  - intros u. ut u t; [apply incl_appr, incl_refl | apply incl_refl].
  - intros p. unfold lockview. simpl. unfold oupd. destruct (obj_dec p o) as [->|].
    + rewrite H, upd_same. apply incl_appl, incl_refl.
    + destruct (slk s p) as [u|]; [|apply incl_refl]. ut u t; [apply incl_appr, incl_refl | apply incl_refl].
Qed.
Lemma core_unlock s t o : core s -> slk s o = Some t -> core (unlock s t o).
Proof.
  intros K H. eapply core_views; eauto. unfold grow; splits; simpl; auto using incl_refl.
  intros p. unfold lockview. simpl. unfold oupd. destruct (obj_dec p o) as [->|]; [rewrite H|]; apply incl_refl.
Qed.
Lemma core_touchB s t c : core s -> sched s c = Some t -> core (touchB s t c).
Proof.
  intros K H. unfold touchB. pose proof (k_B s K c t H) as B. apply ordered_incl in B. rewrite B. apply ordered_incl in B.
  eapply core_views; eauto; simpl; auto.
  - unfold grow; splits; simpl; auto using incl_refl.
    + intros u. ut u t; [apply incl_tl, incl_refl | apply incl_refl].
    + intros p. unfold lockview. simpl. destruct (slk s p) as [u|]; [|apply incl_refl]. ut u t; [apply incl_tl, incl_refl | apply incl_refl].
  - intros d. cc d c; auto. right. exists t. rewrite upd_same. split; auto. intros a [<-|A]; [left; auto | right; auto].
Qed.

(** Thread t may access c. *)
Definition held (s : st) (t : nat) (c : ctx) : Prop := match place s c with
  | Run u | Loc u | Tmp u | Hand u => u = t
  | Wait | Dead => sched s c = Some t /\ forall o, live s c o -> slk s o = Some t
  | _ => False end.
Lemma held_seen s t c : core s -> held s t c -> incl (seen s c) (tv s t).
Proof.
  intros K H. pose proof (k_hold s K c) as X. unfold held, hold in *. destruct (place s c); try contradiction; subst; try apply X.
  - destruct X as (u & A & B). destruct H. assert (u = t) by congruence. subst. exact B.
  - destruct X as (u & A & B). destruct H. assert (u = t) by congruence. subst. exact B.
Qed.
Lemma core_touchA s t c : core s -> held s t c -> core (touchA s t c).
Proof.
  intros K H. pose proof (held_seen s t c K H) as W. unfold touchA.
  assert (ordered (accA s c) (tv s t) = true) as -> by (apply ordered_incl; eapply incl_tran; [apply (k_acc s K)|exact W]).
  assert (forall u, incl (tv s u) (upd (tv s) t (next s :: tv s t) u)) as Gt by (intros u; ut u t; [apply incl_tl, incl_refl | apply incl_refl]).
  assert (forall d, incl (seen s d) (cupd (seen s) c (next s :: tv s t) d)) as Gs by (intros d; cc d c; [apply incl_tl, W | apply incl_refl]).
  destruct K; constructor; unfold pend_ok, live, asleep, ended in *; simpl; auto.
  - intros d. cc d c; auto. intros a [<-|A]; [left; auto|]. right. apply W. apply k_acc0. exact A.
  - intros e d w A B. eapply incl_tran; eauto.
  - destruct k_num0 as (A & B). split; auto. intros n C. specialize (B n C). lia.
  - intros d. specialize (k_hold0 d). unfold hold in *. simpl. cc d c.
    + unfold held, live in H. destruct (place s c); try contradiction; subst; rewrite ?upd_same; try (split; [apply incl_refl | tauto]).
      * destruct H as (H & _). exists t. rewrite upd_same. split; [exact H | apply incl_refl].
      * destruct H as (H & _). exists t. rewrite upd_same. split; [exact H | apply incl_refl].
    + destruct (place s d); auto; try (destruct k_hold0 as (A & B); split; auto; eapply incl_tran; eauto).
      * destruct k_hold0 as (u & A & B). exists u. split; auto. eapply incl_tran; eauto.
      * destruct k_hold0 as (u & A & B). exists u. split; auto. eapply incl_tran; eauto.
  - intros d u A. eapply incl_tran; eauto.
  - intros d e o A. destruct (k_wq0 d e o A) as (A1 & A2). split; auto. intros E. destruct (A2 E) as (A3 & A4). split; auto. unfold lockview in *. simpl. cc d c.
    + unfold held in H. rewrite A3 in H. destruct H as (_ & H). subst e. rewrite (H o A). rewrite upd_same. apply incl_refl.
    + destruct (slk s o); auto. eapply incl_tran; eauto.
  - intros d g A. destruct (k_pend0 d g A) as [(v & V & I) | [(u & X & v & V & I) | X]]; auto.
    + left. exists v. split; auto. eapply incl_tran; eauto.
    + right. left. exists u. split; auto. exists v. split; auto. eapply incl_tran; eauto.
  - intros g A. destruct (k_term0 g A) as (v & V & I). exists v. split; auto. unfold lockview in *. simpl. destruct (slk s (OJ g)); auto. eapply incl_tran; eauto.
Qed.

(** Events. *)
Lemma in_order_cons l e : in_order l -> (forall c w e' w', at_ e c w -> In e' l -> at_ e' c w' -> incl w' w) -> in_order (e :: l).
Proof. intros H X l1 f l2 c w E. destruct l1; injection E as -> ->; intros A e' w' B C; eauto. Qed.
Lemma join_ok_cons l e : join_ok l -> (forall c g w, e = EJoined c g w -> exists w', In (EEnd g w') l /\ incl w' w) -> join_ok (e :: l).
Proof. intros H X l1 c g w l2 E. destruct l1; injection E as -> ->; eauto. Qed.
Lemma fin_cons l e : fin l -> (forall g n v, e = EAct g n v -> forall w, ~ In (EEnd g w) l) -> fin (e :: l).
Proof. intros H X l1 g n v l2 E. destruct l1; injection E as -> ->; eauto. Qed.

(** A state with one more event, by t, of c and d, that also changes nothing but [seen] and [tv t]. *)
Definition ev_ok (s : st) (t : nat) (c d : ctx) (w : list nat) (e : event) : Prop :=
  (forall x v, at_ e x v -> (x = c \/ x = d) /\ v = w) /\ match e with EAct _ _ _ | EEnd _ _ | ERace _ _ | EBad _ => False | EJoined _ g _ => ended s g w | _ => True end.
Lemma core_emit s t c e : core s -> held s t c -> held s t (act s t) -> ev_ok s t c (act s t) (tv s t) e -> core (emit s t c e).
Proof.
  intros K H1 H2 (X1 & X2). set (d := act s t) in *.
  pose proof (held_seen s t c K H1) as W1. pose proof (held_seen s t d K H2) as W2.
  assert (forall x, cupd (cupd (seen s) c (tv s t)) d (tv s t) x = seen s x \/ (held s t x /\ cupd (cupd (seen s) c (tv s t)) d (tv s t) x = tv s t)) as Q.
  { intros x. cc x d; auto. cc x c; auto. }
  assert (forall x, incl (seen s x) (cupd (cupd (seen s) c (tv s t)) d (tv s t) x)) as Gs.
  { intros x. cc x d; auto. cc x c; auto using incl_refl. }
  unfold emit. fold d. destruct K; constructor; unfold pend_ok, live, asleep, ended in *; simpl; auto.
  - intros x. eapply incl_tran; eauto.
  - intros f x w [<-|A] B; [|eapply incl_tran; eauto]. destruct (X1 x w B) as ([->| ->] & ->); rewrite ?cupd_same; try apply incl_refl. cc c d; rewrite ?cupd_same; apply incl_refl.
  - apply in_order_cons; auto. intros x w f v A B C. destruct (X1 x w A) as ([->| ->] & ->); eapply incl_tran; eauto.
  - intros f [<-|A]; [destruct e; tauto|]. apply (k_clean0 f A).
  - destruct k_num0 as ((A & B) & C). assert (acts (e :: log s) = acts (log s)) as Q1 by (destruct e; try contradiction; reflexivity). unfold numbered. rewrite Q1. split; [split; auto; intros x n w [->|D]; [contradiction | eauto]|]. destruct e; try contradiction; exact C.
  - intros x. specialize (k_hold0 x). unfold hold in *. simpl. destruct (Q x) as [-> | (A & ->)]; auto.
    unfold held in A. destruct (place s x); try contradiction; subst; try (split; [apply incl_refl | tauto]).
    + exists t. split; [tauto | apply incl_refl].
    + exists t. split; [tauto | apply incl_refl].
  - intros x n o A. destruct (k_wq0 x n o A) as (A1 & A2). split; auto. intros E. destruct (A2 E) as (A3 & A4). split; auto. unfold lockview in *. simpl. destruct (Q x) as [-> | (B & ->)]; auto.
    unfold held in B. rewrite A3 in B. destruct B as (_ & B). subst n. rewrite (B o A). apply incl_refl.
  - intros x g A. destruct (k_pend0 x g A) as [(v & V & I) | [(u & X & v & V & I) | Y]]; auto.
    + left. exists v. split; auto. eapply incl_tran; eauto.
    + right. left. exists u. split; auto. exists v. split; auto.
  - intros g A. destruct (k_term0 g A) as (v & V & I). exists v. split; auto.
  - intros g w [->|A]; [contradiction | eauto].
  - apply join_ok_cons; auto. intros x g w ->. assert (w = tv s t) as -> by (apply (X1 x w); simpl; auto). exact X2.
  - apply fin_cons; auto. intros g n v ->. contradiction.
Qed.
(** An action of a fiber that has not ended. *)
Lemma core_action s t c : core s -> held s t c -> term s c = false -> core (action s t c).
Proof.
  intros K H F. pose proof (held_seen s t c K H) as W. unfold action.
  assert (forall u, incl (tv s u) (upd (tv s) t (next s :: tv s t) u)) as Gt by (intros u; ut u t; [apply incl_tl, incl_refl | apply incl_refl]).
  assert (forall d, incl (seen s d) (cupd (seen s) c (next s :: tv s t) d)) as Gs by (intros d; cc d c; [apply incl_tl, W | apply incl_refl]).
  destruct K; constructor; unfold pend_ok, live, asleep, ended in *; simpl; auto.
  - intros d. eapply incl_tran; eauto.
  - intros e d w [<-|A] B; [|eapply incl_tran; eauto]. destruct B as (-> & <-). rewrite cupd_same. apply incl_refl.
  - apply in_order_cons; auto. intros x w f v (<- & <-) B C. apply incl_tl. eapply incl_tran; eauto.
  - intros f [<-|A]; simpl; auto. apply (k_clean0 f A).
  - destruct k_num0 as ((A & B) & C). unfold numbered. change (acts (EAct c (next s) (next s :: tv s t) :: log s)) with (next s :: acts (log s)). splits.
    + constructor; auto. intros D. specialize (C _ D). lia.
    + intros x n w [E|D]; [injection E as <- <- <-; left; auto | eauto].
    + intros n [<-|D]; [lia|]. specialize (C n D). lia.
  - intros d. specialize (k_hold0 d). unfold hold in *. simpl. cc d c.
    + unfold held, live in H. destruct (place s c); try contradiction; subst; rewrite ?upd_same; try (split; [apply incl_refl | tauto]).
      * destruct H as (H & _). exists t. rewrite upd_same. split; [exact H | apply incl_refl].
      * destruct H as (H & _). exists t. rewrite upd_same. split; [exact H | apply incl_refl].
    + destruct (place s d); auto; try (destruct k_hold0 as (A & B); split; auto; eapply incl_tran; eauto).
      * destruct k_hold0 as (u & A & B). exists u. split; auto. eapply incl_tran; eauto.
      * destruct k_hold0 as (u & A & B). exists u. split; auto. eapply incl_tran; eauto.
  - intros d u A. eapply incl_tran; eauto.
  - intros d e o A. destruct (k_wq0 d e o A) as (A1 & A2). split; auto. intros E. destruct (A2 E) as (A3 & A4). split; auto. unfold lockview in *. simpl. cc d c.
    + unfold held in H. rewrite A3 in H. destruct H as (_ & H). subst e. rewrite (H o A). rewrite upd_same. apply incl_refl.
    + destruct (slk s o); auto. eapply incl_tran; eauto.
  - intros d g A. destruct (k_pend0 d g A) as [(v & V & I) | [(u & X & v & V & I) | X]]; auto.
    + left. exists v. split; auto. eapply incl_tran; eauto.
    + right. left. exists u. split; auto. exists v. split; auto. eapply incl_tran; eauto.
  - intros g A. destruct (k_term0 g A) as (v & V & I). exists v. split; auto. unfold lockview in *. simpl. destruct (slk s (OJ g)); auto. eapply incl_tran; eauto.
  - intros g w [E|A]; [discriminate | eauto].
  - apply join_ok_cons; auto. discriminate.
  - apply fin_cons; auto. intros g n v E w A. injection E as <- _ _. specialize (k_end0 _ _ A). congruence.
Qed.
(** terminate(), under the spinlock of the context. *)
Lemma core_term s t c : core s -> held s t c -> act s t = c -> slk s (OJ c) = Some t -> core (set_term (emit s t c (EEnd c (tv s t))) c).
Proof.
  intros K H E0 L. pose proof (held_seen s t c K H) as W.
  assert (forall x, cupd (cupd (seen s) c (tv s t)) (act s t) (tv s t) x = cupd (seen s) c (tv s t) x) as Q0 by (intros x; rewrite E0; cc x c; auto).
  assert (forall x, cupd (seen s) c (tv s t) x = seen s x \/ (held s t x /\ cupd (seen s) c (tv s t) x = tv s t)) as Q.
  { intros x. cc x c; auto. }
  assert (forall x, incl (seen s x) (cupd (seen s) c (tv s t) x)) as Gs by (intros x; cc x c; auto using incl_refl).
  unfold emit, set_term. destruct K; constructor; unfold pend_ok, live, asleep, ended in *; simpl; auto.
  - intros x. rewrite Q0. eapply incl_tran; eauto.
  - intros f x w [<-|A] B; rewrite Q0; [|eapply incl_tran; eauto]. destruct B as (<- & <-). rewrite cupd_same. apply incl_refl.
  - apply in_order_cons; auto. intros x w f v (<- & <-) B C. eapply incl_tran; eauto.
  - intros f [<-|A]; simpl; auto. apply (k_clean0 f A).
  - destruct k_num0 as ((A & B) & C). splits; auto. split; auto. intros x n w [D|D]; [discriminate | eauto].
  - intros x. specialize (k_hold0 x). unfold hold in *. simpl. rewrite Q0. destruct (Q x) as [-> | (A & ->)]; auto.
    unfold held in A. destruct (place s x); try contradiction; subst; try (split; [apply incl_refl | tauto]).
    + exists t. split; [tauto | apply incl_refl].
    + exists t. split; [tauto | apply incl_refl].
  - intros x n o A. destruct (k_wq0 x n o A) as (A1 & A2). split; auto. intros E. destruct (A2 E) as (A3 & A4). split; auto. unfold lockview in *. simpl. rewrite Q0. destruct (Q x) as [-> | (B & ->)]; auto.
    unfold held in B. rewrite A3 in B. destruct B as (_ & B). subst n. rewrite (B o A). apply incl_refl.
  - intros x g A. destruct (k_pend0 x g A) as [(v & V & I) | [(u & X & v & V & I) | Y]]; auto.
    + left. exists v. split; auto. rewrite Q0. eapply incl_tran; eauto.
    + right. left. exists u. split; auto. exists v. split; auto.
  - intros g A. unfold lockview in *. simpl. cc g c.
    + exists (tv s t). rewrite L. split; auto. apply incl_refl.
    + destruct (k_term0 g A) as (v & V & I). exists v. split; auto.
  - intros g w [A|A]; [injection A as -> _; apply cupd_same|]. cc g c; eauto.
  - apply join_ok_cons; auto. discriminate.
  - apply fin_cons; auto. discriminate.
Qed.

(** Changes of the place. *)
Definition quiet (s : st) (c : ctx) : Prop := (forall o, ~ live s c o) /\ ~ asleep s c /\ forall g, pend s c = PJoin g -> ended s g (seen s c).
Lemma quiet_of s c : core s -> place s c <> Wait -> (forall t, place s c <> Hand t) -> quiet s c.
Proof.
  intros K N1 N2. split; [|split].
  - intros o L. destruct (k_wq s K c _ o L) as (_ & A). apply N1. apply A. reflexivity.
  - intros (A & B). destruct (sleepq s c) eqn:E; [|congruence]. apply (k_sleep s K) in E. tauto.
  - intros g P. destruct (k_pend s K c g P) as [X | [(t & X & _) | (X & _)]]; auto; [|contradiction]. apply N2 in X. contradiction.
Qed.
Lemma core_place s c p : core s -> hold (set_place s c p) c -> (p = Wait /\ forall t, place s c <> Hand t) \/ quiet s c -> core (set_place s c p).
Proof.
  intros K H Q. destruct K; constructor; unfold pend_ok, live, asleep, ended in *; simpl; auto.
  - intros d. destruct (ctx_dec d c) as [->|N]; auto. specialize (k_hold0 d). unfold hold in *. simpl. rewrite cupd_other by auto. exact k_hold0.
  - intros d t A. destruct (k_sleep0 d t A) as (A1 & A2 & A3). splits; auto. intros E. cc d c; auto. destruct Q as [(Q & _)|(_ & Q & _)]; auto. exfalso. apply Q. split; [congruence | exact E].
  - intros d e o A. destruct (k_wq0 d e o A) as (A1 & A2). split; auto. intros E. destruct (A2 E) as (A3 & A4). split; auto. cc d c; auto. destruct Q as [(Q & _)|(Q & _)]; auto. exfalso. apply (Q o). subst e. exact A.
  - intros d g A. cc d c; [|apply (k_pend0 d g A)]. destruct Q as [(-> & Q)|(_ & _ & Q)]; [|left; apply (Q g A)]. destruct (k_pend0 c g A) as [X | [(t & X & _) | (X & Y)]]; auto. apply Q in X. contradiction.
Qed.
Lemma core_move s c v p : core s -> place s c <> Wait -> (forall t, place s c <> Hand t) \/ quiet s c -> sleepq s c = None -> (forall t, v = Some t -> incl (accB s c) (tv s t)) ->
  hold (set_place (set_sched s c v) c p) c -> core (set_place (set_sched s c v) c p).
Proof.
  intros K N Q0 SQ B H. assert (quiet s c) as Q by (destruct Q0; auto; apply quiet_of; auto).
  destruct K; constructor; unfold pend_ok, live, asleep, ended in *; simpl; auto.
  - intros d. destruct (ctx_dec d c) as [->|M]; auto. specialize (k_hold0 d). unfold hold in *. simpl. rewrite !cupd_other by auto. exact k_hold0.
  - intros d t A. cc d c; eauto.
  - intros d t A. cc d c; [congruence|]. apply (k_sleep0 d t A).
  - intros d e o A. destruct (k_wq0 d e o A) as (A1 & A2). split; auto. intros E. destruct (A2 E) as (A3 & A4). split; auto. cc d c; auto. destruct Q as (Q & _). exfalso. apply (Q o). subst e. exact A.
  - intros d g A. cc d c; [|apply (k_pend0 d g A)]. left. apply Q. exact A.
Qed.
Lemma core_ep s c : core s -> core (set_ep s c (S (ep s c))).
Proof.
  intros K. destruct K; constructor; unfold pend_ok, live, asleep, ended in *; simpl; auto.
  - intros d t A. destruct (k_sleep0 d t A) as (A1 & A2 & A3). splits; auto; cc d c; auto. lia.
  - intros d e o A. destruct (k_wq0 d e o A) as (A1 & A2). cc d c; auto. split; [lia|]. intros E. lia.
  - intros d o o' A B. cc d c; eauto. destruct (k_wq0 _ _ _ A). lia.
  - intros d g A. destruct (k_pend0 d g A) as [X | [X | (X & Y & Z)]]; auto. right. right. cc d c; auto. splits; auto.
    + intros (C & D). destruct (sleepq s c) eqn:E; [|congruence]. destruct (k_sleep0 _ _ E). lia.
    + intros o C. destruct (k_wq0 _ _ _ C). lia.
Qed.
Lemma quiet_ep s c : core s -> (forall g, pend s c = PJoin g -> ended s g (seen s c)) -> quiet (set_ep s c (S (ep s c))) c.
Proof.
  intros K P. unfold quiet. splits; auto.
  - intros o A. unfold live in A. simpl in A. rewrite cupd_same in A. apply (k_wq s K) in A. lia.
  - intros (A & B). simpl in *. rewrite cupd_same in B. destruct (sleepq s c) eqn:E; [|congruence]. apply (k_sleep s K) in E. lia.
Qed.
Lemma core_sub s o q : core s -> incl q (wq s o) -> core (set_wq s o q).
Proof.
  intros K H. assert (forall p x, In x (oupd (wq s) o q p) -> In x (wq s p)) as S1.
  { intros p x. unfold oupd. destruct (obj_dec p o) as [->|]; auto. }
  destruct K; constructor; unfold pend_ok, live, asleep, ended in *; simpl; auto.
  - intros c e p A. apply S1 in A. apply (k_wq0 c e p A).
  - intros c p p' A B. eauto.
  - intros c g A. destruct (k_pend0 c g A) as [X | [X | (X & Y & Z)]]; auto 10.
Qed.
Lemma core_push s o c : core s -> place s c = Wait -> incl (seen s c) (lockview s o) -> (forall p, ~ live s c p) -> (forall g, pend s c = PJoin g -> o = OJ g) -> core (set_wq s o (wq s o ++ [(c, ep s c)])).
Proof.
  intros K W I N P. assert (forall p x, In x (oupd (wq s) o (wq s o ++ [(c, ep s c)]) p) -> In x (wq s p) \/ (p = o /\ x = (c, ep s c))) as S1.
  { intros p x. unfold oupd. destruct (obj_dec p o) as [->|]; auto. intros A. apply in_app_iff in A. destruct A as [A | [A|[]]]; auto. }
  destruct K; constructor; unfold pend_ok, live, asleep, ended in *; simpl; auto.
  - intros d e p A. apply S1 in A. destruct A as [A | (-> & E)]; [apply (k_wq0 d e p A)|]. injection E as -> ->. auto.
  - intros d p p' A B. apply S1 in A. apply S1 in B. destruct A as [A | (-> & A)], B as [B | (-> & B)]; eauto.
    + injection B as -> _. exfalso. apply (N p A).
    + injection A as -> _. exfalso. apply (N p' B).
  - intros d g A. destruct (k_pend0 d g A) as [X | [X | (X & Y & Z)]]; auto. right. right. splits; auto. intros p B. apply S1 in B. destruct B as [B | (-> & B)]; auto. injection B as ->. auto.
Qed.
Lemma core_wake_off s c e : core s -> core (set_sleep s c None e).
Proof.
  intros K. destruct K; constructor; unfold pend_ok, live, asleep, ended in *; simpl; auto.
  - intros d t A. cc d c; [discriminate | apply (k_sleep0 d t A)].
  - intros d g A. destruct (k_pend0 d g A) as [X | [X | (X & Y & Z)]]; auto. right. right. splits; auto. cc d c; auto. intros (B & _). auto.
Qed.
Lemma core_wake_on s t c : core s -> sched s c = Some t -> place s c = Wait -> (forall g, pend s c <> PJoin g) -> core (set_sleep s c (Some t) (ep s c)).
Proof.
  intros K H W P. destruct K; constructor; unfold pend_ok, live, asleep, ended in *; simpl; auto.
  - intros d u A. cc d c; [|apply (k_sleep0 d u A)]. injection A as <-. auto.
  - intros d g A. cc d c; [apply P in A; contradiction | apply (k_pend0 d g A)].
Qed.
Lemma core_pend s c v : core s -> (forall g, v = PJoin g -> place s c = Wait /\ ~ asleep s c /\ forall o, live s c o -> o = OJ g) -> core (set_pend s c v).
Proof.
  intros K H. destruct K; constructor; unfold pend_ok, live, asleep, ended in *; simpl; auto.
  intros d g A. cc d c; [|apply (k_pend0 d g A)]. right. right. auto.
Qed.

(** What the accesses leave unchanged. *)
Lemma touchA_frame s t c : let s' := touchA s t c in act s' = act s /\ pcs s' = pcs s /\ place s' = place s /\ sched s' = sched s /\ sleepq s' = sleepq s /\ swk s' = swk s /\ ep s' = ep s /\ term s' = term s /\ pend s' = pend s /\ wq s' = wq s /\ slk s' = slk s /\ accB s' = accB s /\ qv s' = qv s /\ rv s' = rv s.
Proof. unfold touchA. destruct (ordered _ _); simpl; splits; auto. Qed.
Lemma touchB_frame s t c : let s' := touchB s t c in act s' = act s /\ pcs s' = pcs s /\ place s' = place s /\ sched s' = sched s /\ sleepq s' = sleepq s /\ swk s' = swk s /\ ep s' = ep s /\ term s' = term s /\ pend s' = pend s /\ wq s' = wq s /\ slk s' = slk s /\ seen s' = seen s /\ qv s' = qv s /\ rv s' = rv s.
Proof. unfold touchB. destruct (ordered _ _); simpl; splits; auto. Qed.
Lemma touchA_tv s t c : incl (tv s t) (tv (touchA s t c) t).
Proof. unfold touchA. destruct (ordered _ _); simpl; [rewrite upd_same; apply incl_tl|]; apply incl_refl. Qed.
Lemma touchB_tv s t c : incl (tv s t) (tv (touchB s t c) t).
Proof. unfold touchB. destruct (ordered _ _); simpl; [rewrite upd_same; apply incl_tl|]; apply incl_refl. Qed.
Lemma touchA_end s t c g w : In (EEnd g w) (log s) -> In (EEnd g w) (log (touchA s t c)).
Proof. unfold touchA. destruct (ordered _ _); simpl; auto. Qed.
Lemma touchB_end s t c g w : In (EEnd g w) (log s) -> In (EEnd g w) (log (touchB s t c)).
Proof. unfold touchB. destruct (ordered _ _); simpl; auto. Qed.
Lemma touchA_seen s t c : core s -> held s t c -> seen (touchA s t c) c = tv (touchA s t c) t.
Proof.
  intros K H. pose proof (held_seen s t c K H) as W. unfold touchA.
  assert (ordered (accA s c) (tv s t) = true) as -> by (apply ordered_incl; eapply incl_tran; [apply (k_acc s K)|exact W]).
  simpl. rewrite upd_same. apply cupd_same.
Qed.
Section params.
Variable pin : nat -> bool.
Lemma core_awakened s t c : core s -> held s t c -> place s c <> Wait -> quiet s c -> sched s c = Some t -> sleepq s c = None -> core (awakened pin s t c).
Proof.
  intros K H N Q E SQ. pose proof (held_seen s t c K H) as W. unfold awakened. destruct (pinned pin c).
  - apply core_place; auto. unfold hold. simpl. rewrite cupd_same. auto.
  - assert (place s c <> Que) as NQ by (intros P; pose proof (k_hold s K c) as X; unfold hold in X; rewrite P in X; destruct X as (_ & _ & X); congruence).
    apply (core_move (set_qv s c (tv s t)) c None Que); auto.
    + apply core_qv; auto.
    + discriminate.
    + unfold hold. simpl. rewrite !cupd_same. splits; auto. apply (k_B s K). exact E.
Qed.
Lemma core_schedule s t c : core s -> held s t c -> place s c <> Wait -> quiet s c -> sched s c = Some t -> core (schedule pin s t c).
Proof.
  intros K H N Q E. pose proof (core_touchA s t c K H) as K1. pose proof (touchA_seen s t c K H) as S1. pose proof (touchA_tv s t c) as G.
  destruct (touchA_frame s t c) as (F1 & F2 & F3 & F4 & F5 & F6 & F7 & F8 & F9 & F10 & F11 & _).
  assert (held (touchA s t c) t c) as H1 by (unfold held, live in *; rewrite F3, F4, F7, F10, F11; exact H).
  assert (quiet (touchA s t c) c) as Q1.
  { unfold quiet, live, asleep in *. rewrite F5, F6, F7, F9, F10. destruct Q as (Q1 & Q2 & Q3). splits; auto. intros g P. destruct (Q3 g P) as (v & V & I). exists v. split; [apply touchA_end; auto|]. rewrite S1. eapply incl_tran; [exact I|]. eapply incl_tran; [apply (held_seen s t c K H) | exact G]. }
  unfold schedule. rewrite <- F3 in N. rewrite <- F4 in E. clear F1 F2 F3 F4 F5 F6 F7 F8 F9 F10 F11 K H Q S1 G. set (s1 := touchA s t c) in *. clearbody s1.
  destruct (sleepq s1 c) eqn:SQ; [|apply core_awakened; auto].
  pose proof (core_touchB s1 t c K1 E) as K2. pose proof (touchB_tv s1 t c) as G.
  destruct (touchB_frame s1 t c) as (F1 & F2 & F3 & F4 & F5 & F6 & F7 & F8 & F9 & F10 & F11 & F12 & _).
  apply core_awakened.
  - apply core_wake_off. exact K2.
  - unfold held, live in *. simpl. rewrite F3, F4, F7, F10, F11. exact H1.
  - simpl. rewrite F3. exact N.
  - unfold quiet, live, asleep in *. simpl. rewrite F7, F9, F10, F12, cupd_same. destruct Q1 as (X1 & X2 & X3). splits; auto; [intros (X & _); auto|]. intros g P. destruct (X3 g P) as (v & V & I). exists v. split; auto. simpl. apply touchB_end. exact V.
  - simpl. rewrite F4. exact E.
  - simpl. apply cupd_same.
Qed.
Lemma core_wake s t c e : core s -> place s (act s t) = Run t -> (ep s c = e -> place s c = Wait /\ incl (seen s c) (tv s t) /\ forall g, pend s c = PJoin g -> ended s g (tv s t)) -> core (wake pin s t c e).
Proof.
  intros K R P. unfold wake. destruct (Nat.eqb_spec (ep s c) e) as [<-|]; auto. destruct (P eq_refl) as (W & I & J). clear P.
  pose proof (k_hold s K c) as Hc. unfold hold in Hc. rewrite W in Hc. destruct Hc as (u & E & _). rewrite E.
  assert (act s t <> c) as NE by (intros <-; congruence).
  set (s1 := set_place (set_ep s c (S (ep s c))) c (Hand t)).
  assert (core s1) as K1.
  { pose proof (core_ep s c K) as K0. unfold s1. destruct K0; constructor; unfold pend_ok, live, asleep, ended in *; simpl in *; auto.
    - intros d. specialize (k_hold0 d). unfold hold in *. simpl in *. cc d c; auto. split; auto. congruence.
    - intros d x A. destruct (k_sleep0 d x A) as (A1 & A2 & A3). splits; auto. intros X. cc d c; auto. rewrite ?cupd_same in *. specialize (A3 X). destruct (k_sleep s K _ _ A). lia.
    - intros d x o A. destruct (k_wq0 d x o A) as (A1 & A2). split; auto. intros X. destruct (A2 X) as (A3 & A4). split; auto. cc d c; auto. rewrite ?cupd_same in *. destruct (k_wq s K _ _ _ A). lia.
    - intros d g A. specialize (k_pend0 d g A). cc d c; [right; left; exists t; split; [auto | exact (J g A)]|]. exact k_pend0. }
  assert (held s1 t c) as H1 by (unfold held, s1; simpl; rewrite cupd_same; auto).
  pose proof (core_touchA s1 t c K1 H1) as K2. pose proof (touchA_tv s1 t c) as G.
  destruct (touchA_frame s1 t c) as (F1 & F2 & F3 & F4 & F5 & F6 & F7 & F8 & F9 & F10 & F11 & F12 & F13 & F14).
  assert (forall g, pend s c = PJoin g -> ended (touchA s1 t c) g (tv (touchA s1 t c) t)) as J2.
  { intros g A. destruct (J g A) as (v & V & X). exists v. split; [apply touchA_end; exact V|]. eapply incl_tran; [exact X | exact G]. }
  assert (forall o, ~ In (c, S (ep s c)) (wq s o)) as NL by (intros o A; apply (k_wq s K) in A; lia).
  assert (~ (sleepq s c <> None /\ swk s c = S (ep s c))) as NA.
  { intros (A & B). destruct (sleepq s c) eqn:X; [|congruence]. apply (k_sleep s K) in X. lia. }
  set (s2 := touchA s1 t c) in *. clearbody s2.
  assert (place s2 c = Hand t /\ act s2 t = act s t /\ place s2 (act s t) = Run t /\ sched s2 c = Some u /\ pend s2 c = pend s c /\ ep s2 c = S (ep s c) /\ wq s2 = wq s /\ sleepq s2 = sleepq s /\ swk s2 = swk s) as (P1 & P2 & P3 & P4 & P5 & P6 & P7 & P8 & P9).
  { rewrite F1, F3, F4, F9, F7, F10, F5, F6. unfold s1. simpl. rewrite !cupd_same, !cupd_other by auto. splits; auto. }
  set (s3 := emit s2 t c (EWake (act s2 t) c (tv s2 t))).
  assert (core s3) as K3.
  { apply core_emit; auto.
    - unfold held. rewrite P1. reflexivity.
    - unfold held. rewrite P2, P3. reflexivity.
    - split; [|exact Logic.I]. intros x v (A & <-). split; auto. destruct A; auto. }
  assert (seen s3 c = tv s3 t) as S3 by (unfold s3; simpl; rewrite P2; rewrite cupd_other by auto; apply cupd_same).
  assert (quiet s3 c) as Q3.
  { unfold quiet, live, asleep, ended. simpl. rewrite P6, P7, P8, P9, P5. splits; auto. intros g A. destruct (J2 g A) as (v & V & X). exists v. split; auto. unfold s3 in S3. simpl in S3. rewrite S3. exact X. }
  destruct (Nat.eqb_spec u t) as [->|NU].
  - apply core_schedule; auto.
    + unfold held. simpl. rewrite P1. reflexivity.
    + simpl. congruence.
  - set (w := rv s3 u ++ tv s3 t).
    assert (core (set_rv (set_tv s3 t w) u w)) as K4.
    { apply core_rv; [apply core_tv; auto; apply incl_appr, incl_refl | apply incl_appl, incl_refl]. }
    apply core_place; auto. unfold hold. simpl place. rewrite cupd_same. simpl. rewrite upd_same. unfold s3 in S3. simpl in S3. rewrite S3. split; [apply incl_appr, incl_refl | exact P4].
Qed.
Lemma core_enqueue s t c o : core s -> place s c = Run t -> slk s o = Some t -> (forall g, pend s c <> PJoin g) -> core (enqueue s c o).
Proof.
  intros K R L P. unfold enqueue.
  assert (core (set_place s c Wait)) as K1.
  { apply core_place; auto; [|left; split; auto; congruence]. pose proof (k_hold s K c) as H. unfold hold in *. simpl. rewrite cupd_same. rewrite R in H. exists t. tauto. }
  pose proof (core_ep _ c K1) as K2. simpl in K2.
  pose proof (core_push _ o c K2) as X. simpl in X. rewrite !cupd_same in X. apply X; auto.
  - unfold lockview. simpl. rewrite L. pose proof (k_hold s K c) as H. unfold hold in H. rewrite R in H. tauto.
  - intros p A. unfold live in A. simpl in A. rewrite cupd_same in A. apply (k_wq s K) in A. lia.
  - intros g A. apply P in A. contradiction.
Qed.
Lemma core_to_sleep s t c : core s -> sched s c = Some t -> place s c = Wait -> (forall g, pend s c <> PJoin g) -> core (to_sleep s t c).
Proof.
  intros K E W P. unfold to_sleep. destruct (touchB_frame s t c) as (F1 & F2 & F3 & F4 & F5 & F6 & F7 & F8 & F9 & F10 & F11 & F12 & _).
  rewrite <- F7. apply core_wake_on; [apply core_touchB; auto | | |]; rewrite ?F3, ?F4, ?F9; auto.
Qed.
End params.
