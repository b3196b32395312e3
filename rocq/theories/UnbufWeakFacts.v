(** Facts about UnbufWeak. *)
From Coq Require Import List Arith Bool Lia.
From Verif Require Import Base UnbufWeak UnbufWeakSpec.
Import ListNotations.

Lemma mem_in : forall n w, mem n w = true <-> In n w.
Proof. intros n w. unfold mem. rewrite existsb_exists. split; [intros (x & A & B); apply Nat.eqb_eq in B; subst; auto | intros H; exists n; rewrite Nat.eqb_refl; auto]. Qed.
Lemma ordered_incl : forall l w, incl l w -> ordered l w = true.
Proof. intros l w H. unfold ordered. apply forallb_forall. intros x X. apply mem_in. auto. Qed.
(** who knows the newest message reads it *)
Lemma load_top : forall s w k m, load s w k = Some m -> In (mid (top s)) w \/ olds s = [] -> m = top s.
Proof.
  intros s w k m H K. unfold load in H. destruct k as [|k].
  - simpl in H. congruence.
  - cbn [firstn forallb nth_error] in H. destruct K as [K|K].
    + apply mem_in in K. rewrite K in H. simpl in H. discriminate.
    + rewrite K in H. destruct k; simpl in H; destruct (negb _ && _); discriminate.
Qed.

Definition holds (q : pc_t) : option nat := match q with CNote p | CRead p | CWake p _ => Some p | _ => None end.
Definition waits (q : pc_t) : bool := match q with PWait _ | PNote _ | PSusp _ | CWait => true | _ => false end.
Definition pubpc (q : pc_t) (v : nat) : Prop := q = PNote v \/ q = PSusp v.
Definition slot_ok (s : st) (p v : nat) (x : list nat) : Prop := slotv s p = Some v /\ incl (acc s p) x /\ exists w, last_of p (log s) = Some (EPush p v w) /\ incl w x.
Definition done_ok (s : st) (p : nat) (x : list nat) : Prop := incl (acc s p) x /\ exists c v w, last_of p (log s) = Some (EGot c p v w) /\ incl w x.
Definition idle_ok (s : st) (p : nat) (x : list nat) : Prop := incl (acc s p) x /\ (last_of p (log s) = None \/ exists w, last_of p (log s) = Some (EOk p w)).
Definition taken (s : st) (p : nat) : Prop := who (top s) = Some p \/ exists c, holds (pc s c) = Some p.
Definition own (s : st) (p : nat) : Prop :=
  match pc s p with
  | PTop v | PLoad v | PCas v | PLk v | PWait v => slot_ok s p v (view s p)
  | PNote v | PSusp v => match woke s p with Some w => done_ok s p w | None => taken s p end
  | PEnd v => done_ok s p (view s p)
  | _ => idle_ok s p (view s p)
  end.
Definition actC (s : st) (t n : nat) : Prop := match pc s t with CLoad | CLk | CCas _ => In n (view s t) | CWait => exists w, woke s t = Some w /\ In n w | _ => False end.
Definition actP (s : st) (t n : nat) : Prop := match pc s t with PTop _ | PLoad _ | PCas _ | PLk _ => In n (view s t) | PWait _ => exists w, woke s t = Some w /\ In n w | _ => False end.
Definition nolost (s : st) : Prop :=
  match who (top s) with
  | Some p => (exists v, pc s p = PNote v) \/ (In (mid (top s)) (lvC s) /\ (qC s = [] \/ exists t, actC s t (mid (top s))))
  | None => (exists c p, pc s c = CNote p /\ In (mid (top s)) (view s c)) \/ ((In (mid (top s)) (lvP s) \/ olds s = []) /\ (qP s = [] \/ exists t, actP s t (mid (top s))))
  end.

Record inv (s : st) : Prop := {
  i_cur : forall p, who (top s) = Some p -> exists v, pubpc (pc s p) v /\ woke s p = None /\ slot_ok s p v (mvw (top s)) /\ In (mid (top s)) (view s p);
  i_hold : forall c p, holds (pc s c) = Some p -> who (top s) <> Some p /\ woke s p = None /\ exists v, pubpc (pc s p) v /\ slot_ok s p v (view s c) /\ forall v', pc s c = CWake p v' -> v' = v;
  i_uni : forall c d p, holds (pc s c) = Some p -> holds (pc s d) = Some p -> c = d;
  i_own : forall p, own s p;
  i_qp : forall t, In t (qP s) <-> (exists v, pc s t = PWait v) /\ woke s t = None;
  i_qc : forall t, In t (qC s) <-> pc s t = CWait /\ woke s t = None;
  i_ndp : NoDup (qP s);
  i_ndc : NoDup (qC s);
  i_wk : forall t w, woke s t = Some w -> waits (pc s t) = true;
  i_J : nolost s;
  i_sync : sync (log s);
  i_act : forall t n, In (EAct t n) (log s) -> In n (view s t);
  i_race : race_free (log s) }.

Lemma init_inv : inv init_state.
Proof.
  constructor; simpl; try discriminate; try tauto; try (constructor; fail).
  - intros p. red. simpl. split; [intros x []|auto].
  - intros t. split; [intros [] | intros ((v & H) & _); discriminate].
  - intros t. split; [intros [] | intros (H & _); discriminate].
  - red. simpl. auto.
  - intros t p [].
Qed.

Lemma slot_ok_up : forall s s' p v x x', slotv s' p = slotv s p -> acc s' p = acc s p -> last_of p (log s') = last_of p (log s) -> incl x x' -> slot_ok s p v x -> slot_ok s' p v x'.
Proof. intros s s' p v x x' A B C D (E & F & w & G & H). red. rewrite A, B, C. splits; auto. { intros y Y. auto. } exists w. split; auto. intros y Y. auto. Qed.
Lemma done_ok_up : forall s s' p x x', acc s' p = acc s p -> last_of p (log s') = last_of p (log s) -> incl x x' -> done_ok s p x -> done_ok s' p x'.
Proof. intros s s' p x x' A B C (E & c & v & w & G & H). red. rewrite A, B. split. { intros y Y. auto. } exists c, v, w. split; auto. intros y Y. auto. Qed.
Lemma idle_ok_up : forall s s' p x x', acc s' p = acc s p -> last_of p (log s') = last_of p (log s) -> incl x x' -> idle_ok s p x -> idle_ok s' p x'.
Proof. intros s s' p x x' A B C (E & G). red. rewrite A, B. split; auto. intros y Y. auto. Qed.
Lemma own_up : forall s s' p, pc s' p = pc s p -> incl (view s p) (view s' p) -> woke s' p = woke s p -> slotv s' p = slotv s p -> acc s' p = acc s p -> last_of p (log s') = last_of p (log s) ->
  (taken s p -> taken s' p) -> own s p -> own s' p.
Proof.
  intros s s' p A B C D E F G H. unfold own in *. rewrite A. destruct (pc s p); try (eapply slot_ok_up; eauto; fail); try (eapply done_ok_up; eauto; fail); try (eapply idle_ok_up; eauto; fail);
  rewrite C; destruct (woke s p); auto; eapply done_ok_up; eauto; apply incl_refl.
Qed.
Lemma pub_waits : forall q v, pubpc q v -> waits q = true /\ holds q = None /\ forall v', pubpc q v' -> v' = v.
Proof. intros q v [->| ->]; splits; auto; intros v' [H|H]; congruence. Qed.
Lemma actC_pc : forall s t n, actC s t n -> pc s t = CLoad \/ pc s t = CLk \/ (exists p, pc s t = CCas p) \/ pc s t = CWait.
Proof. intros s t n H. unfold actC in H. destruct (pc s t); try contradiction; eauto. Qed.

(** Steps that change only where a fiber is and what it knows. *)
Lemma soft : forall s s' t w q e, inv s ->
  top s' = top s -> olds s' = olds s -> slotv s' = slotv s -> acc s' = acc s -> qP s' = qP s -> qC s' = qC s -> woke s' = woke s ->
  view s' = upd (view s) t w -> incl (view s t) w -> pc s' = upd (pc s) t q -> incl (lvP s) (lvP s') -> incl (lvC s) (lvC s') ->
  log s' = e ++ log s -> (e = [] \/ exists n, e = [EAct t n] /\ In n w) ->
  holds (pc s t) = None -> holds q = None -> waits (pc s t) = false -> waits q = false -> own s' t ->
  (forall n, n = mid (top s) -> actC s t n -> who (top s) <> None -> actC s' t n) -> (forall n, n = mid (top s) -> actP s t n -> who (top s) = None -> actP s' t n) -> inv s'.
Proof.
  intros s s' t w q e I Et Eo Es Ea Ep Ec Ew Ev Iv Eq Lp Lc El He H1 H2 W1 W2 O KC KP.
  assert (forall u, u <> t -> pc s' u = pc s u) as HU by (intros; rewrite Eq; apply upd_other; auto).
  assert (pc s' t = q) as HT by (rewrite Eq; apply upd_same).
  assert (forall u, incl (view s u) (view s' u)) as HV.
  { intros u. rewrite Ev. destruct (Nat.eq_dec u t) as [->|N]; [rewrite upd_same; auto | rewrite upd_other by auto; apply incl_refl]. }
  assert (forall u, last_of u (log s') = last_of u (log s)) as HL by (intros u; rewrite El; destruct He as [->|(n & -> & _)]; auto).
  assert (forall c p, holds (pc s' c) = Some p -> c <> t /\ holds (pc s c) = Some p) as HH.
  { intros c p X. destruct (Nat.eq_dec c t) as [->|N]; [rewrite HT in X; congruence | rewrite HU in X by auto; auto]. }
  assert (forall p v, pubpc (pc s p) v -> p <> t) as HP.
  { intros p v X ->. apply pub_waits in X. destruct X. congruence. }
  assert (forall p v x x', incl x x' -> slot_ok s p v x -> slot_ok s' p v x') as SO.
  { intros p v x x' X Y. apply (slot_ok_up s s' p v x x'); rewrite ?Es, ?Ea; auto. }
  constructor.
  - intros p X. rewrite Et in X. destruct (i_cur s I p X) as (v & A & B & C & D). exists v. rewrite Et, Ew, HU by eauto. splits; auto. { eapply SO; eauto. apply incl_refl. } apply HV; auto.
  - intros c p X. apply HH in X. destruct X as (N & X). destruct (i_hold s I c p X) as (A & B & v & C & D & F). rewrite Et, Ew. splits; auto. exists v. rewrite (HU p) by eauto. splits; auto. { eapply SO; eauto. } rewrite HU by auto. auto.
  - intros c d p X Y. apply HH in X. apply HH in Y. destruct X, Y. eapply (i_uni s I); eauto.
  - intros u. destruct (Nat.eq_dec u t) as [->|N]; auto. apply (own_up s s' u); rewrite ?Es, ?Ea, ?Ew; auto.
    + intros [X|(c & X)]; [left; rewrite Et; auto|]. right. exists c. rewrite HU; auto. intros ->. congruence.
    + apply (i_own s I).
  - intros u. rewrite Ep, Ew, (i_qp s I). destruct (Nat.eq_dec u t) as [->|N]; [|rewrite HU by auto; tauto]. rewrite HT. split; intros ((v & X) & _); exfalso; [rewrite X in W1 | rewrite X in W2]; discriminate.
  - intros u. rewrite Ec, Ew, (i_qc s I). destruct (Nat.eq_dec u t) as [->|N]; [|rewrite HU by auto; tauto]. rewrite HT. split; intros (X & _); exfalso; [rewrite X in W1 | rewrite X in W2]; discriminate.
  - rewrite Ep. apply (i_ndp s I).
  - rewrite Ec. apply (i_ndc s I).
  - intros u x X. rewrite Ew in X. pose proof (i_wk s I u x X). rewrite HU; auto. intros ->. congruence.
  - pose proof (i_J s I) as J. unfold nolost in *. rewrite Et, Ep, Ec, Eo. destruct (who (top s)) as [p|] eqn:E.
    + destruct J as [(v & J)|(J1 & J2)].
      * left. exists v. rewrite HU; auto. intros ->. rewrite J in W1. discriminate.
      * right. split; auto. destruct J2 as [J2|(u & J2)]; auto. right. exists u. destruct (Nat.eq_dec u t) as [->|N].
        -- apply KC; auto. discriminate.
        -- unfold actC in *. rewrite HU by auto. rewrite Ev, upd_other, Ew by auto. auto.
    + destruct J as [(c & p & J1 & J2)|(J1 & J2)].
      * left. exists c, p. split; [|apply HV; auto]. rewrite HU; auto. intros ->. rewrite J1 in H1. discriminate.
      * right. split. { destruct J1; auto. } destruct J2 as [J2|(u & J2)]; auto. right. exists u. destruct (Nat.eq_dec u t) as [->|N].
        -- apply KP; auto.
        -- unfold actP in *. rewrite HU by auto. rewrite Ev, upd_other, Ew by auto. auto.
  - rewrite El. destruct He as [->|(n & -> & _)]; simpl; apply (i_sync s I).
  - intros u n X. rewrite El in X. apply in_app_or in X. destruct X as [X|X]; [|apply HV; apply (i_act s I); auto].
    destruct He as [->|(n' & -> & Y)]; [destruct X|]. destruct X as [X|[]]. injection X as <- <-. rewrite Ev, upd_same. auto.
  - intros u p X. rewrite El in X. apply in_app_or in X. destruct X as [X|X]; [|apply (i_race s I u p X)].
    destruct He as [->|(n' & -> & Y)]; [destruct X|]. destruct X as [X|[]]. discriminate.
Qed.

Lemma last_other : forall p e l, (match e with EPush q _ _ | EGot _ q _ _ | EOk q _ => q <> p | _ => True end) -> last_of p (e :: l) = last_of p l.
Proof. intros p e l H. destruct e; simpl; auto; destruct (Nat.eqb_spec p t) || destruct (Nat.eqb_spec p p0); subst; auto; congruence. Qed.

(** Accesses to the own slot: the call, line 135, the return. *)
Lemma own_touch : forall s t x q e, inv s ->
  holds (pc s t) = None -> holds q = None -> waits (pc s t) = false -> waits q = false ->
  (forall n, actC s t n -> False) -> (forall n w, view s t = w -> actP s t n -> In n w /\ exists v, q = PLoad v) ->
  let s' := touch s t t x q (woke s) e in
  own s' t -> sync (log s') -> (forall u, u <> t -> last_of u (e ++ log s) = last_of u (log s)) -> (forall u n, ~ In (EAct u n) e) -> (forall u p, ~ In (ERace u p) e) ->
  incl (acc s t) (view s t) -> inv s'.
Proof.
  intros s t x q e I H1 H2 W1 W2 NC KP s' O SY LO NA NR AC. unfold s', touch in *. rewrite (ordered_incl _ _ AC) in *. clear s'. set (s' := mkSt _ _ _ _ _ _ _ _ _ _ _ _ _) in *.
  assert (forall u, u <> t -> pc s' u = pc s u) as HU by (intros; apply upd_other; auto).
  assert (pc s' t = q) as HT by (apply upd_same).
  assert (forall u, u <> t -> view s' u = view s u) as HVo by (intros; apply upd_other; auto).
  assert (view s' t = next s :: view s t) as HVt by apply upd_same.
  assert (forall u, incl (view s u) (view s' u)) as HV.
  { intros u. destruct (Nat.eq_dec u t) as [->|N]; [rewrite HVt; apply incl_tl, incl_refl | rewrite HVo by auto; apply incl_refl]. }
  assert (forall c p, holds (pc s' c) = Some p -> c <> t /\ holds (pc s c) = Some p) as HH.
  { intros c p X. destruct (Nat.eq_dec c t) as [->|N]; [rewrite HT in X; congruence | rewrite HU in X by auto; auto]. }
  assert (forall p v, pubpc (pc s p) v -> p <> t) as HP.
  { intros p v X ->. apply pub_waits in X. destruct X. congruence. }
  assert (forall p v y y', p <> t -> incl y y' -> slot_ok s p v y -> slot_ok s' p v y') as SO.
  { intros p v y y' N X Y. apply (slot_ok_up s s' p v y y'); simpl; try apply upd_other; auto. }
  constructor.
  - intros p X. destruct (i_cur s I p X) as (v & A & B & C & D). assert (p <> t) by eauto. exists v. rewrite HU by auto. splits; auto. { eapply SO; eauto. apply incl_refl. } apply HV; auto.
  - intros c p X. apply HH in X. destruct X as (N & X). destruct (i_hold s I c p X) as (A & B & v & C & D & F). assert (p <> t) by eauto. splits; auto. exists v. rewrite (HU p) by auto. splits; auto. { eapply SO; eauto. } rewrite HU by auto. auto.
  - intros c d p X Y. apply HH in X. apply HH in Y. destruct X, Y. eapply (i_uni s I); eauto.
  - intros u. destruct (Nat.eq_dec u t) as [->|N]; auto. apply (own_up s s' u); auto; try (apply upd_other; auto); try (apply LO; auto).
    + intros [X|(c & X)]; [left; auto|]. right. exists c. rewrite HU; auto. intros ->. congruence.
    + apply (i_own s I).
  - intros u. simpl qP. simpl woke. rewrite (i_qp s I). destruct (Nat.eq_dec u t) as [->|N]; [|rewrite HU by auto; tauto]. rewrite HT. split; intros ((v & X) & _); exfalso; [rewrite X in W1 | rewrite X in W2]; discriminate.
  - intros u. simpl qC. simpl woke. rewrite (i_qc s I). destruct (Nat.eq_dec u t) as [->|N]; [|rewrite HU by auto; tauto]. rewrite HT. split; intros (X & _); exfalso; [rewrite X in W1 | rewrite X in W2]; discriminate.
  - apply (i_ndp s I).
  - apply (i_ndc s I).
  - intros u y X. pose proof (i_wk s I u y X). rewrite HU; auto. intros ->. congruence.
  - pose proof (i_J s I) as J. unfold nolost in *. simpl top. destruct (who (top s)) as [p|] eqn:E.
    + destruct J as [(v & J)|(J1 & J2)].
      * left. exists v. rewrite HU; auto. intros ->. rewrite J in W1. discriminate.
      * right. split; auto. destruct J2 as [J2|(u & J2)]; auto. right. exists u. destruct (Nat.eq_dec u t) as [->|N]; [destruct (NC _ J2)|].
        unfold actC in *. rewrite HU, HVo by auto. auto.
    + destruct J as [(c & p & J1 & J2)|(J1 & J2)].
      * left. exists c, p. split; [|apply HV; auto]. rewrite HU; auto. intros ->. rewrite J1 in H1. discriminate.
      * right. split; auto. destruct J2 as [J2|(u & J2)]; auto. right. exists u. destruct (Nat.eq_dec u t) as [->|N].
        -- destruct (KP _ _ eq_refl J2) as (Y & v & ->). unfold actP. rewrite HT, HVt. right. auto.
        -- unfold actP in *. rewrite HU, HVo by auto. auto.
  - auto.
  - intros u n X. simpl in X. apply in_app_or in X. destruct X as [X|X]; [destruct (NA _ _ X)|]. apply HV. apply (i_act s I); auto.
  - intros u p X. simpl in X. apply in_app_or in X. destruct X as [X|X]; [destruct (NR _ _ X)|apply (i_race s I u p X)].
Qed.

(** Line 309. *)
Lemma inv_read : forall s t p v, inv s -> pc s t = CRead p -> slotv s p = Some v -> inv (touch s t p (Some v) (CWake p v) (woke s) []).
Proof.
  intros s t p v I E SV. destruct (i_hold s I t p) as (TP & WP & v0 & PP & SK & _); [rewrite E; auto|].
  assert (v0 = v) by (destruct SK; congruence). subst v0.
  assert (p <> t) as NPT by (intros ->; apply pub_waits in PP; rewrite E in PP; destruct PP as (PP & _); discriminate).
  unfold touch. destruct SK as (_ & AC & LL). rewrite (ordered_incl _ _ AC). set (s' := mkSt _ _ _ _ _ _ _ _ _ _ _ _ _).
  assert (forall u, u <> t -> pc s' u = pc s u) as HU by (intros; apply upd_other; auto).
  assert (pc s' t = CWake p v) as HT by (apply upd_same).
  assert (forall u, u <> t -> view s' u = view s u) as HVo by (intros; apply upd_other; auto).
  assert (view s' t = next s :: view s t) as HVt by apply upd_same.
  assert (forall u, incl (view s u) (view s' u)) as HV.
  { intros u. destruct (Nat.eq_dec u t) as [->|N]; [rewrite HVt; apply incl_tl, incl_refl | rewrite HVo by auto; apply incl_refl]. }
  assert (forall c, holds (pc s' c) = holds (pc s c)) as HH.
  { intros c. destruct (Nat.eq_dec c t) as [->|N]; [rewrite HT, E; auto | rewrite HU by auto; auto]. }
  assert (forall u x x' y, u <> p -> incl x x' -> slot_ok s u y x -> slot_ok s' u y x') as SO.
  { intros u x x' y N X Y. apply (slot_ok_up s s' u y x x'); auto; apply upd_other; auto. }
  assert (forall u z, pubpc (pc s u) z -> u <> t) as HP.
  { intros u z X ->. apply pub_waits in X. rewrite E in X. destruct X. discriminate. }
  constructor.
  - intros u X. destruct (i_cur s I u X) as (z & A & B & C & D). assert (u <> t) by eauto. assert (u <> p) by (intros ->; apply TP; exact X). exists z. rewrite HU by auto. splits; auto. { eapply SO; eauto. apply incl_refl. } apply HV; auto.
  - intros c u X. rewrite HH in X. destruct (i_hold s I c u X) as (A & B & z & C & D & F). assert (u <> t) by eauto. splits; auto. exists z. rewrite (HU u) by auto. splits; auto.
    + destruct (Nat.eq_dec u p) as [->|N]; [|eapply SO; eauto]. assert (c = t) by (apply (i_uni s I c t p); auto; rewrite E; auto). subst c. rewrite HVt.
      assert (z = v) by (destruct D; congruence). subst z. red. simpl. rewrite !upd_same. splits; auto.
      * intros y [Y|Y]; [left; auto | right; auto].
      * destruct LL as (w & L1 & L2). exists w. split; auto. intros y Y. right. auto.
    + intros v' Y. destruct (Nat.eq_dec c t) as [->|N]; [|rewrite HU in Y by auto; auto]. rewrite HT in Y. injection Y as <- <-. destruct D; congruence.
  - intros c d u X Y. rewrite HH in X, Y. eapply (i_uni s I); eauto.
  - intros u. destruct (Nat.eq_dec u t) as [->|N].
    + pose proof (i_own s I t) as O. unfold own in *. rewrite HT. rewrite E in O. apply (idle_ok_up s s' t (view s t)); auto. apply upd_other; auto.
    + destruct (Nat.eq_dec u p) as [->|N'].
      * pose proof (i_own s I p) as O. unfold own in *. rewrite HU by auto. change (woke s' p) with (woke s p). rewrite WP in *. assert (taken s' p) by (right; exists t; rewrite HT; auto). destruct PP as [X|X]; rewrite X; auto.
      * apply (own_up s s' u); auto; try (apply upd_other; auto).
        -- intros [X|(c & X)]; [left; auto|]. right. exists c. rewrite HH; auto.
        -- apply (i_own s I).
  - intros u. simpl qP. simpl woke. rewrite (i_qp s I). destruct (Nat.eq_dec u t) as [->|N]; [|rewrite HU by auto; tauto]. rewrite HT, E. split; intros ((z & X) & _); discriminate.
  - intros u. simpl qC. simpl woke. rewrite (i_qc s I). destruct (Nat.eq_dec u t) as [->|N]; [|rewrite HU by auto; tauto]. rewrite HT, E. split; intros (X & _); discriminate.
  - apply (i_ndp s I).
  - apply (i_ndc s I).
  - intros u y X. pose proof (i_wk s I u y X) as Y. rewrite HU; auto. intros ->. rewrite E in Y. discriminate.
  - pose proof (i_J s I) as J. unfold nolost in *. simpl top. destruct (who (top s)) as [p0|] eqn:EE.
    + destruct J as [(z & J)|(J1 & J2)].
      * left. exists z. rewrite HU; auto. intros ->. congruence.
      * right. split; auto. destruct J2 as [J2|(u & J2)]; auto. right. exists u. unfold actC in *. destruct (Nat.eq_dec u t) as [->|N]; [rewrite E in J2; destruct J2|]. rewrite HU, HVo by auto. auto.
    + destruct J as [(c & p0 & J1 & J2)|(J1 & J2)].
      * left. exists c, p0. split; [|apply HV; auto]. rewrite HU; auto. intros ->. congruence.
      * right. split; auto. destruct J2 as [J2|(u & J2)]; auto. right. exists u. unfold actP in *. destruct (Nat.eq_dec u t) as [->|N]; [rewrite E in J2; destruct J2|]. rewrite HU, HVo by auto. auto.
  - apply (i_sync s I).
  - intros u n X. apply HV. apply (i_act s I); auto.
  - apply (i_race s I).
Qed.
(** Line 311. *)
Lemma inv_wake : forall s t p v, inv s -> pc s t = CWake p v -> inv (touch s t p (slotv s p) Idle (upd (woke s) p (Some (next s :: view s t))) [EGot t p v (view s t)]).
Proof.
  intros s t p v I E. destruct (i_hold s I t p) as (TP & WP & v0 & PP & SK & VV); [rewrite E; auto|].
  specialize (VV v E). subst v0.
  assert (p <> t) as NPT by (intros ->; apply pub_waits in PP; rewrite E in PP; destruct PP as (PP & _); discriminate).
  unfold touch. destruct SK as (SV & AC & LL). rewrite (ordered_incl _ _ AC). set (s' := mkSt _ _ _ _ _ _ _ _ _ _ _ _ _).
  assert (forall u, u <> t -> pc s' u = pc s u) as HU by (intros; apply upd_other; auto).
  assert (pc s' t = Idle) as HT by (apply upd_same).
  assert (forall u, u <> t -> view s' u = view s u) as HVo by (intros; apply upd_other; auto).
  assert (view s' t = next s :: view s t) as HVt by apply upd_same.
  assert (forall u, u <> p -> woke s' u = woke s u) as HWo by (intros; apply upd_other; auto).
  assert (woke s' p = Some (next s :: view s t)) as HWp by apply upd_same.
  assert (forall u, incl (view s u) (view s' u)) as HV.
  { intros u. destruct (Nat.eq_dec u t) as [->|N]; [rewrite HVt; apply incl_tl, incl_refl | rewrite HVo by auto; apply incl_refl]. }
  assert (forall c u, holds (pc s' c) = Some u -> c <> t /\ u <> p /\ holds (pc s c) = Some u) as HH.
  { intros c u X. destruct (Nat.eq_dec c t) as [->|N]; [rewrite HT in X; discriminate | rewrite HU in X by auto; splits; auto]. intros ->. apply N. apply (i_uni s I c t p); auto. rewrite E. auto. }
  assert (forall u, u <> p -> last_of u (log s') = last_of u (log s)) as HL by (intros; apply last_other; auto).
  assert (forall u x x' y, u <> p -> incl x x' -> slot_ok s u y x -> slot_ok s' u y x') as SO.
  { intros u x x' y N X Y. apply (slot_ok_up s s' u y x x'); auto; apply upd_other; auto. }
  assert (forall u z, pubpc (pc s u) z -> u <> t) as HP.
  { intros u z X ->. apply pub_waits in X. rewrite E in X. destruct X. discriminate. }
  constructor.
  - intros u X. destruct (i_cur s I u X) as (z & A & B & C & D). assert (u <> t) by eauto. assert (u <> p) by (intros ->; apply TP; exact X). exists z. rewrite HU, HWo by auto. splits; auto. { eapply SO; eauto. apply incl_refl. } apply HV; auto.
  - intros c u X. apply HH in X. destruct X as (N & N' & X). destruct (i_hold s I c u X) as (A & B & z & C & D & F). assert (u <> t) by eauto. rewrite HWo by auto. splits; auto. exists z. rewrite (HU u), (HU c) by auto. splits; auto. eapply SO; eauto.
  - intros c d u X Y. apply HH in X. apply HH in Y. destruct X as (_ & _ & X), Y as (_ & _ & Y). eapply (i_uni s I); eauto.
  - intros u. destruct (Nat.eq_dec u t) as [->|N].
    + pose proof (i_own s I t) as O. unfold own in *. rewrite HT. rewrite E in O. apply (idle_ok_up s s' t (view s t)); auto. apply upd_other; auto.
    + destruct (Nat.eq_dec u p) as [->|N'].
      * assert (done_ok s' p (next s :: view s t)) as DK.
        { split. { simpl. rewrite upd_same. intros y [Y|Y]; [left; auto | right; auto]. } exists t, v, (view s t). simpl. rewrite Nat.eqb_refl. split; auto. apply incl_tl, incl_refl. }
        unfold own. rewrite HU, HWp by auto. destruct PP as [X|X]; rewrite X; auto.
      * apply (own_up s s' u); auto; try (apply upd_other; auto).
        -- intros [X|(c & X)]; [left; auto|]. right. exists c. rewrite HU; auto. intros ->. rewrite E in X. injection X as X. auto.
        -- apply (i_own s I).
  - intros u. simpl qP. rewrite (i_qp s I). destruct (Nat.eq_dec u t) as [->|N]; [rewrite HT, E; split; intros ((z & X) & _); discriminate|]. rewrite HU by auto.
    destruct (Nat.eq_dec u p) as [->|N']; [|rewrite HWo by auto; tauto]. destruct PP as [X|X]; rewrite X; split; intros ((z & Y) & _); discriminate.
  - intros u. simpl qC. rewrite (i_qc s I). destruct (Nat.eq_dec u t) as [->|N]; [rewrite HT, E; split; intros (X & _); discriminate|]. rewrite HU by auto.
    destruct (Nat.eq_dec u p) as [->|N']; [|rewrite HWo by auto; tauto]. destruct PP as [X|X]; rewrite X; split; intros (Y & _); discriminate.
  - apply (i_ndp s I).
  - apply (i_ndc s I).
  - intros u y X. destruct (Nat.eq_dec u p) as [->|N']; [rewrite HU by auto; eapply pub_waits; eauto|]. rewrite HWo in X by auto. pose proof (i_wk s I u y X) as Y. rewrite HU; auto. intros ->. rewrite E in Y. discriminate.
  - pose proof (i_J s I) as J. unfold nolost in *. simpl top. destruct (who (top s)) as [p0|] eqn:EE.
    + destruct J as [(z & J)|(J1 & J2)].
      * left. exists z. rewrite HU; auto. intros ->. congruence.
      * right. split; auto. destruct J2 as [J2|(u & J2)]; auto. right. exists u. unfold actC in *. destruct (Nat.eq_dec u t) as [->|N]; [rewrite E in J2; destruct J2|].
        destruct (Nat.eq_dec u p) as [->|N']; [destruct PP as [X|X]; rewrite X in J2; destruct J2|]. rewrite HU, HVo, HWo by auto. auto.
    + destruct J as [(c & p0 & J1 & J2)|(J1 & J2)].
      * left. exists c, p0. split; [|apply HV; auto]. rewrite HU; auto. intros ->. congruence.
      * right. split; auto. destruct J2 as [J2|(u & J2)]; auto. right. exists u. unfold actP in *. destruct (Nat.eq_dec u t) as [->|N]; [rewrite E in J2; destruct J2|].
        destruct (Nat.eq_dec u p) as [->|N']; [destruct PP as [X|X]; rewrite X in J2; destruct J2|]. rewrite HU, HVo, HWo by auto. auto.
  - simpl. splits; auto. { intros n X. apply (i_act s I); auto. } apply (i_sync s I).
  - intros u n [X|X]; [discriminate|]. apply HV. apply (i_act s I); auto.
  - intros u q [X|X]; [discriminate|]. apply (i_race s I u q X).
Qed.

(** Line 76. *)
Lemma inv_pcas : forall s t v, inv s -> pc s t = PCas v -> who (top s) = None -> inv (cas s t (Some t) (PNote v)).
Proof.
  intros s t v I E TN. unfold cas. set (w := next s :: mvw (top s) ++ view s t). cbv zeta. set (s' := mkSt _ _ _ _ _ _ _ _ _ _ _ _ _).
  assert (forall u, u <> t -> pc s' u = pc s u) as HU by (intros; apply upd_other; auto).
  assert (pc s' t = PNote v) as HT by (apply upd_same).
  assert (forall u, u <> t -> view s' u = view s u) as HVo by (intros; apply upd_other; auto).
  assert (view s' t = w) as HVt by apply upd_same.
  assert (incl (view s t) w) as IW by (apply incl_tl, incl_appr, incl_refl).
  assert (forall u, incl (view s u) (view s' u)) as HV.
  { intros u. destruct (Nat.eq_dec u t) as [->|N]; [rewrite HVt; auto | rewrite HVo by auto; apply incl_refl]. }
  assert (forall c u, holds (pc s' c) = Some u -> c <> t /\ holds (pc s c) = Some u) as HH.
  { intros c u X. destruct (Nat.eq_dec c t) as [->|N]; [rewrite HT in X; discriminate | rewrite HU in X by auto; auto]. }
  assert (forall u z, pubpc (pc s u) z -> u <> t) as HP.
  { intros u z X ->. apply pub_waits in X. rewrite E in X. destruct X. discriminate. }
  assert (woke s t = None) as WT.
  { destruct (woke s t) as [x|] eqn:X; auto. pose proof (i_wk s I t x X) as Y. rewrite E in Y. discriminate. }
  pose proof (i_own s I t) as OT. unfold own in OT. rewrite E in OT.
  constructor.
  - intros u X. simpl in X. injection X as <-. exists v. rewrite HT, HVt. splits; auto.
    + left. auto.
    + apply (slot_ok_up s s' t v (view s t)); auto.
    + left. auto.
  - intros c u X. apply HH in X. destruct X as (N & X). destruct (i_hold s I c u X) as (A & B & z & C & D & F). assert (u <> t) by eauto. splits; auto.
    { simpl. congruence. } exists z. rewrite (HU u), (HU c) by auto. splits; auto. apply (slot_ok_up s s' u z (view s c)); auto.
  - intros c d u X Y. apply HH in X. apply HH in Y. destruct X as (_ & X), Y as (_ & Y). eapply (i_uni s I); eauto.
  - intros u. destruct (Nat.eq_dec u t) as [->|N].
    + unfold own. rewrite HT. change (woke s' t) with (woke s t). rewrite WT. left. auto.
    + apply (own_up s s' u); auto.
      * intros [X|(c & X)]; [congruence|]. right. exists c. rewrite HU; auto. intros ->. rewrite E in X. discriminate.
      * apply (i_own s I).
  - intros u. simpl qP. simpl woke. rewrite (i_qp s I). destruct (Nat.eq_dec u t) as [->|N]; [|rewrite HU by auto; tauto]. rewrite HT, E. split; intros ((z & X) & _); discriminate.
  - intros u. simpl qC. simpl woke. rewrite (i_qc s I). destruct (Nat.eq_dec u t) as [->|N]; [|rewrite HU by auto; tauto]. rewrite HT, E. split; intros (X & _); discriminate.
  - apply (i_ndp s I).
  - apply (i_ndc s I).
  - intros u y X. pose proof (i_wk s I u y X) as Y. rewrite HU; auto. intros ->. rewrite E in Y. discriminate.
  - red. simpl. left. exists v. apply upd_same.
  - apply (i_sync s I).
  - intros u n X. apply HV. apply (i_act s I); auto.
  - apply (i_race s I).
Qed.
(** Line 90. *)
Lemma inv_ccas : forall s t p, inv s -> pc s t = CCas p -> who (top s) = Some p -> inv (cas s t None (CNote p)).
Proof.
  intros s t p I E TN. unfold cas. set (w := next s :: mvw (top s) ++ view s t). cbv zeta. set (s' := mkSt _ _ _ _ _ _ _ _ _ _ _ _ _).
  destruct (i_cur s I p TN) as (v & PP & WP & SK & MP).
  assert (forall u, u <> t -> pc s' u = pc s u) as HU by (intros; apply upd_other; auto).
  assert (pc s' t = CNote p) as HT by (apply upd_same).
  assert (forall u, u <> t -> view s' u = view s u) as HVo by (intros; apply upd_other; auto).
  assert (view s' t = w) as HVt by apply upd_same.
  assert (incl (view s t) w) as IW by (apply incl_tl, incl_appr, incl_refl).
  assert (forall u, incl (view s u) (view s' u)) as HV.
  { intros u. destruct (Nat.eq_dec u t) as [->|N]; [rewrite HVt; auto | rewrite HVo by auto; apply incl_refl]. }
  assert (forall c u, holds (pc s' c) = Some u -> (c = t /\ u = p) \/ (c <> t /\ u <> p /\ holds (pc s c) = Some u)) as HH.
  { intros c u X. destruct (Nat.eq_dec c t) as [->|N]; [rewrite HT in X; injection X as <-; auto | rewrite HU in X by auto]. right. splits; auto. intros ->. apply (i_hold s I) in X. destruct X; auto. }
  assert (forall u z, pubpc (pc s u) z -> u <> t) as HP.
  { intros u z X ->. apply pub_waits in X. rewrite E in X. destruct X. discriminate. }
  constructor.
  - intros u X. discriminate.
  - intros c u X. apply HH in X. destruct X as [(-> & ->)|(N & N' & X)].
    + splits; auto. { discriminate. } exists v. rewrite HU by eauto. rewrite HVt. splits; auto.
      * apply (slot_ok_up s s' p v (mvw (top s))); auto. apply incl_tl, incl_appl, incl_refl.
      * rewrite HT. discriminate.
    + destruct (i_hold s I c u X) as (A & B & z & C & D & F). assert (u <> t) by eauto. splits; auto. { discriminate. } exists z. rewrite (HU u), (HU c) by auto. splits; auto. apply (slot_ok_up s s' u z (view s c)); auto.
  - intros c d u X Y. apply HH in X. apply HH in Y. destruct X as [(-> & ->)|(X1 & X2 & X3)], Y as [(Y0 & Y1)|(Y1 & Y2 & Y3)]; auto; try congruence. eapply (i_uni s I); eauto.
  - intros u. destruct (Nat.eq_dec u t) as [->|N].
    + pose proof (i_own s I t) as O. unfold own in *. rewrite HT. rewrite E in O. apply (idle_ok_up s s' t (view s t)); auto.
    + apply (own_up s s' u); auto.
      * intros [X|(c & X)]; right; [exists t; rewrite HT; simpl; congruence|]. exists c. rewrite HU; auto. intros ->. rewrite E in X. discriminate.
      * apply (i_own s I).
  - intros u. simpl qP. simpl woke. rewrite (i_qp s I). destruct (Nat.eq_dec u t) as [->|N]; [|rewrite HU by auto; tauto]. rewrite HT, E. split; intros ((z & X) & _); discriminate.
  - intros u. simpl qC. simpl woke. rewrite (i_qc s I). destruct (Nat.eq_dec u t) as [->|N]; [|rewrite HU by auto; tauto]. rewrite HT, E. split; intros (X & _); discriminate.
  - apply (i_ndp s I).
  - apply (i_ndc s I).
  - intros u y X. pose proof (i_wk s I u y X) as Y. rewrite HU; auto. intros ->. rewrite E in Y. discriminate.
  - red. simpl who. left. exists t, p. split; auto. rewrite HVt. left. auto.
  - apply (i_sync s I).
  - intros u n X. apply HV. apply (i_act s I); auto.
  - apply (i_race s I).
Qed.

(** Lines 137-140. *)
Lemma inv_pnote : forall s t v, inv s -> pc s t = PNote v -> let w := lvC s ++ view s t in
  inv (mkSt (top s) (olds s) (slotv s) (acc s) (lvP s) w (qP s) (tl (qC s)) (wake1 (qC s) w (woke s)) (upd (view s) t w) (next s) (upd (pc s) t (PSusp v)) (log s)).
Proof.
  intros s t v I E w. set (s' := mkSt _ _ _ _ _ _ _ _ _ _ _ _ _).
  assert (forall u, u <> t -> pc s' u = pc s u) as HU by (intros; apply upd_other; auto).
  assert (pc s' t = PSusp v) as HT by (apply upd_same).
  assert (forall u, u <> t -> view s' u = view s u) as HVo by (intros; apply upd_other; auto).
  assert (view s' t = w) as HVt by apply upd_same.
  assert (forall u, incl (view s u) (view s' u)) as HV.
  { intros u. destruct (Nat.eq_dec u t) as [->|N]; [rewrite HVt; apply incl_appr, incl_refl | rewrite HVo by auto; apply incl_refl]. }
  assert (forall c, holds (pc s' c) = holds (pc s c)) as HH.
  { intros c. destruct (Nat.eq_dec c t) as [->|N]; [rewrite HT, E; auto | rewrite HU by auto; auto]. }
  assert (forall u, woke s' u = woke s u \/ (pc s u = CWait /\ woke s u = None /\ woke s' u = Some w /\ exists r, qC s = u :: r)) as HW.
  { intros u. change (woke s' u) with (wake1 (qC s) w (woke s) u). pose proof (i_qc s I u) as Q. destruct (qC s) as [|h r]; auto. simpl wake1. destruct (Nat.eq_dec u h) as [->|N].
    - right. rewrite upd_same. destruct Q as (Q & _). destruct Q as (Q1 & Q2); [left; auto|]. splits; eauto.
    - left. apply upd_other; auto. }
  assert (forall u, pc s u <> CWait -> woke s' u = woke s u) as HWn by (intros u X; destruct (HW u) as [Y|(Y & _)]; auto; congruence).
  assert (forall u z, pubpc (pc s u) z -> pubpc (pc s' u) z /\ pc s u <> CWait) as HP.
  { intros u z X. split; [|destruct X as [->| ->]; discriminate]. destruct (Nat.eq_dec u t) as [->|N]; [|rewrite HU; auto]. rewrite HT. right. rewrite E in X. destruct X as [X|X]; congruence. }
  assert (forall u y x x', incl x x' -> slot_ok s u y x -> slot_ok s' u y x') as SO.
  { intros u y x x' X Y. apply (slot_ok_up s s' u y x x'); auto. }
  constructor.
  - intros p X. destruct (i_cur s I p X) as (z & A & B & C & D). destruct (HP p z A) as (A1 & A2). exists z. rewrite HWn by auto. splits; auto; try (apply HV; exact D); apply (SO p z (mvw (top s))); auto; apply incl_refl.
  - intros c p X. rewrite HH in X. destruct (i_hold s I c p X) as (A & B & z & C & D & F). destruct (HP p z C) as (A1 & A2). rewrite HWn by auto. splits; auto. exists z. splits; auto; try (apply (SO p z (view s c)); auto; fail).
    intros v' Y. apply F. rewrite HU in Y; auto. intros ->. rewrite HT in Y. discriminate.
  - intros c d p X Y. rewrite HH in X, Y. eapply (i_uni s I); eauto.
  - assert (forall p, taken s p -> taken s' p) as TK. { intros p [X|(c & X)]; [left; auto | right; exists c; rewrite HH; auto]. }
    intros u. pose proof (i_own s I u) as O. destruct (Nat.eq_dec u t) as [->|N].
    + unfold own in *. rewrite HT. rewrite E in O. rewrite HWn by congruence. destruct (woke s t); auto.
    + destruct (HW u) as [X|(X & _)].
      * apply (own_up s s' u); auto.
      * unfold own in *. rewrite HU by auto. rewrite X in *. apply (idle_ok_up s s' u (view s u)); auto.
  - intros u. simpl qP. rewrite (i_qp s I). destruct (Nat.eq_dec u t) as [->|N]; [rewrite HT, E; split; intros ((z & X) & _); discriminate|]. rewrite HU by auto.
    destruct (HW u) as [X|(X & _)]; [rewrite X; tauto|]. rewrite X. split; intros ((z & Y) & _); discriminate.
  - intros u. change (qC s') with (tl (qC s)). destruct (Nat.eq_dec u t) as [->|N].
    + rewrite HT. split; [|intros (X & _); discriminate]. intros X. exfalso. assert (In t (qC s)) as Y by (destruct (qC s); [destruct X | right; auto]). apply (i_qc s I) in Y. destruct Y. congruence.
    + rewrite HU by auto. pose proof (i_qc s I u) as Q. pose proof (i_ndc s I) as ND. change (woke s' u) with (wake1 (qC s) w (woke s) u). destruct (qC s) as [|h r]; [exact Q|]. simpl tl. simpl wake1. inversion ND; subst. destruct (Nat.eq_dec u h) as [->|N'].
      * rewrite upd_same. split; [intros X; contradiction | intros (_ & X); discriminate].
      * rewrite upd_other by auto. rewrite <- Q. split; [intros X; right; auto | intros [X|X]; [congruence | auto]].
  - apply (i_ndp s I).
  - change (qC s') with (tl (qC s)). pose proof (i_ndc s I) as ND. destruct (qC s); auto. inversion ND; auto.
  - intros u y X. destruct (Nat.eq_dec u t) as [->|N]; [rewrite HT; auto|]. rewrite HU by auto. destruct (HW u) as [Y|(Y & _)]; [|rewrite Y; auto]. rewrite Y in X. eapply (i_wk s I); eauto.
  - pose proof (i_J s I) as J. unfold nolost in *. change (top s') with (top s). change (lvC s') with w. change (qC s') with (tl (qC s)). change (lvP s') with (lvP s). change (qP s') with (qP s). change (olds s') with (olds s).
    assert (In (mid (top s)) w -> tl (qC s) = [] \/ exists u, actC s' u (mid (top s))) as KN.
    { intros X. assert (forall h r, qC s = h :: r -> woke s' h = Some w) as HX by (intros h r Q; change (wake1 (qC s) w (woke s) h = Some w); rewrite Q; apply upd_same). destruct (qC s) as [|h r] eqn:Q; auto. right. exists h. assert (In h (qC s)) as Y by (rewrite Q; left; auto). apply (i_qc s I) in Y. destruct Y as (Y1 & Y2). unfold actC. rewrite HU by congruence. rewrite Y1. exists w. split; auto. eapply HX; eauto. }
    destruct (who (top s)) as [p|] eqn:TT.
    + destruct (i_cur s I p TT) as (z & A & B & C & D). destruct (Nat.eq_dec p t) as [->|N].
      * right. assert (In (mid (top s)) w) by (apply in_or_app; auto). auto.
      * destruct J as [(z' & J)|(J1 & J2)]; [left; exists z'; rewrite HU; auto|]. right. assert (In (mid (top s)) w) by (apply in_or_app; auto). auto.
    + destruct J as [(c & p & J1 & J2)|(J1 & J2)].
      * left. exists c, p. split; [|apply HV; auto]. rewrite HU; auto. congruence.
      * right. split; auto. destruct J2 as [J2|(u & J2)]; auto. right. exists u. unfold actP in *. destruct (Nat.eq_dec u t) as [->|N]; [rewrite E in J2; destruct J2|]. rewrite HU, HVo by auto. rewrite HWn; auto. intros X. rewrite X in J2. destruct J2.
  - apply (i_sync s I).
  - intros u n X. apply HV. apply (i_act s I); auto.
  - apply (i_race s I).
Qed.
(** Lines 306-307. *)
Lemma inv_cnote : forall s t p0, inv s -> pc s t = CNote p0 -> let w := lvP s ++ view s t in
  inv (mkSt (top s) (olds s) (slotv s) (acc s) w (lvC s) (tl (qP s)) (qC s) (wake1 (qP s) w (woke s)) (upd (view s) t w) (next s) (upd (pc s) t (CRead p0)) (log s)).
Proof.
  intros s t p0 I E w. set (s' := mkSt _ _ _ _ _ _ _ _ _ _ _ _ _).
  assert (forall u, u <> t -> pc s' u = pc s u) as HU by (intros; apply upd_other; auto).
  assert (pc s' t = CRead p0) as HT by (apply upd_same).
  assert (forall u, u <> t -> view s' u = view s u) as HVo by (intros; apply upd_other; auto).
  assert (view s' t = w) as HVt by apply upd_same.
  assert (forall u, incl (view s u) (view s' u)) as HV.
  { intros u. destruct (Nat.eq_dec u t) as [->|N]; [rewrite HVt; apply incl_appr, incl_refl | rewrite HVo by auto; apply incl_refl]. }
  assert (forall c, holds (pc s' c) = holds (pc s c)) as HH.
  { intros c. destruct (Nat.eq_dec c t) as [->|N]; [rewrite HT, E; auto | rewrite HU by auto; auto]. }
  assert (forall u, woke s' u = woke s u \/ ((exists z, pc s u = PWait z) /\ woke s u = None /\ woke s' u = Some w)) as HW.
  { intros u. change (woke s' u) with (wake1 (qP s) w (woke s) u). pose proof (i_qp s I u) as Q. destruct (qP s) as [|h r]; auto. simpl wake1. destruct (Nat.eq_dec u h) as [->|N].
    - right. rewrite upd_same. destruct Q as (Q & _). destruct Q as (Q1 & Q2); [left; auto|]. splits; eauto.
    - left. apply upd_other; auto. }
  assert (forall u, (forall z, pc s u <> PWait z) -> woke s' u = woke s u) as HWn by (intros u X; destruct (HW u) as [Y|((z & Y) & _)]; auto; destruct (X z Y)).
  assert (forall u z, pubpc (pc s u) z -> pubpc (pc s' u) z /\ forall z, pc s u <> PWait z) as HP.
  { intros u z X. split; [|destruct X as [->| ->]; discriminate]. rewrite HU; auto. intros ->. rewrite E in X. destruct X; discriminate. }
  assert (forall u y x x', incl x x' -> slot_ok s u y x -> slot_ok s' u y x') as SO.
  { intros u y x x' X Y. apply (slot_ok_up s s' u y x x'); auto. }
  constructor.
  - intros p X. destruct (i_cur s I p X) as (z & A & B & C & D). destruct (HP p z A) as (A1 & A2). exists z. rewrite HWn by auto. splits; auto; try (apply HV; exact D); apply (SO p z (mvw (top s))); auto; apply incl_refl.
  - intros c p X. rewrite HH in X. destruct (i_hold s I c p X) as (A & B & z & C & D & F). destruct (HP p z C) as (A1 & A2). rewrite HWn by auto. splits; auto. exists z. splits; auto; try (apply (SO p z (view s c)); auto; fail).
    intros v' Y. apply F. rewrite HU in Y; auto. intros ->. rewrite HT in Y. discriminate.
  - intros c d p X Y. rewrite HH in X, Y. eapply (i_uni s I); eauto.
  - assert (forall p, taken s p -> taken s' p) as TK. { intros p [X|(c & X)]; [left; auto | right; exists c; rewrite HH; auto]. }
    intros u. pose proof (i_own s I u) as O. destruct (Nat.eq_dec u t) as [->|N].
    + unfold own in *. rewrite HT. rewrite E in O. apply (idle_ok_up s s' t (view s t)); auto.
    + destruct (HW u) as [X|((z & X) & _)].
      * apply (own_up s s' u); auto.
      * unfold own in *. rewrite HU by auto. rewrite X in *. apply (SO u z (view s u)); auto.
  - intros u. change (qP s') with (tl (qP s)). destruct (Nat.eq_dec u t) as [->|N].
    + rewrite HT. split; [|intros ((z & X) & _); discriminate]. intros X. exfalso. assert (In t (qP s)) as Y by (destruct (qP s); [destruct X | right; auto]). apply (i_qp s I) in Y. destruct Y as ((z & Y) & _). congruence.
    + rewrite HU by auto. pose proof (i_qp s I u) as Q. pose proof (i_ndp s I) as ND. change (woke s' u) with (wake1 (qP s) w (woke s) u). destruct (qP s) as [|h r]; [exact Q|]. simpl tl. simpl wake1. inversion ND; subst. destruct (Nat.eq_dec u h) as [->|N'].
      * rewrite upd_same. split; [intros X; contradiction | intros (_ & X); discriminate].
      * rewrite upd_other by auto. rewrite <- Q. split; [intros X; right; auto | intros [X|X]; [congruence | auto]].
  - intros u. simpl qC. rewrite (i_qc s I). destruct (Nat.eq_dec u t) as [->|N]; [rewrite HT, E; split; intros (X & _); discriminate|]. rewrite HU by auto.
    destruct (HW u) as [X|((z & X) & _)]; [rewrite X; tauto|]. rewrite X. split; intros (Y & _); discriminate.
  - change (qP s') with (tl (qP s)). pose proof (i_ndp s I) as ND. destruct (qP s); auto. inversion ND; auto.
  - apply (i_ndc s I).
  - intros u y X. destruct (Nat.eq_dec u t) as [->|N].
    + rewrite HWn in X by (rewrite E; discriminate). apply (i_wk s I) in X. rewrite E in X. discriminate.
    + rewrite HU by auto. destruct (HW u) as [Y|((z & Y) & _)]; [|rewrite Y; auto]. rewrite Y in X. eapply (i_wk s I); eauto.
  - pose proof (i_J s I) as J. unfold nolost in *. change (top s') with (top s). change (lvC s') with (lvC s). change (qC s') with (qC s). change (lvP s') with w. change (qP s') with (tl (qP s)). change (olds s') with (olds s).
    assert (In (mid (top s)) w -> tl (qP s) = [] \/ exists u, actP s' u (mid (top s))) as KN.
    { intros X. assert (forall h r, qP s = h :: r -> woke s' h = Some w) as HX by (intros h r Q; change (wake1 (qP s) w (woke s) h = Some w); rewrite Q; apply upd_same). destruct (qP s) as [|h r] eqn:Q; auto. right. exists h. assert (In h (qP s)) as Y by (rewrite Q; left; auto). apply (i_qp s I) in Y. destruct Y as ((z & Y1) & Y2). unfold actP. rewrite HU by congruence. rewrite Y1. exists w. split; auto. eapply HX; eauto. }
    destruct (who (top s)) as [p|] eqn:TT.
    + destruct J as [(z & J)|(J1 & J2)]; [left; exists z; rewrite HU; auto; congruence|]. right. split; auto. destruct J2 as [J2|(u & J2)]; auto. right. exists u. unfold actC in *.
      destruct (Nat.eq_dec u t) as [->|N]; [rewrite E in J2; destruct J2|]. rewrite HU, HVo by auto. rewrite HWn; auto. intros z X. rewrite X in J2. destruct J2.
    + destruct J as [(c & p & J1 & J2)|(J1 & J2)].
      * destruct (Nat.eq_dec c t) as [->|N].
        -- right. assert (In (mid (top s)) w) by (apply in_or_app; auto). auto.
        -- left. exists c, p. split; [|apply HV; auto]. rewrite HU; auto.
      * right. split. { destruct J1 as [J1|J1]; auto. left. apply in_or_app; auto. } destruct J2 as [J2|(u & J2)]; [rewrite J2; auto|]. right. exists u. unfold actP in *.
        destruct (Nat.eq_dec u t) as [->|N]; [rewrite E in J2; destruct J2|]. rewrite HU, HVo by auto. destruct (pc s u) eqn:PU; auto. destruct J2 as (x & J2 & J3). exists x. split; auto. destruct (HW u) as [Y|(_ & Y & _)]; congruence.
  - apply (i_sync s I).
  - intros u n X. apply HV. apply (i_act s I); auto.
  - apply (i_race s I).
Qed.
(** Line 157: t waits. *)
Lemma inv_pwait : forall s t v k m, inv s -> pc s t = PLk v -> let w := lvP s ++ view s t in load s w k = Some m -> who m <> None -> let w' := mvw m ++ w in
  inv (mkSt (top s) (olds s) (slotv s) (acc s) w' (lvC s) (qP s ++ [t]) (qC s) (woke s) (upd (view s) t w') (next s) (upd (pc s) t (PWait v)) (log s)).
Proof.
  intros s t v k m I E w L WM w'. set (s' := mkSt _ _ _ _ _ _ _ _ _ _ _ _ _).
  assert (forall u, u <> t -> pc s' u = pc s u) as HU by (intros; apply upd_other; auto).
  assert (pc s' t = PWait v) as HT by (apply upd_same).
  assert (forall u, u <> t -> view s' u = view s u) as HVo by (intros; apply upd_other; auto).
  assert (view s' t = w') as HVt by apply upd_same.
  assert (forall u, incl (view s u) (view s' u)) as HV.
  { intros u. destruct (Nat.eq_dec u t) as [->|N]; [rewrite HVt; apply incl_appr, incl_appr, incl_refl | rewrite HVo by auto; apply incl_refl]. }
  assert (forall c, holds (pc s' c) = holds (pc s c)) as HH.
  { intros c. destruct (Nat.eq_dec c t) as [->|N]; [rewrite HT, E; auto | rewrite HU by auto; auto]. }
  assert (forall u z, pubpc (pc s u) z -> pubpc (pc s' u) z) as HP.
  { intros u z X. rewrite HU; auto. intros ->. rewrite E in X. destruct X; discriminate. }
  assert (forall u y x x', incl x x' -> slot_ok s u y x -> slot_ok s' u y x') as SO.
  { intros u y x x' X Y. apply (slot_ok_up s s' u y x x'); auto. }
  assert (woke s t = None) as WT.
  { destruct (woke s t) as [x|] eqn:X; auto. pose proof (i_wk s I t x X) as Y. rewrite E in Y. discriminate. }
  assert (~ In t (qP s)) as NT by (intros X; apply (i_qp s I) in X; destruct X as ((z & X) & _); congruence).
  constructor.
  - intros p X. destruct (i_cur s I p X) as (z & A & B & C & D). exists z. splits; auto; try (apply HV; exact D); apply (SO p z (mvw (top s))); auto; apply incl_refl.
  - intros c p X. rewrite HH in X. destruct (i_hold s I c p X) as (A & B & z & C & D & F). splits; auto. exists z. splits; auto; try (apply (SO p z (view s c)); auto; fail).
    intros v' Y. apply F. rewrite HU in Y; auto. intros ->. rewrite HT in Y. discriminate.
  - intros c d p X Y. rewrite HH in X, Y. eapply (i_uni s I); eauto.
  - intros u. pose proof (i_own s I u) as O. destruct (Nat.eq_dec u t) as [->|N].
    + unfold own in *. rewrite HT. rewrite E in O. apply (SO t v (view s t)); auto.
    + apply (own_up s s' u); auto. intros [X|(c & X)]; [left; auto | right; exists c; rewrite HH; auto].
  - intros u. change (qP s') with (qP s ++ [t]). change (woke s' u) with (woke s u). rewrite in_app_iff. rewrite (i_qp s I). destruct (Nat.eq_dec u t) as [->|N].
    + rewrite HT. split; [intros _; eauto | intros _; right; left; auto].
    + rewrite HU by auto. split; [intros [X|[X|[]]]; [auto | congruence] | auto].
  - intros u. simpl qC. simpl woke. rewrite (i_qc s I). destruct (Nat.eq_dec u t) as [->|N]; [rewrite HT, E; split; intros (X & _); discriminate|]. rewrite HU by auto. tauto.
  - change (qP s') with (qP s ++ [t]). clear - NT I. pose proof (i_ndp s I) as ND. induction (qP s) as [|a r IH]; simpl; [constructor; auto; constructor|]. inversion ND; subst. constructor.
    + rewrite in_app_iff. intros [X|[X|[]]]; [auto | subst; apply NT; left; auto].
    + apply IH; auto. intros X. apply NT. right. auto.
  - apply (i_ndc s I).
  - intros u y X. change (woke s' u) with (woke s u) in X. rewrite HU; [eapply (i_wk s I); eauto|]. congruence.
  - pose proof (i_J s I) as J. unfold nolost in *. change (top s') with (top s). change (lvC s') with (lvC s). change (qC s') with (qC s). change (lvP s') with w'. change (olds s') with (olds s).
    destruct (who (top s)) as [p|] eqn:TT.
    + destruct J as [(z & J)|(J1 & J2)]; [left; exists z; rewrite HU; auto; congruence|]. right. split; auto. destruct J2 as [J2|(u & J2)]; auto. right. exists u. unfold actC in *.
      destruct (Nat.eq_dec u t) as [->|N]; [rewrite E in J2; destruct J2|]. rewrite HU, HVo by auto. auto.
    + destruct J as [(c & p & J1 & J2)|(J1 & J2)].
      * left. exists c, p. split; [|apply HV; auto]. rewrite HU; auto. congruence.
      * exfalso. apply WM. rewrite <- TT. f_equal. apply (load_top s w k m L). destruct J1 as [J1|J1]; auto. left. apply in_or_app. auto.
  - apply (i_sync s I).
  - intros u n X. apply HV. apply (i_act s I); auto.
  - apply (i_race s I).
Qed.
(** Line 321: t waits. *)
Lemma inv_cwait : forall s t k m, inv s -> pc s t = CLk -> let w := lvC s ++ view s t in load s w k = Some m -> who m = None -> let w' := mvw m ++ w in
  inv (mkSt (top s) (olds s) (slotv s) (acc s) (lvP s) w' (qP s) (qC s ++ [t]) (woke s) (upd (view s) t w') (next s) (upd (pc s) t CWait) (log s)).
Proof.
  intros s t k m I E w L WM w'. set (s' := mkSt _ _ _ _ _ _ _ _ _ _ _ _ _).
  assert (forall u, u <> t -> pc s' u = pc s u) as HU by (intros; apply upd_other; auto).
  assert (pc s' t = CWait) as HT by (apply upd_same).
  assert (forall u, u <> t -> view s' u = view s u) as HVo by (intros; apply upd_other; auto).
  assert (view s' t = w') as HVt by apply upd_same.
  assert (forall u, incl (view s u) (view s' u)) as HV.
  { intros u. destruct (Nat.eq_dec u t) as [->|N]; [rewrite HVt; apply incl_appr, incl_appr, incl_refl | rewrite HVo by auto; apply incl_refl]. }
  assert (forall c, holds (pc s' c) = holds (pc s c)) as HH.
  { intros c. destruct (Nat.eq_dec c t) as [->|N]; [rewrite HT, E; auto | rewrite HU by auto; auto]. }
  assert (forall u z, pubpc (pc s u) z -> pubpc (pc s' u) z) as HP.
  { intros u z X. rewrite HU; auto. intros ->. rewrite E in X. destruct X; discriminate. }
  assert (forall u y x x', incl x x' -> slot_ok s u y x -> slot_ok s' u y x') as SO.
  { intros u y x x' X Y. apply (slot_ok_up s s' u y x x'); auto. }
  assert (woke s t = None) as WT.
  { destruct (woke s t) as [x|] eqn:X; auto. pose proof (i_wk s I t x X) as Y. rewrite E in Y. discriminate. }
  assert (~ In t (qC s)) as NT by (intros X; apply (i_qc s I) in X; destruct X as (X & _); congruence).
  constructor.
  - intros p X. destruct (i_cur s I p X) as (z & A & B & C & D). exists z. splits; auto; try (apply HV; exact D); apply (SO p z (mvw (top s))); auto; apply incl_refl.
  - intros c p X. rewrite HH in X. destruct (i_hold s I c p X) as (A & B & z & C & D & F). splits; auto. exists z. splits; auto; try (apply (SO p z (view s c)); auto; fail).
    intros v' Y. apply F. rewrite HU in Y; auto. intros ->. rewrite HT in Y. discriminate.
  - intros c d p X Y. rewrite HH in X, Y. eapply (i_uni s I); eauto.
  - intros u. pose proof (i_own s I u) as O. destruct (Nat.eq_dec u t) as [->|N].
    + unfold own in *. rewrite HT. rewrite E in O. apply (idle_ok_up s s' t (view s t)); auto.
    + apply (own_up s s' u); auto. intros [X|(c & X)]; [left; auto | right; exists c; rewrite HH; auto].
  - intros u. simpl qP. simpl woke. rewrite (i_qp s I). destruct (Nat.eq_dec u t) as [->|N]; [rewrite HT, E; split; intros ((z & X) & _); discriminate|]. rewrite HU by auto. tauto.
  - intros u. change (qC s') with (qC s ++ [t]). change (woke s' u) with (woke s u). rewrite in_app_iff. rewrite (i_qc s I). destruct (Nat.eq_dec u t) as [->|N].
    + rewrite HT. split; [intros _; eauto | intros _; right; left; auto].
    + rewrite HU by auto. split; [intros [X|[X|[]]]; [auto | congruence] | auto].
  - apply (i_ndp s I).
  - change (qC s') with (qC s ++ [t]). clear - NT I. pose proof (i_ndc s I) as ND. induction (qC s) as [|a r IH]; simpl; [constructor; auto; constructor|]. inversion ND; subst. constructor.
    + rewrite in_app_iff. intros [X|[X|[]]]; [auto | subst; apply NT; left; auto].
    + apply IH; auto. intros X. apply NT. right. auto.
  - intros u y X. change (woke s' u) with (woke s u) in X. rewrite HU; [eapply (i_wk s I); eauto|]. congruence.
  - pose proof (i_J s I) as J. unfold nolost in *. change (top s') with (top s). change (lvC s') with w'. change (lvP s') with (lvP s). change (qP s') with (qP s). change (olds s') with (olds s).
    destruct (who (top s)) as [p|] eqn:TT.
    + destruct J as [(z & J)|(J1 & J2)]; [left; exists z; rewrite HU; auto; congruence|].
      exfalso. assert (m = top s) by (apply (load_top s w k m L); left; apply in_or_app; auto). congruence.
    + destruct J as [(c & p & J1 & J2)|(J1 & J2)].
      * left. exists c, p. split; [|apply HV; auto]. rewrite HU; auto. congruence.
      * right. split; auto. destruct J2 as [J2|(u & J2)]; auto. right. exists u. unfold actP in *.
        destruct (Nat.eq_dec u t) as [->|N]; [rewrite E in J2; destruct J2|]. rewrite HU, HVo by auto. auto.
  - apply (i_sync s I).
  - intros u n X. apply HV. apply (i_act s I); auto.
  - apply (i_race s I).
Qed.
(** A fiber that has been woken goes on. *)
Lemma inv_resume : forall s t w q, inv s -> woke s t = Some w ->
  (exists v, (pc s t = PSusp v /\ q = PEnd v) \/ (pc s t = PWait v /\ q = PTop v) \/ (pc s t = CWait /\ q = CLoad)) ->
  inv (mkSt (top s) (olds s) (slotv s) (acc s) (lvP s) (lvC s) (qP s) (qC s) (upd (woke s) t None) (upd (view s) t (w ++ view s t)) (next s) (upd (pc s) t q) (log s)).
Proof.
  intros s t w q I WT HQ. set (s' := mkSt _ _ _ _ _ _ _ _ _ _ _ _ _).
  assert (forall u, u <> t -> pc s' u = pc s u) as HU by (intros; apply upd_other; auto).
  assert (pc s' t = q) as HT by (apply upd_same).
  assert (forall u, u <> t -> view s' u = view s u) as HVo by (intros; apply upd_other; auto).
  assert (view s' t = w ++ view s t) as HVt by apply upd_same.
  assert (forall u, u <> t -> woke s' u = woke s u) as HWo by (intros; apply upd_other; auto).
  assert (woke s' t = None) as HWt by apply upd_same.
  assert (forall u, incl (view s u) (view s' u)) as HV.
  { intros u. destruct (Nat.eq_dec u t) as [->|N]; [rewrite HVt; apply incl_appr, incl_refl | rewrite HVo by auto; apply incl_refl]. }
  assert (holds (pc s t) = None /\ holds q = None) as (H1 & H2) by (destruct HQ as (v & [(-> & ->)|[(-> & ->)|(-> & ->)]]); auto).
  assert (forall c, holds (pc s' c) = holds (pc s c)) as HH.
  { intros c. destruct (Nat.eq_dec c t) as [->|N]; [rewrite HT; congruence | rewrite HU by auto; auto]. }
  assert (forall u y x x', incl x x' -> slot_ok s u y x -> slot_ok s' u y x') as SO.
  { intros u y x x' X Y. apply (slot_ok_up s s' u y x x'); auto. }
  constructor.
  - intros p X. destruct (i_cur s I p X) as (z & A & B & C & D). assert (p <> t) by congruence. exists z. rewrite HU, HWo by auto. splits; auto; try (apply HV; exact D); apply (SO p z (mvw (top s))); auto; apply incl_refl.
  - intros c p X. rewrite HH in X. destruct (i_hold s I c p X) as (A & B & z & C & D & F). assert (p <> t) by congruence. rewrite HWo by auto. splits; auto. exists z. rewrite (HU p) by auto. splits; auto; try (apply (SO p z (view s c)); auto; fail).
    intros v' Y. apply F. rewrite HU in Y; auto. congruence.
  - intros c d p X Y. rewrite HH in X, Y. eapply (i_uni s I); eauto.
  - intros u. pose proof (i_own s I u) as O. destruct (Nat.eq_dec u t) as [->|N].
    + unfold own in *. rewrite HT, WT in *. destruct HQ as (v & [(A & ->)|[(A & ->)|(A & ->)]]); rewrite A in O; rewrite HVt.
      * apply (done_ok_up s s' t w); auto. apply incl_appl, incl_refl.
      * apply (SO t v (view s t)); auto. apply incl_appr, incl_refl.
      * apply (idle_ok_up s s' t (view s t)); auto. apply incl_appr, incl_refl.
    + apply (own_up s s' u); auto. intros [X|(c & X)]; [left; auto | right; exists c; rewrite HH; auto].
  - intros u. simpl qP. rewrite (i_qp s I). destruct (Nat.eq_dec u t) as [->|N]; [|rewrite HU, HWo by auto; tauto]. rewrite HT, WT. split; [intros (_ & X); discriminate|]. intros ((z & X) & _). exfalso. destruct HQ as (v & [(_ & Y)|[(_ & Y)|(_ & Y)]]); congruence.
  - intros u. simpl qC. rewrite (i_qc s I). destruct (Nat.eq_dec u t) as [->|N]; [|rewrite HU, HWo by auto; tauto]. rewrite HT, WT. split; [intros (_ & X); discriminate|]. intros (X & _). exfalso. destruct HQ as (v & [(_ & Y)|[(_ & Y)|(_ & Y)]]); congruence.
  - apply (i_ndp s I).
  - apply (i_ndc s I).
  - intros u y X. assert (u <> t) by congruence. rewrite HU by auto. rewrite HWo in X by auto. eapply (i_wk s I); eauto.
  - pose proof (i_J s I) as J. unfold nolost in *. change (top s') with (top s). change (lvC s') with (lvC s). change (lvP s') with (lvP s). change (qP s') with (qP s). change (qC s') with (qC s). change (olds s') with (olds s).
    destruct (who (top s)) as [p|] eqn:TT.
    + destruct J as [(z & J)|(J1 & J2)].
      * left. exists z. rewrite HU; auto. intros ->. destruct HQ as (v & [(Y & _)|[(Y & _)|(Y & _)]]); congruence.
      * right. split; auto. destruct J2 as [J2|(u & J2)]; auto. right. exists u. unfold actC in *. destruct (Nat.eq_dec u t) as [->|N]; [|rewrite HU, HVo, HWo by auto; auto].
        rewrite HT, HVt. destruct HQ as (v & [(A & ->)|[(A & ->)|(A & ->)]]); rewrite A in J2; auto. destruct J2 as (x & J2 & J3). apply in_or_app. left. congruence.
    + destruct J as [(c & p & J1 & J2)|(J1 & J2)].
      * left. exists c, p. split; [|apply HV; auto]. rewrite HU; auto. intros ->. rewrite J1 in H1. discriminate.
      * right. split; auto. destruct J2 as [J2|(u & J2)]; auto. right. exists u. unfold actP in *. destruct (Nat.eq_dec u t) as [->|N]; [|rewrite HU, HVo, HWo by auto; auto].
        rewrite HT, HVt. destruct HQ as (v & [(A & ->)|[(A & ->)|(A & ->)]]); rewrite A in J2; try contradiction. destruct J2 as (x & J2 & J3). apply in_or_app. left. congruence.
  - apply (i_sync s I).
  - intros u n X. apply HV. apply (i_act s I); auto.
  - apply (i_race s I).
Qed.

Lemma touch_own : forall s t x q wk e, incl (acc s t) (view s t) -> touch s t t x q wk e =
  mkSt (top s) (olds s) (upd (slotv s) t x) (upd (acc s) t (next s :: acc s t)) (lvP s) (lvC s) (qP s) (qC s) wk (upd (view s) t (next s :: view s t)) (S (next s)) (upd (pc s) t q) (e ++ log s).
Proof. intros. unfold touch. rewrite ordered_incl; auto. Qed.
Lemma incl_both : forall (x : nat) a b, incl a b -> incl (x :: a) (x :: b).
Proof. intros x a b H y [Y|Y]; [left; auto | right; auto]. Qed.

Lemma step_inv : forall s l s', inv s -> step s l = Some s' -> inv s'.
Proof.
  intros s l s' I H. destruct l as [t|t v|t|t k]; simpl in H.
  - destruct (pc s t) eqn:E; try discriminate. injection H as <-. pose proof (i_own s I t) as O. unfold own in O. rewrite E in O.
    apply (soft s _ t (next s :: view s t) Idle [EAct t (next s)] I); simpl; auto; try (apply incl_refl); try (apply incl_tl, incl_refl); try (rewrite E; auto; fail).
    + right. exists (next s). split; simpl; auto.
    + unfold own. simpl. rewrite !upd_same. apply (idle_ok_up s _ t (view s t)); auto. apply incl_tl, incl_refl.
    + intros n _ X. unfold actC in X. rewrite E in X. destruct X.
    + intros n _ X. unfold actP in X. rewrite E in X. destruct X.
  - destruct (pc s t) eqn:E; try discriminate. injection H as <-. pose proof (i_own s I t) as O. unfold own in O. rewrite E in O. destruct O as (AC & LL).
    apply own_touch; auto; try (rewrite E; auto; fail).
    + intros n X. unfold actC in X. rewrite E in X. destruct X.
    + intros n w _ X. unfold actP in X. rewrite E in X. destruct X.
    + rewrite touch_own by auto. unfold own. simpl. rewrite !upd_same. red. simpl. rewrite !upd_same, Nat.eqb_refl. splits; auto. { apply incl_both; auto. } exists (view s t). split; auto. apply incl_tl, incl_refl.
    + rewrite touch_own by auto. simpl. splits; auto. { intros n X. apply (i_act s I); auto. } apply (i_sync s I).
    + intros u N. apply last_other. auto.
    + intros u n [X|[]]. discriminate.
    + intros u n [X|[]]. discriminate.
  - destruct (pc s t) eqn:E; try discriminate. injection H as <-. pose proof (i_own s I t) as O. unfold own in O. rewrite E in O.
    apply (soft s _ t (view s t) CLoad [] I); simpl; auto; try (apply incl_refl); try (rewrite E; auto; fail).
    + unfold own. simpl. rewrite !upd_same. apply (idle_ok_up s _ t (view s t)); auto. apply incl_refl.
    + intros n _ X. unfold actC in X. rewrite E in X. destruct X.
    + intros n _ X. unfold actP in X. rewrite E in X. destruct X.
  - unfold run in H. pose proof (i_own s I t) as O. unfold own in O. destruct (pc s t) eqn:E; try discriminate.
    + (* PTop *) injection H as <-. destruct O as (SV & AC & w & L1 & L2). apply own_touch; auto; try (rewrite E; auto; fail).
      * intros n X. unfold actC in X. rewrite E in X. destruct X.
      * intros n y <- X. unfold actP in X. rewrite E in X. eauto.
      * rewrite touch_own by auto. unfold own. simpl. rewrite !upd_same. red. simpl. rewrite !upd_same. splits; auto. { apply incl_both; auto. } exists w. split; auto. apply incl_tl; auto.
      * rewrite touch_own by auto. apply (i_sync s I).
    + (* PLoad *) destruct (load s (view s t) k) as [m|] eqn:L; [|discriminate]. injection H as <-.
      apply (soft s _ t (mvw m ++ view s t) (match who m with None => PCas v | Some _ => PLk v end) [] I); simpl; auto; try (apply incl_refl); try (apply incl_appr, incl_refl); try (rewrite E; auto; fail); try (destruct (who m); auto; fail).
      * assert (slot_ok (goto s t match who m with Some _ => PLk v | None => PCas v end (mvw m ++ view s t)) t v (mvw m ++ view s t)) as X by (apply (slot_ok_up s _ t v (view s t)); auto; apply incl_appr, incl_refl).
        unfold own. simpl. rewrite !upd_same. destruct (who m); auto.
      * intros n _ X. unfold actC in X. rewrite E in X. destruct X.
      * intros n _ X _. unfold actP in *. rewrite E in X. simpl. rewrite !upd_same. destruct (who m); apply in_or_app; auto.
    + (* PCas *) injection H as <-. destruct (who (top s)) as [p|] eqn:W; [|apply inv_pcas; auto].
      apply (soft s _ t (view s t) (PLoad v) [] I); simpl; auto; try (apply incl_refl); try (rewrite E; auto; fail).
      * unfold own. simpl. rewrite !upd_same. apply (slot_ok_up s _ t v (view s t)); auto. apply incl_refl.
      * intros n _ X. unfold actC in X. rewrite E in X. destruct X.
      * intros n _ X Y. congruence.
    + (* PNote *) injection H as <-. apply inv_pnote; auto.
    + (* PSusp *) destruct (woke s t) as [w|] eqn:W; [|discriminate]. injection H as <-. apply inv_resume; eauto.
    + (* PEnd *) injection H as <-. destruct O as (AC & c & v' & w & L1 & L2). apply own_touch; auto; try (rewrite E; auto; fail).
      * intros n X. unfold actC in X. rewrite E in X. destruct X.
      * intros n y _ X. unfold actP in X. rewrite E in X. destruct X.
      * rewrite touch_own by auto. unfold own. simpl. rewrite !upd_same. red. simpl. rewrite !upd_same, Nat.eqb_refl. split; eauto. apply incl_both; auto.
      * rewrite touch_own by auto. simpl. split; [eauto 7 | apply (i_sync s I)].
      * intros u N. apply last_other. auto.
      * intros u n [X|[]]. discriminate.
      * intros u n [X|[]]. discriminate.
    + (* PLk *) destruct (load s (lvP s ++ view s t) k) as [m|] eqn:L; [|discriminate]. injection H as <-. destruct (who m) as [p|] eqn:W.
      * apply (inv_pwait s t v k m); auto. congruence.
      * apply (soft s _ t (mvw m ++ lvP s ++ view s t) (PTop v) [] I); simpl; auto; try (apply incl_refl); try (apply incl_appr, incl_appr, incl_refl); try (rewrite E; auto; fail).
        -- apply incl_appr, incl_appl, incl_refl.
        -- unfold own. simpl. rewrite !upd_same. apply (slot_ok_up s _ t v (view s t)); auto. apply incl_appr, incl_appr, incl_refl.
        -- intros n _ X. unfold actC in X. rewrite E in X. destruct X.
        -- intros n _ X _. unfold actP in *. rewrite E in X. simpl. rewrite !upd_same. apply in_or_app; right; apply in_or_app; auto.
    + (* PWait *) destruct (woke s t) as [w|] eqn:W; [|discriminate]. injection H as <-. apply inv_resume; eauto.
    + (* CLoad *) destruct (load s (view s t) k) as [m|] eqn:L; [|discriminate]. injection H as <-.
      apply (soft s _ t (mvw m ++ view s t) (match who m with None => CLk | Some p => CCas p end) [] I); simpl; auto; try (apply incl_refl); try (apply incl_appr, incl_refl); try (rewrite E; auto; fail); try (destruct (who m); auto; fail).
      * assert (idle_ok (goto s t match who m with Some p => CCas p | None => CLk end (mvw m ++ view s t)) t (mvw m ++ view s t)) as X by (apply (idle_ok_up s _ t (view s t)); auto; apply incl_appr, incl_refl).
        unfold own. simpl. rewrite !upd_same. destruct (who m); auto.
      * intros n _ X _. unfold actC in *. rewrite E in X. simpl. rewrite !upd_same. destruct (who m); apply in_or_app; auto.
      * intros n _ X. unfold actP in X. rewrite E in X. destruct X.
    + (* CCas *) injection H as <-.
      assert (inv (goto s t CLoad (view s t))) as G.
      { apply (soft s _ t (view s t) CLoad [] I); simpl; auto; try (apply incl_refl); try (rewrite E; auto; fail).
        * unfold own. simpl. rewrite !upd_same. apply (idle_ok_up s _ t (view s t)); auto. apply incl_refl.
        * intros n _ X _. unfold actC in *. rewrite E in X. simpl. rewrite !upd_same. auto.
        * intros n _ X. unfold actP in X. rewrite E in X. destruct X. }
      destruct (who (top s)) as [q|] eqn:W; auto. destruct (Nat.eqb_spec q p) as [->|]; auto. apply inv_ccas; auto.
    + (* CNote *) injection H as <-. apply inv_cnote; auto.
    + (* CRead *) destruct (i_hold s I t p) as (_ & _ & v & _ & (SV & _) & _); [rewrite E; auto|]. rewrite SV in H. injection H as <-. apply inv_read; auto.
    + (* CWake *) injection H as <-. apply inv_wake; auto.
    + (* CLk *) destruct (load s (lvC s ++ view s t) k) as [m|] eqn:L; [|discriminate]. injection H as <-. destruct (who m) as [p|] eqn:W.
      * apply (soft s _ t (mvw m ++ lvC s ++ view s t) CLoad [] I); simpl; auto; try (apply incl_refl); try (apply incl_appr, incl_appr, incl_refl); try (rewrite E; auto; fail).
        -- apply incl_appr, incl_appl, incl_refl.
        -- unfold own. simpl. rewrite !upd_same. apply (idle_ok_up s _ t (view s t)); auto. apply incl_appr, incl_appr, incl_refl.
        -- intros n _ X _. unfold actC in *. rewrite E in X. simpl. rewrite !upd_same. apply in_or_app; right; apply in_or_app; auto.
        -- intros n _ X. unfold actP in X. rewrite E in X. destruct X.
      * apply (inv_cwait s t k m); auto.
    + (* CWait *) destruct (woke s t) as [w|] eqn:W; [|discriminate]. injection H as <-. apply inv_resume; auto. exists 0. auto.
Qed.
Lemma reach_inv : forall s, reachable step init_state s -> inv s.
Proof. apply (reachable_inv step inv init_state init_inv). intros. eapply step_inv; eauto. Qed.
