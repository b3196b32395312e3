(** Invariants of the scheduling algorithms. *)
From Coq Require Import List Arith Bool Lia.
From Verif Require Import Base Algo AlgoSpec.
Import ListNotations.

Lemma nodup_snoc (l : list nat) c : NoDup l -> ~ In c l -> NoDup (l ++ [c]).
Proof. intros N H. apply NoDup_rev in N. rewrite <- (rev_involutive (l ++ [c])), rev_app_distr. apply NoDup_rev. simpl. constructor; auto. now rewrite <- in_rev. Qed.
Lemma in_snoc (l : list nat) c x : In x (l ++ [c]) <-> In x l \/ x = c.
Proof. rewrite in_app_iff. simpl. intuition. Qed.

Section Inv.
Variable pinned : nat -> bool.
Variable home : nat -> nat.
Variable kind : nat -> akind.
Variable sched : nat -> nat -> option nat.
Variable cfg : well_configured kind sched.

(** What holds of a context at a place. *)
Definition at_place (s : st) (c : nat) (p : place) : Prop :=
  match p with
  | InQueue a => exists t, owner s a = Some t /\ (pinned c = true -> t = home c) /\
      match kind a with
      | RoundRobin => att s c = Some t
      | SharedWork => pinned c = true
      | Stealing _ _ _ => pinned c = false -> att s c = None
      end
  | InShared => pinned c = false /\ att s c = None
  | InHand t => att s c = Some t
  end.
Definition in_linked (pl : nat -> option place) (c : nat) : Prop := exists a, pl c = Some (InQueue a) /\ is_stealing (kind a) = false.

(** [h] = Some (t, c): thread t holds context c between two parts of its step. *)
Record inv (s : st) (pl : nat -> option place) (h : option (nat * nat)) : Prop := mkInv {
  i_q : forall a c, In c (q s a) <-> pl c = Some (InQueue a);
  i_sh : forall c, In c (shq s) <-> pl c = Some InShared;
  i_hand : forall t c, pl c = Some (InHand t) <-> (exists b, pc s t = SetPush b c) \/ h = Some (t, c);
  i_ready : forall c, ready s c = true <-> pl c <> None;
  i_nd : forall a, NoDup (q s a);
  i_ndsh : NoDup (shq s);
  i_home : forall c, pinned c = true -> att s c = Some (home c);
  i_pl : forall c p, pl c = Some p -> at_place s c p;
  i_linked : forall c, linked s c = true <-> in_linked pl c;
  i_cur : forall t, owner s (cur s t) = Some t;
  i_inst : forall t b, installing s t b -> owner s b = Some t /\ b <> cur s t;
  i_steal : forall t rem n k, pc s t = Steal rem n k -> exists own loc remote, kind (cur s t) = Stealing own loc remote /\ (rem = true -> remote <> []);
  i_log : forall c, awakes (log s) c = picks (log s) c + if ready s c then 1 else 0;
  i_pin : forall t c, In (EPick t (Some c)) (log s) -> pinned c = true -> t = home c
}.

Lemma with_pc_inv s pl h t p : inv s pl h ->
  (forall b c, pc s t <> SetPush b c) -> (forall b c, p <> SetPush b c) ->
  (forall b, installing (with_pc s t p) t b -> installing s t b) ->
  (forall rem n k, p = Steal rem n k -> exists own loc remote, kind (cur s t) = Stealing own loc remote /\ (rem = true -> remote <> [])) ->
  inv (with_pc s t p) pl h.
Proof.
  intros I N1 N2 H1 H2. destruct I. constructor; auto; simpl in *.
  - intros t' c. rewrite i_hand0. split; (intros [[b E]|E]; [left; exists b|now right]).
    + destruct (Nat.eq_dec t' t) as [->|Ne]; updt; auto. now apply N1 in E.
    + destruct (Nat.eq_dec t' t) as [->|Ne]; updt; auto. now apply N2 in E.
  - intros t' b Hi. apply i_inst0. destruct (Nat.eq_dec t' t) as [->|Ne]; auto. unfold installing in Hi. simpl in Hi. now updt.
  - intros t' rem n k E. destruct (Nat.eq_dec t' t) as [->|Ne]; updt; eauto.
Qed.
Lemma with_err_inv s pl h t e : inv s pl h -> (forall b c, pc s t <> SetPush b c) -> inv (with_err s t e) pl h.
Proof.
  intros I N. assert (J : inv (with_pc s t Crashed) pl h).
  { apply with_pc_inv; auto; try discriminate. intros b H. unfold installing in H. simpl in H. now updt. }
  destruct J. constructor; auto.
Qed.

Definition no_push (s : st) (t : nat) : Prop := forall b c, pc s t <> SetPush b c.
Lemma at_place_ext s s' c p : owner s' = owner s -> att s' c = att s c -> at_place s c p -> at_place s' c p.
Proof. intros Eo Ea. destruct p as [a| |t]; simpl; rewrite ?Eo, ?Ea; auto. Qed.

(** The thread in whose hand a context is puts it into a queue ... *)
Lemma put_q s pl t c a att' linked' : inv s pl (Some (t, c)) -> no_push s t -> owner s a = Some t ->
  (forall x, x <> c -> att' x = att s x) -> (forall x, x <> c -> linked' x = linked s x) -> linked' c = negb (is_stealing (kind a)) ->
  (pinned c = true -> att' c = Some (home c)) ->
  let s' := mkSt (upd (q s) a (q s a ++ [c])) (shq s) (cur s) (owner s) att' linked' (ready s) (pc s) (errs s) (log s) in
  at_place s' c (InQueue a) -> inv s' (upd pl c (Some (InQueue a))) None.
Proof.
  intros I Np Ow Ha Hl Lc Hp s' Ap. assert (P : pl c = Some (InHand t)) by (apply (i_hand _ _ _ I); auto).
  destruct I as [Iq Ish Iha Ird Ind Inds Iho Ipl Ili Icu Iin Ist Ilo Ipi]. constructor; simpl; auto.
  - intros a' x. destruct (Nat.eq_dec x c) as [->|Nx]; updt.
    + destruct (Nat.eq_dec a' a) as [->|Na]; updt; [rewrite in_snoc; tauto|]. rewrite Iq, P. split; [discriminate|congruence].
    + rewrite <- Iq. destruct (Nat.eq_dec a' a) as [->|Na]; updt; [rewrite in_snoc; tauto|tauto].
  - intros x. destruct (Nat.eq_dec x c) as [->|Nx]; updt; auto. rewrite Ish, P. split; discriminate.
  - intros t' x. destruct (Nat.eq_dec x c) as [->|Nx]; updt.
    + split; [discriminate|]. intros [[b E]|E]; [|discriminate]. assert (X : pl c = Some (InHand t')) by (apply Iha; eauto). rewrite P in X. injection X as <-. now apply Np in E.
    + rewrite Iha. split; (intros [E|E]; [auto|congruence]).
  - intros x. rewrite Ird. destruct (Nat.eq_dec x c) as [->|Nx]; updt; [rewrite P; split; discriminate|reflexivity].
  - intros a'. destruct (Nat.eq_dec a' a) as [->|Na]; updt; auto. apply nodup_snoc; auto. rewrite Iq, P. discriminate.
  - intros x Hx. destruct (Nat.eq_dec x c) as [->|Nx]; auto. rewrite Ha by auto. auto.
  - intros x p Hx. destruct (Nat.eq_dec x c) as [->|Nx]; updt; [injection Hx as <-; auto|]. apply (at_place_ext s); simpl; auto.
  - intros x. unfold in_linked. destruct (Nat.eq_dec x c) as [->|Nx]; updt.
    + rewrite Lc. split; [intros E; exists a; split; auto; now destruct (is_stealing _)|]. intros (a' & E & E2). injection E as <-. now rewrite E2.
    + rewrite Hl by auto. apply Ili.
Qed.
(** ... or into the shared queue ... *)
Lemma put_sh s pl t c : inv s pl (Some (t, c)) -> no_push s t -> pinned c = false ->
  inv (mkSt (q s) (shq s ++ [c]) (cur s) (owner s) (upd (att s) c None) (linked s) (ready s) (pc s) (errs s) (log s)) (upd pl c (Some InShared)) None.
Proof.
  intros I Np Pn. assert (P : pl c = Some (InHand t)) by (apply (i_hand _ _ _ I); auto).
  destruct I as [Iq Ish Iha Ird Ind Inds Iho Ipl Ili Icu Iin Ist Ilo Ipi]. constructor; simpl; auto.
  - intros a' x. rewrite Iq. destruct (Nat.eq_dec x c) as [->|Nx]; updt; [rewrite P; split; discriminate|reflexivity].
  - intros x. rewrite in_snoc, Ish. destruct (Nat.eq_dec x c) as [->|Nx]; updt; intuition.
  - intros t' x. destruct (Nat.eq_dec x c) as [->|Nx]; updt.
    + split; [discriminate|]. intros [[b E]|E]; [|discriminate]. assert (X : pl c = Some (InHand t')) by (apply Iha; eauto). rewrite P in X. injection X as <-. now apply Np in E.
    + rewrite Iha. split; (intros [E|E]; [auto|congruence]).
  - intros x. rewrite Ird. destruct (Nat.eq_dec x c) as [->|Nx]; updt; [rewrite P; split; discriminate|reflexivity].
  - apply nodup_snoc; auto. rewrite Ish, P. discriminate.
  - intros x Hx. destruct (Nat.eq_dec x c) as [->|Nx]; updt; auto. congruence.
  - intros x p Hx. destruct (Nat.eq_dec x c) as [->|Nx]; updt; [injection Hx as <-; simpl; updt; auto|]. apply (at_place_ext s); simpl; updt; auto.
  - intros x. rewrite Ili. unfold in_linked. destruct (Nat.eq_dec x c) as [->|Nx]; updt; [rewrite P|tauto]. split; intros (a' & E & _); discriminate.
Qed.
(** ... takes one from a queue ... *)
Lemma pop_q s pl t c a l att' linked' : inv s pl None -> q s a = c :: l ->
  (forall x, x <> c -> att' x = att s x) -> (forall x, x <> c -> linked' x = linked s x) -> linked' c = false -> att' c = Some t ->
  (pinned c = true -> t = home c) ->
  inv (mkSt (upd (q s) a l) (shq s) (cur s) (owner s) att' linked' (ready s) (pc s) (errs s) (log s)) (upd pl c (Some (InHand t))) (Some (t, c)).
Proof.
  intros I E Ha Hl Lc Ac Hp. assert (P : pl c = Some (InQueue a)) by (apply (i_q _ _ _ I); rewrite E; now left).
  destruct I as [Iq Ish Iha Ird Ind Inds Iho Ipl Ili Icu Iin Ist Ilo Ipi]. pose proof (Ind a) as Nd. rewrite E in Nd. inversion Nd as [|? ? Nc Nl]; subst. constructor; simpl; auto.
  - intros a' x. destruct (Nat.eq_dec x c) as [->|Nx]; updt.
    + split; [|discriminate]. intros H. exfalso. destruct (Nat.eq_dec a' a) as [->|Na]; updt; auto. apply Iq in H. congruence.
    + rewrite <- Iq. destruct (Nat.eq_dec a' a) as [->|Na]; updt; [rewrite E; simpl|tauto]. split; [auto|]. intros [->|]; tauto.
  - intros x. destruct (Nat.eq_dec x c) as [->|Nx]; updt; auto. rewrite Ish, P. split; discriminate.
  - intros t' x. destruct (Nat.eq_dec x c) as [->|Nx]; updt.
    + split; [intros X; injection X as ->; auto|]. intros [[b X]|X]; [|congruence]. assert (Y : pl c = Some (InHand t')) by (apply Iha; eauto). congruence.
    + rewrite Iha. split; (intros [X|X]; [auto|congruence]).
  - intros x. rewrite Ird. destruct (Nat.eq_dec x c) as [->|Nx]; updt; [rewrite P; split; discriminate|reflexivity].
  - intros a'. destruct (Nat.eq_dec a' a) as [->|Na]; updt; auto.
  - intros x Hx. destruct (Nat.eq_dec x c) as [->|Nx]; [rewrite <- Hp; auto|]. rewrite Ha by auto. auto.
  - intros x p Hx. destruct (Nat.eq_dec x c) as [->|Nx]; updt; [injection Hx as <-; simpl; auto|]. apply (at_place_ext s); simpl; auto.
  - intros x. unfold in_linked. destruct (Nat.eq_dec x c) as [->|Nx]; updt.
    + rewrite Lc. split; [discriminate|]. intros (a' & X & _). discriminate.
    + rewrite Hl by auto. apply Ili.
Qed.
(** ... or from the shared queue. *)
Lemma pop_sh s pl t c l : inv s pl None -> shq s = c :: l ->
  inv (mkSt (q s) l (cur s) (owner s) (upd (att s) c (Some t)) (linked s) (ready s) (pc s) (errs s) (log s)) (upd pl c (Some (InHand t))) (Some (t, c)).
Proof.
  intros I E. assert (P : pl c = Some InShared) by (apply (i_sh _ _ _ I); rewrite E; now left). assert (Ap := i_pl _ _ _ I _ _ P). simpl in Ap. destruct Ap as [Pn _].
  destruct I as [Iq Ish Iha Ird Ind Inds Iho Ipl Ili Icu Iin Ist Ilo Ipi]. rewrite E in Inds. inversion Inds as [|? ? Nc Nl]; subst. constructor; simpl; auto.
  - intros a' x. rewrite Iq. destruct (Nat.eq_dec x c) as [->|Nx]; updt; [rewrite P; split; discriminate|reflexivity].
  - intros x. destruct (Nat.eq_dec x c) as [->|Nx]; updt; [split; [tauto|discriminate]|]. rewrite <- Ish, E. simpl. split; [auto|]. intros [->|]; tauto.
  - intros t' x. destruct (Nat.eq_dec x c) as [->|Nx]; updt.
    + split; [intros X; injection X as ->; auto|]. intros [[b X]|X]; [|congruence]. assert (Y : pl c = Some (InHand t')) by (apply Iha; eauto). congruence.
    + rewrite Iha. split; (intros [X|X]; [auto|congruence]).
  - intros x. rewrite Ird. destruct (Nat.eq_dec x c) as [->|Nx]; updt; [rewrite P; split; discriminate|reflexivity].
  - intros x Hx. destruct (Nat.eq_dec x c) as [->|Nx]; updt; auto. congruence.
  - intros x p Hx. destruct (Nat.eq_dec x c) as [->|Nx]; updt; [injection Hx as <-; simpl; updt; auto|]. apply (at_place_ext s); simpl; updt; auto.
  - intros x. rewrite Ili. unfold in_linked. destruct (Nat.eq_dec x c) as [->|Nx]; updt; [rewrite P|tauto]. split; intros (a' & X & _); discriminate.
Qed.

Lemma hand_linked s pl t c : inv s pl (Some (t, c)) -> linked s c = false /\ att s c = Some t.
Proof.
  intros I. assert (P : pl c = Some (InHand t)) by (apply (i_hand _ _ _ I); auto). split; [|apply (i_pl _ _ _ I _ _ P)].
  destruct (linked s c) eqn:E; auto. apply (i_linked _ _ _ I) in E. destruct E as (a' & E & _). congruence.
Qed.
Lemma awakened_inv s pl t a c : inv s pl (Some (t, c)) -> no_push s t -> owner s a = Some t -> exists pl', inv (awakened pinned kind s t a c) pl' None.
Proof.
  intros I Np Ow. destruct (hand_linked _ _ _ _ I) as [L At]. assert (D : pinned c = false -> can_detach pinned s t c = true) by (intros Pn; unfold can_detach; rewrite At, L, Pn, Nat.eqb_refl; auto).
  assert (Hm : pinned c = true -> t = home c) by (intros Pn; apply (i_home _ _ _ I) in Pn; congruence).
  unfold awakened. destruct (kind a) as [| |own loc remote] eqn:K.
  - rewrite L. eexists. apply (put_q s pl t c a); auto; intros; updt; auto; try (rewrite K; auto); try congruence; [now apply (i_home _ _ _ I)|]. simpl. exists t. rewrite K. auto.
  - destruct (pinned c) eqn:Pn.
    + rewrite L. eexists. apply (put_q s pl t c a); auto; intros; updt; auto; try (rewrite K; auto); try congruence; [now apply (i_home _ _ _ I)|]. simpl. exists t. rewrite K. auto.
    + rewrite D by auto. eexists. apply (put_sh s pl t c); auto.
  - destruct (pinned c) eqn:Pn.
    + eexists. apply (put_q s pl t c a); auto; intros; updt; auto; try (rewrite K; auto); try congruence; [now apply (i_home _ _ _ I)|]. simpl. exists t. rewrite K. splits; auto. congruence.
    + rewrite D by auto. eexists. apply (put_q s pl t c a); auto; intros; updt; auto; try (rewrite K; auto); try congruence. simpl. exists t. rewrite K. splits; auto; [congruence|]. intros; updt; auto.
Qed.
Lemma awakened_errs s pl t a c : inv s pl (Some (t, c)) -> errs (awakened pinned kind s t a c) = errs s.
Proof.
  intros I. destruct (hand_linked _ _ _ _ I) as [L At]. assert (D : pinned c = false -> can_detach pinned s t c = true) by (intros Pn; unfold can_detach; rewrite At, L, Pn, Nat.eqb_refl; auto).
  unfold awakened. destruct (kind a); rewrite ?L; destruct (pinned c) eqn:Pn; rewrite ?D; auto.
Qed.

(** The end of pick_next. *)
Definition pc_ok (s : st) (t : nat) (k : option nat) : Prop := no_push s t /\ match k with Some b => owner s b = Some t /\ b <> cur s t | None => True end.
Lemma finish_some s pl t k c : inv s pl (Some (t, c)) -> pc_ok s t k -> exists pl', inv (finish s t k (Some c)) pl' None.
Proof.
  intros I [Np Ok]. assert (P : pl c = Some (InHand t)) by (apply (i_hand _ _ _ I); auto). assert (Hm : pinned c = true -> t = home c) by (intros Pn; apply (i_home _ _ _ I) in Pn; apply (i_pl _ _ _ I) in P; simpl in P; congruence).
  assert (Uq : forall t' b, pc s t' = SetPush b c -> False). { intros t' b E. assert (X : pl c = Some (InHand t')) by (apply (i_hand _ _ _ I); eauto). rewrite P in X. injection X as <-. now apply Np in E. }
  assert (Rd : ready s c = true) by (apply (i_ready _ _ _ I); congruence).
  destruct I as [Iq Ish Iha Ird Ind Inds Iho Ipl Ili Icu Iin Ist Ilo Ipi]. unfold finish. destruct k as [b|].
  - exists pl. constructor; simpl; auto.
    + intros t' x. rewrite Iha. split.
      * intros [[b' E]|E]; left; [exists b'|exists b]; destruct (Nat.eq_dec t' t) as [->|Nt]; updt; auto; try congruence; now apply Np in E.
      * intros [[b' E]|E]; [|discriminate]. destruct (Nat.eq_dec t' t) as [->|Nt]; updt; eauto. injection E as <- <-. auto.
    + intros t' b' H. unfold installing in H. simpl in H. destruct (Nat.eq_dec t' t) as [->|Nt]; updt; [now subst|]. now apply Iin.
    + intros t' rem n k E. destruct (Nat.eq_dec t' t) as [->|Nt]; updt; [discriminate|eauto].
  - exists (upd pl c None). constructor; simpl; auto.
    + intros a x. rewrite Iq. destruct (Nat.eq_dec x c) as [->|Nx]; updt; [rewrite P; split; discriminate|reflexivity].
    + intros x. rewrite Ish. destruct (Nat.eq_dec x c) as [->|Nx]; updt; [rewrite P; split; discriminate|reflexivity].
    + intros t' x. destruct (Nat.eq_dec x c) as [->|Nx]; updt.
      * split; [discriminate|]. intros [[b E]|E]; [|discriminate]. destruct (Nat.eq_dec t' t) as [->|Nt]; updt; [discriminate|]. now apply Uq in E.
      * rewrite Iha. split; (intros [[b E]|E]; [left; exists b|congruence]); destruct (Nat.eq_dec t' t) as [->|Nt]; updt; auto; try discriminate. now apply Np in E.
    + intros x. destruct (Nat.eq_dec x c) as [->|Nx]; updt; auto. split; [discriminate|congruence].
    + intros x p Hx. destruct (Nat.eq_dec x c) as [->|Nx]; updt; [discriminate|]. apply Ipl in Hx. apply (at_place_ext s); auto.
    + intros x. rewrite Ili. unfold in_linked. destruct (Nat.eq_dec x c) as [->|Nx]; updt; [rewrite P|tauto]. split; intros (a' & E & _); discriminate.
    + intros t' b' H. unfold installing in H. simpl in H. destruct (Nat.eq_dec t' t) as [->|Nt]; updt; [easy|]. now apply Iin.
    + intros t' rem n k E. destruct (Nat.eq_dec t' t) as [->|Nt]; updt; [discriminate|eauto].
    + intros x. rewrite Ilo. destruct (Nat.eqb_spec x c) as [->|Nx]; updt; [rewrite Rd; lia|]. destruct (ready s x); lia.
    + intros t' x [E|E] Px; [injection E as -> ->|]; auto.
Qed.
Lemma finish_none s pl t k : inv s pl None -> pc_ok s t k -> inv (finish s t k None) pl None.
Proof.
  intros I [Np Ok]. unfold finish. destruct k as [b|]; [now apply with_err_inv|].
  assert (J : inv (with_pc s t Idle) pl None). { apply with_pc_inv; auto; try discriminate. intros b H. unfold installing in H. simpl in H. now updt. }
  destruct J. constructor; auto. simpl. intros t' c [E|E]; [discriminate|auto].
Qed.
Lemma attach_finish_inv s pl t k c a l : inv s pl None -> q s a = c :: l -> pinned c = false -> is_stealing (kind a) = true -> pc_ok s t k ->
  exists pl', inv (attach_finish (mkSt (upd (q s) a l) (shq s) (cur s) (owner s) (att s) (linked s) (ready s) (pc s) (errs s) (log s)) t k c) pl' None /\
    errs (attach_finish (mkSt (upd (q s) a l) (shq s) (cur s) (owner s) (att s) (linked s) (ready s) (pc s) (errs s) (log s)) t k c) = errs s.
Proof.
  intros I E Pn Ks Ok. assert (P : pl c = Some (InQueue a)) by (apply (i_q _ _ _ I); rewrite E; now left). assert (Ap := i_pl _ _ _ I _ _ P). simpl in Ap. destruct Ap as (t0 & O & _ & K). destruct (kind a) eqn:Ka; try discriminate. specialize (K Pn).
  assert (L : linked s c = false). { destruct (linked s c) eqn:El; auto. apply (i_linked _ _ _ I) in El. destruct El as (a' & El & X). rewrite P in El. injection El as <-. now rewrite Ka in X. }
  unfold attach_finish, can_attach. simpl. rewrite K, L. simpl. assert (J : inv (mkSt (upd (q s) a l) (shq s) (cur s) (owner s) (upd (att s) c (Some t)) (linked s) (ready s) (pc s) (errs s) (log s)) (upd pl c (Some (InHand t))) (Some (t, c))).
  { apply pop_q; auto; intros; updt; auto. congruence. }
  apply finish_some with (k := k) in J; auto. destruct J as [pl' J]. exists pl'. split; auto. now destruct k.
Qed.
Definition only_null (s' s : st) : Prop := errs s' = errs s \/ errs s' = NullAwakened :: errs s.
Lemma pick_next_inv s pl t k : inv s pl None -> pc_ok s t k -> (forall b, installing (with_pc s t (Steal false 0 k)) t b -> installing s t b) ->
  exists pl', inv (pick_next pinned kind s t (cur s t) k) pl' None /\ only_null (pick_next pinned kind s t (cur s t) k) s.
Proof.
  intros I Ok Hin. unfold pick_next. assert (Oc := i_cur _ _ _ I t). set (a := cur s t) in *.
  assert (Fn : exists pl', inv (finish s t k None) pl' None /\ only_null (finish s t k None) s). { exists pl. split; [now apply finish_none|]. destruct k; [now right|now left]. }
  assert (Pq : forall c l, q s a = c :: l -> kind a = RoundRobin \/ kind a = SharedWork -> exists pl', inv (finish (mkSt (upd (q s) a l) (shq s) (cur s) (owner s) (att s) (upd (linked s) c false) (ready s) (pc s) (errs s) (log s)) t k (Some c)) pl' None /\ only_null (finish (mkSt (upd (q s) a l) (shq s) (cur s) (owner s) (att s) (upd (linked s) c false) (ready s) (pc s) (errs s) (log s)) t k (Some c)) s).
  { intros c l E Kd. assert (P : pl c = Some (InQueue a)) by (apply (i_q _ _ _ I); rewrite E; now left). assert (Ap := i_pl _ _ _ I _ _ P). simpl in Ap. destruct Ap as (t0 & O & Hh & K). assert (t0 = t) by congruence. subst t0.
    assert (J : inv (mkSt (upd (q s) a l) (shq s) (cur s) (owner s) (att s) (upd (linked s) c false) (ready s) (pc s) (errs s) (log s)) (upd pl c (Some (InHand t))) (Some (t, c))).
    { apply pop_q; auto; intros; updt; auto. destruct Kd as [Kd|Kd]; rewrite Kd in K; auto. rewrite (Hh K). now apply (i_home _ _ _ I). }
    apply finish_some with (k := k) in J; auto. destruct J as [pl' J]. exists pl'. split; auto. left. now destruct k. }
  destruct (kind a) as [| |own loc remote] eqn:K.
  - destruct (q s a) as [|c l] eqn:E; auto.
  - destruct (shq s) as [|c l] eqn:Es.
    + destruct (q s a) as [|c l] eqn:E; auto.
    + assert (P : pl c = Some InShared) by (apply (i_sh _ _ _ I); rewrite Es; now left). destruct (i_pl _ _ _ I _ _ P) as [Pn An].
      assert (L : linked s c = false). { destruct (linked s c) eqn:El; auto. apply (i_linked _ _ _ I) in El. destruct El as (a' & El & X). congruence. }
      unfold attach_finish, can_attach. simpl. rewrite An, L. simpl. pose proof (pop_sh s pl t c l I Es) as J. apply finish_some with (k := k) in J; auto. destruct J as [pl' J]. exists pl'. split; auto. left. now destruct k.
  - destruct (q s a) as [|c l] eqn:E.
    + exists pl. split; [|now left]. apply with_pc_inv; auto; try discriminate; [apply Ok|]. fold a. intros rem n k' X. injection X as <- <- <-. exists own, loc, remote. split; auto. discriminate.
    + destruct (pinned c) eqn:Pn.
      * assert (P : pl c = Some (InQueue a)) by (apply (i_q _ _ _ I); rewrite E; now left). assert (Ap := i_pl _ _ _ I _ _ P). simpl in Ap. destruct Ap as (t0 & O & Hh & _). assert (t0 = t) by congruence. subst t0.
        assert (J : inv (mkSt (upd (q s) a l) (shq s) (cur s) (owner s) (att s) (linked s) (ready s) (pc s) (errs s) (log s)) (upd pl c (Some (InHand t))) (Some (t, c))).
        { apply pop_q; auto; intros; updt; auto. - destruct (linked s c) eqn:El; auto. apply (i_linked _ _ _ I) in El. destruct El as (a' & El & X). rewrite P in El. injection El as <-. now rewrite K in X. - rewrite (Hh Pn). now apply (i_home _ _ _ I). }
        apply finish_some with (k := k) in J; auto. destruct J as [pl' J]. exists pl'. split; auto. left. now destruct k.
      * destruct (attach_finish_inv s pl t k c a l I E Pn) as (pl' & J & J2); auto; [now rewrite K|]. exists pl'. split; auto. now left.
Qed.
Lemma pc_ok_inst s pl t k : inv s pl None -> no_push s t -> (forall b, k = Some b -> installing s t b) -> pc_ok s t k.
Proof. intros I Np H. split; auto. destruct k as [b|]; auto. apply (i_inst _ _ _ I). auto. Qed.

Lemma draw_inv s pl t rem n k d s' : inv s pl None -> pc s t = Steal rem n k -> draw pinned kind sched s t rem n k d = Some s' ->
  exists pl', inv s' pl' None /\ only_null s' s.
Proof.
  intros I Epc St. assert (Np : no_push s t) by (intros b c; congruence).
  assert (Ok : pc_ok s t k). { apply (pc_ok_inst s pl); auto. intros b ->. unfold installing. now rewrite Epc. }
  destruct (i_steal _ _ _ I _ _ _ _ Epc) as (own & loc & remote & Kc & Rm). unfold draw in St. rewrite Kc in St. destruct (cfg _ _ _ _ Kc) as (Ln & Nr & Sc).
  set (cpus := if rem then remote else loc) in *. assert (Hin : forall id, In id cpus -> In id (loc ++ remote)) by (intros id H; apply in_or_app; unfold cpus in H; destruct rem; auto).
  assert (Go : forall n', exists pl', inv (with_pc s t (Steal rem n' k)) pl' None /\ only_null (with_pc s t (Steal rem n' k)) s).
  { intros n'. exists pl. split; [|now left]. apply with_pc_inv; auto; try discriminate. - intros b H. unfold installing in *. simpl in H. updt. now rewrite Epc. - intros ? ? ? X. injection X as <- <- <-. eauto. }
  destruct (nth_error cpus d) as [id|] eqn:Ed.
  - apply nth_error_In in Ed. destruct (id =? own) eqn:Eo.
    + apply Nat.eqb_eq in Eo. subst id. destruct rem; [contradiction|]. injection St as <-. auto.
    + destruct (Sc id (Hin _ Ed)) as (v & Sv & Kv). rewrite Sv in St. unfold steal in St.
      assert (Nn : exists pl', inv (finish s t k None) pl' None /\ only_null (finish s t k None) s). { exists pl. split; [now apply finish_none|]. destruct k; [now right|now left]. }
      assert (Em : match (if S n <? length cpus then Some (with_pc s t (Steal rem (S n) k)) else if negb rem && negb (length remote =? 0) then Some (with_pc s t (Steal true 0 k)) else Some (finish s t k None)) with Some s' => exists pl', inv s' pl' None /\ only_null s' s | None => True end).
      { destruct (S n <? length cpus); auto. destruct (negb rem && negb (length remote =? 0)) eqn:El; auto. exists pl. split; [|now left]. apply with_pc_inv; auto; try discriminate.
        - intros b H. unfold installing in *. simpl in H. updt. now rewrite Epc.
        - intros ? ? ? X. injection X as <- <- <-. exists own, loc, remote. split; auto. intros _ Y. rewrite Y in El. destruct rem; discriminate. }
      destruct (q s v) as [|c l] eqn:Eq; [rewrite St in Em; exact Em|]. destruct (pinned c) eqn:Pn; [rewrite St in Em; exact Em|]. rewrite Pn in St. injection St as <-.
      destruct (attach_finish_inv s pl t k c v l) as (pl' & J & J2); auto. exists pl'. split; auto. now left.
  - destruct cpus eqn:Ec; [|discriminate]. exfalso. unfold cpus in Ec. destruct rem; subst; auto. now apply Rm.
Qed.

Lemma inv_step s pl l s' : inv s pl None -> step pinned kind sched s l = Some s' -> exists pl', inv s' pl' None /\ only_null s' s.
Proof.
  intros I St. destruct l as [t c|t c|t|t d|t b|t]; simpl in St; destruct (pc s t) as [|rem n k|b'|b'|b' c'|] eqn:Epc; try discriminate.
  - destruct (att s c) eqn:At; [discriminate|]. destruct (pinned c || ready s c) eqn:B; [discriminate|]. injection St as <-. apply orb_false_iff in B. destruct B as [Pn Rd].
    assert (P : pl c = None). { destruct (pl c) eqn:E; auto. assert (ready s c = true) by (apply (i_ready _ _ _ I); congruence). congruence. }
    exists pl. split; [|now left]. destruct I. constructor; simpl; auto.
    + intros x Hx. destruct (Nat.eq_dec x c) as [->|Nx]; updt; auto. congruence.
    + intros x p Hx. apply (at_place_ext s); simpl; auto. destruct (Nat.eq_dec x c) as [->|Nx]; updt; auto. congruence.
  - destruct (att s c) as [t'|] eqn:At; [|discriminate]. destruct (Nat.eqb_spec t t') as [<-|]; [|discriminate]. destruct (ready s c) eqn:Rd; [discriminate|]. injection St as <-.
    assert (P : pl c = None). { destruct (pl c) eqn:E; auto. assert (ready s c = true) by (apply (i_ready _ _ _ I); congruence). congruence. }
    set (s0 := with_log (with_ready s c true) (EAwake t c)). assert (J : inv s0 (upd pl c (Some (InHand t))) (Some (t, c))).
    { destruct I as [Iq Ish Iha Ird Ind Inds Iho Ipl Ili Icu Iin Ist Ilo Ipi]. constructor; simpl; auto.
      - intros a x. rewrite Iq. destruct (Nat.eq_dec x c) as [->|Nx]; updt; [rewrite P; split; discriminate|reflexivity].
      - intros x. rewrite Ish. destruct (Nat.eq_dec x c) as [->|Nx]; updt; [rewrite P; split; discriminate|reflexivity].
      - intros t' x. destruct (Nat.eq_dec x c) as [->|Nx]; updt.
        + split; [intros X; injection X as ->; auto|]. intros [[b X]|X]; [|congruence]. assert (Y : pl c = Some (InHand t')) by (apply Iha; eauto). congruence.
        + rewrite Iha. split; (intros [X|X]; [auto|congruence]).
      - intros x. destruct (Nat.eq_dec x c) as [->|Nx]; updt; auto. split; [discriminate|auto].
      - intros x p Hx. destruct (Nat.eq_dec x c) as [->|Nx]; updt; [injection Hx as <-; auto|]. apply Ipl in Hx. apply (at_place_ext s); auto.
      - intros x. rewrite Ili. unfold in_linked. destruct (Nat.eq_dec x c) as [->|Nx]; updt; [rewrite P|tauto]. split; intros (a' & X & _); discriminate.
      - intros x. rewrite Ilo. destruct (Nat.eqb_spec x c) as [->|Nx]; updt; [rewrite Rd|]; lia.
      - intros t' x [X|X]; [discriminate|eauto]. }
    destruct (awakened_inv s0 _ t (cur s t) c J) as [pl' K]; [intros b x; simpl; congruence|apply (i_cur _ _ _ I)|]. exists pl'. split; auto. left. unfold s0 in *. now rewrite (awakened_errs _ _ _ _ _ J).
  - injection St as <-. apply (pick_next_inv s pl t None); auto. + apply (pc_ok_inst s pl); auto; [intros b c; congruence|discriminate]. + intros b H. unfold installing in H. simpl in H. updt. easy.
  - apply (draw_inv s pl t rem n k d); auto.
  - destruct (owner s b) eqn:Ob; [discriminate|]. injection St as <-. exists pl. split; [|now left]. destruct I as [Iq Ish Iha Ird Ind Inds Iho Ipl Ili Icu Iin Ist Ilo Ipi].
    assert (Kp : forall a t0, owner s a = Some t0 -> upd (owner s) b (Some t) a = Some t0) by (intros a t0 H; destruct (Nat.eq_dec a b) as [->|]; updt; congruence).
    constructor; simpl; auto.
    + intros t' x. rewrite Iha. split; (intros [[b' E]|E]; [left; exists b'|congruence]); destruct (Nat.eq_dec t' t) as [->|Nt]; updt; auto; congruence.
    + intros x p Hx. specialize (Ipl x p Hx). destruct p as [a| |t']; auto. destruct Ipl as (t0 & O & R). exists t0. split; [apply Kp; auto|auto].
    + intros t' b' H. unfold installing in H. simpl in H. destruct (Nat.eq_dec t' t) as [->|Nt]; updt.
      * subst b'. updt. split; auto. intros ->. rewrite Icu in Ob. discriminate.
      * destruct (Iin t' b' H) as [H1 H2]. split; auto.
    + intros t' rem n k E. destruct (Nat.eq_dec t' t) as [->|Nt]; updt; [discriminate|eauto].
    + intros t' x [X|X]; [discriminate|eauto].
  - assert (In1 : installing s t b') by (unfold installing; now rewrite Epc). destruct (i_inst _ _ _ I _ _ In1) as [Ob Nb]. exists pl. destruct (has_ready kind s (cur s t)); injection St as <-; (split; [|now left]).
    + apply with_pc_inv; auto; try discriminate; [intros b c; congruence|]. intros b H. unfold installing in *. simpl in H. updt. now rewrite Epc.
    + destruct I as [Iq Ish Iha Ird Ind Inds Iho Ipl Ili Icu Iin Ist Ilo Ipi]. constructor; simpl; auto.
      * intros t' x. rewrite Iha. split; (intros [[b E]|E]; [left; exists b|congruence]); destruct (Nat.eq_dec t' t) as [->|Nt]; updt; auto; congruence.
      * intros t'. destruct (Nat.eq_dec t' t) as [->|Nt]; updt; auto.
      * intros t' b H. unfold installing in H. simpl in H. destruct (Nat.eq_dec t' t) as [->|Nt]; updt; [easy|]. now apply Iin.
      * intros t' rem n k E. destruct (Nat.eq_dec t' t) as [->|Nt]; updt; [discriminate|eauto].
      * intros t' x [X|X]; [discriminate|eauto].
  - injection St as <-. assert (In1 : installing s t b') by (unfold installing; now rewrite Epc). apply (pick_next_inv s pl t (Some b')); auto.
    + apply (pc_ok_inst s pl); auto; [intros b c; congruence|]. intros b X. now injection X as <-.
    + intros b H. unfold installing in H. simpl in H. updt. now subst.
  - injection St as <-. assert (In1 : installing s t b') by (unfold installing; now rewrite Epc). destruct (i_inst _ _ _ I _ _ In1) as [Ob Nb]. assert (P : pl c' = Some (InHand t)) by (apply (i_hand _ _ _ I); eauto).
    assert (J : inv (with_pc s t (SetTest b')) pl (Some (t, c'))).
    { destruct I as [Iq Ish Iha Ird Ind Inds Iho Ipl Ili Icu Iin Ist Ilo Ipi]. constructor; simpl; auto.
      - intros t' x. rewrite Iha. split.
        + intros [[b E]|E]; [|discriminate]. destruct (Nat.eq_dec t' t) as [->|Nt]; updt; eauto. rewrite Epc in E. injection E as <- <-. auto.
        + intros [[b E]|E]; [|injection E as <- <-; eauto]. destruct (Nat.eq_dec t' t) as [->|Nt]; updt; eauto. discriminate.
      - intros t' b H. unfold installing in H. simpl in H. destruct (Nat.eq_dec t' t) as [->|Nt]; updt; [subst; auto|]. now apply Iin.
      - intros t' rem n k E. destruct (Nat.eq_dec t' t) as [->|Nt]; updt; [discriminate|eauto]. }
    destruct (awakened_inv _ _ t b' c' J) as [pl' K]; auto; [intros b c; simpl; updt; discriminate|]. exists pl'. split; auto. left. now rewrite (awakened_errs _ _ _ _ _ J).
Qed.

Lemma inv_init cur0 owner0 : well_started cur0 owner0 -> inv (init_state pinned home cur0 owner0) (fun _ => None) None.
Proof.
  intros W. constructor; simpl; auto; try discriminate; try easy; try (intros; now constructor).
  - split; [discriminate|]. intros [[b E]|E]; discriminate.
  - intros c Hc. now rewrite Hc.
  - intros c. split; [discriminate|]. intros (a & E & _). discriminate.
Qed.
Lemma inv_reach cur0 owner0 s : well_started cur0 owner0 -> reachable (step pinned kind sched) (init_state pinned home cur0 owner0) s -> (exists pl, inv s pl None) /\ forall e, In e (errs s) -> e = NullAwakened.
Proof.
  intros W R. revert s R. apply reachable_inv.
  - split; [eexists; now apply inv_init|]. intros e [].
  - intros s l s' [[pl I] E] St. destruct (inv_step s pl l s' I St) as (pl' & I' & [X|X]); (split; [eauto|]); rewrite X; auto. intros e [<-|H]; auto.
Qed.
End Inv.
