(** C131: a mutex can be destroyed by the fiber that uses it last. *)
From Coq Require Import List Arith Bool Lia.
From Verif Require Import Base MtxLife.
Import ListNotations.

(** Locked the spinlock. *)
Definition holds (p : pc) : bool := match p with PIn | PTIn | PRel _ | PStore _ | PUIn _ => true | _ => false end.
(** Owns the mutex. *)
Definition owns (p : pc) : bool := match p with PRel KHold | PStore KHold | PWake KHold | PHold | PUAcq _ | PUIn _ => true | _ => false end.
(** In try_lock(), having examined owner_. *)
Definition trying (p : pc) : bool := match p with PRel KTry | PStore KTry | PWake KTry | PTRead => true | _ => false end.
(** Has not counted down. *)
Definition before (p : pc) : bool := match p with PUAcq _ | PUIn _ | PRel (KDone _) | PStore (KDone _) | PWake (KDone _) | PDone _ => false | _ => true end.
(** Releases the spinlock at the end of unlock(). *)
Definition ending (p : pc) : bool := match p with PRel (KDone _) | PStore (KDone _) => true | _ => false end.
(** Counted down to 0. *)
Definition last_user (p : pc) : bool := match p with PUAcq true | PUIn true | PRel (KDone true) | PStore (KDone true) | PWake (KDone true) | PDone true => true | _ => false end.
(** Needs the memory of the mutex no more. *)
Definition fin (p : pc) : bool := match p with PWake (KDone false) | PDone false => true | _ => false end.
(** In the wait queue. *)
Definition queued (p : pc) : bool := match p with PSleep | PRel KSleep | PStore KSleep => true | _ => false end.
(** Uses the parts of the futex spinlock. *)
Definition futp (p : pc) : bool := match p with PStore _ | PWake _ => true | _ => false end.

Fixpoint cb (g : nat -> bool) (n : nat) : nat := match n with 0 => 0 | S m => (if g m then 1 else 0) + cb g m end.
Lemma cb_ext : forall g h n, (forall i, i < n -> g i = h i) -> cb g n = cb h n.
Proof. induction n as [|n IH]; intros H; simpl; auto. rewrite H by lia. rewrite IH; auto. Qed.
Lemma cb_upd : forall (p : nat -> pc) f v n, f < n -> cb (fun i => before (upd p f v i)) n + (if before (p f) then 1 else 0) = cb (fun i => before (p i)) n + (if before v then 1 else 0).
Proof.
  induction n as [|n IH]; intros F; [lia|]. simpl. destruct (Nat.eq_dec f n) as [->|N].
  - rewrite upd_same. rewrite (cb_ext (fun i => before (upd p n v i)) (fun i => before (p i))); [destruct (before v), (before (p n)); lia|]. intros i I0. rewrite upd_other by lia. auto.
  - rewrite upd_other by auto. specialize (IH ltac:(lia)). lia.
Qed.
Lemma cb_0 : forall g n, cb g n = 0 -> forall i, i < n -> g i = false.
Proof. induction n as [|n IH]; intros H i I0; [lia|]. simpl in H. destruct (g n) eqn:E; [lia|]. destruct (Nat.eq_dec i n) as [->|N]; auto. apply IH; lia. Qed.
Lemma cb_1 : forall g n f, f < n -> g f = true -> cb g n = 1 -> forall i, i < n -> i <> f -> g i = false.
Proof.
  induction n as [|n IH]; intros f F G H i I0 N; [lia|]. simpl in H. destruct (Nat.eq_dec f n) as [->|NF].
  - rewrite G in H. apply (cb_0 g n); lia.
  - destruct (g n) eqn:E.
    + rewrite (cb_0 g n ltac:(lia) f) in G by lia. discriminate.
    + destruct (Nat.eq_dec i n) as [->|Ni]; auto. apply (IH f); auto; lia.
Qed.
Lemma cb_all : forall n, cb (fun _ => true) n = n.
Proof. induction n; simpl; auto. Qed.

Section P.
Variables (fut : bool) (n : nat).
Definition inv (s : state) : Prop :=
  (forall f, holds (pcs s f) = true -> splk s = Some f) /\
  (forall f, owns (pcs s f) = true -> owner s = Some f) /\
  (forall f, owner s = Some f -> owns (pcs s f) = true \/ trying (pcs s f) = true) /\
  (forall f g, owner s = Some f -> g <> f -> ending (pcs s g) = false) /\
  cnt s = cb (fun i => before (pcs s i)) n /\
  (forall f, last_user (pcs s f) = true -> cnt s = 0 /\ forall g, g < n -> g <> f -> fin (pcs s g) = true) /\
  (dead s = true -> exists f, f < n /\ pcs s f = PDone true) /\
  (NoDup (queue s) /\ forall w, In w (queue s) -> queued (pcs s w) = true) /\
  (forall f, n <= f -> pcs s f = PIdle) /\
  (fut = false -> forall f, futp (pcs s f) = false /\ spw s f = 0) /\
  (Forall (fun a => a = Addr) (bad s) /\ (fut = false -> bad s = [])).

Lemma alive : forall s f, inv s -> f < n -> fin (pcs s f) = false -> (forall l, pcs s f <> PDone l) -> dead s = false.
Proof.
  intros s f (_ & _ & _ & _ & _ & F & G & _) L N D. destruct (dead s) eqn:E; auto. destruct (G eq_refl) as (g & Gn & X).
  destruct (F g) as [_ Y]; [rewrite X; auto|]. destruct (Nat.eq_dec f g) as [->|NE]; [rewrite X in D; destruct (D true eq_refl)|]. rewrite (Y f L NE) in N. discriminate.
Qed.

Lemma inv_move : forall s f p' sp' ow' q' c' spw' bad', inv s -> f < n -> (forall l, pcs s f <> PDone l) ->
  (sp' = splk s \/ splk s = None \/ holds (pcs s f) = true) -> (holds p' = true -> sp' = Some f) ->
  (ow' = owner s \/ (owner s = None /\ ow' = Some f /\ holds (pcs s f) = true) \/ (owner s = Some f /\ ow' = None)) ->
  (owns p' = true -> ow' = Some f) -> (ow' = Some f -> owns p' = true \/ trying p' = true) ->
  (ending p' = true -> ow' = None \/ ending (pcs s f) = true) ->
  c' + (if before (pcs s f) then 1 else 0) = cnt s + (if before p' then 1 else 0) -> (before p' = true -> before (pcs s f) = true) ->
  (last_user p' = true -> last_user (pcs s f) = true \/ (owner s = Some f /\ before (pcs s f) = true /\ before p' = false /\ cnt s = 1)) ->
  (fin (pcs s f) = true -> fin p' = true) ->
  (NoDup q' /\ forall w, In w q' -> queued (upd (pcs s) f p' w) = true) ->
  (fut = false -> futp p' = false /\ forall g, spw' g = 0) ->
  (Forall (fun a => a = Addr) bad' /\ (fut = false -> bad' = [])) ->
  inv (mkS sp' ow' q' c' (upd (pcs s) f p') spw' (dead s) bad').
Proof.
  intros s f p' sp' ow' q' c' spw' bad' (A & B & C & D & E & F & G & H & R & J & K) L ND S1 S2 O1 O2 O3 O4 C1 C2 L1 F1 Q1 J1 K1.
  assert (CE : c' = cb (fun i => before (upd (pcs s) f p' i)) n). { pose proof (cb_upd (pcs s) f p' n L). lia. }
  assert (CL : cnt s = 0 -> c' = 0). { intros Z. destruct (before p') eqn:X; [rewrite (C2 eq_refl) in C1; lia|]. destruct (before (pcs s f)); lia. }
  unfold inv. cbn [splk owner queue cnt pcs spw dead bad]. split; [|split; [|split; [|split; [|split; [|split; [|split; [|split; [|split; [|split]]]]]]]]]; auto.
  - intros g. destruct (Nat.eq_dec g f) as [->|N]; [rewrite upd_same; auto|rewrite upd_other by auto]. intros X. pose proof (A g X). destruct S1 as [S1|[S1|S1]]; [congruence|congruence|]. assert (splk s = Some f) by auto. congruence.
  - intros g. destruct (Nat.eq_dec g f) as [->|N]; [rewrite upd_same; auto|rewrite upd_other by auto]. intros X. specialize (B g X). destruct O1 as [O1|[(O1 & _)|(O1 & _)]]; congruence.
  - intros g X. destruct (Nat.eq_dec g f) as [->|N]; [rewrite upd_same; auto|rewrite upd_other by auto]. destruct O1 as [O1|[(_ & O1 & _)|(_ & O1)]]; [|congruence|congruence]. apply C. congruence.
  - intros g h X N. destruct (Nat.eq_dec h f) as [->|NH]; [rewrite upd_same|rewrite upd_other by auto].
    + destruct (ending p') eqn:EP; auto. destruct (O4 eq_refl) as [O4'|O4']; [congruence|]. destruct O1 as [O1|[(_ & O1 & _)|(_ & O1)]]; [|congruence|congruence]. rewrite (D g f) in O4'; congruence.
    + destruct O1 as [O1|[(_ & O1 & O5)|(_ & O1)]]; [|destruct (ending (pcs s h)) eqn:EP; auto|congruence].
      * apply (D g); congruence.
      * assert (holds (pcs s h) = true) by (destruct (pcs s h); auto; discriminate). assert (splk s = Some h) by auto. assert (splk s = Some f) by auto. congruence.
  - intros g. destruct (Nat.eq_dec g f) as [->|N]; [rewrite upd_same|rewrite upd_other by auto]; intros X.
    + destruct (L1 X) as [Y|(O & Bf & Bp & C0)].
      * destruct (F f Y) as [F2 F3]. split; auto. intros g Gn N. rewrite upd_other by auto. auto.
      * split; [rewrite Bf, Bp in C1; lia|]. intros g Gn N. rewrite upd_other by auto. rewrite C0 in E. symmetry in E. pose proof (cb_1 _ n f L Bf E g Gn N) as NB. cbn beta in NB.
        assert (NO : owns (pcs s g) = false) by (destruct (owns (pcs s g)) eqn:W; auto; specialize (B g W); congruence). pose proof (D f g O N) as NE.
        assert (NL : last_user (pcs s g) = false) by (destruct (last_user (pcs s g)) eqn:W; auto; destruct (F g W) as [Z _]; congruence).
        destruct (pcs s g) as [| | | | |[]|[]|[| | |[]]| | | | | |[]]; try discriminate; auto.
    + destruct (F g X) as [F2 F3]. split; auto. intros h Hn NH. destruct (Nat.eq_dec h f) as [->|NF]; [rewrite upd_same; auto|rewrite upd_other by auto; auto].
  - intros X. destruct (G X) as (g & Gn & Y). exists g. split; auto. rewrite upd_other; auto. intros ->. destruct (ND _ Y).
  - intros g X. rewrite upd_other by lia. auto.
  - intros X g. destruct (J1 X) as [J2 J3]. destruct (Nat.eq_dec g f) as [->|N]; [rewrite upd_same|rewrite upd_other by auto]; split; auto. apply J; auto.
Qed.
Lemma note_word : forall s f, inv s -> f < n -> fin (pcs s f) = false -> (forall l, pcs s f <> PDone l) -> Forall (fun a => a = Addr) (note Word s) /\ (fut = false -> note Word s = []).
Proof. intros s f V L N D. unfold note. rewrite (alive s f) by auto. apply V. Qed.
Lemma same_queue : forall s f p', inv s -> (queued (pcs s f) = true -> queued p' = true) -> NoDup (queue s) /\ forall w, In w (queue s) -> queued (upd (pcs s) f p' w) = true.
Proof.
  intros s f p' (_ & _ & _ & _ & _ & _ & _ & (N & H) & _) Q. split; auto. intros w W. destruct (Nat.eq_dec w f) as [->|X]; [rewrite upd_same; auto|rewrite upd_other by auto; auto].
Qed.

Ltac go P C f := apply inv_move; rewrite ?P; auto; try (intros; discriminate); try (intros X; destruct (C f X) as [Y|Y]; rewrite P in Y; discriminate); try (cbn; lia); try (apply same_queue; auto; rewrite P; auto; intros; discriminate);
  try match goal with W : _ -> _ -> Forall _ _ /\ _ |- Forall _ _ /\ _ => apply W; [reflexivity|intros; discriminate] end.
Lemma inv_step : forall s l s', inv s -> step fut n s l = Some s' -> inv s'.
Proof.
  intros s l s' V H.
  assert (V' := V). destruct V' as (A & B & C & D & E & F & G & (HN & HQ) & R & J & K).
  destruct l as [f c|f|f]; cbn [step] in H.
  - destruct (f <? n) eqn:L; [|discriminate]. apply Nat.ltb_lt in L. unfold run, acquire, goto in H.
    assert (WD : fin (pcs s f) = false -> (forall l, pcs s f <> PDone l) -> Forall (fun a => a = Addr) (note Word s) /\ (fut = false -> note Word s = [])) by (intros; eapply note_word; eauto).
    assert (FU : fut = false -> forall g, spw s g = 0) by (intros X g; apply (J X)).
    pose proof (A f) as Af. pose proof (B f) as Bf. pose proof (C f) as Cf.
    destruct (pcs s f) eqn:P; try discriminate.
    + injection H as <-. apply inv_move; rewrite ?P; auto; try (intros; discriminate); try (destruct c; intros; discriminate); try (intros X; destruct (C f X) as [Y|Y]; rewrite P in Y; discriminate).
      * destruct c; cbn; lia.
      * apply same_queue; auto. rewrite P. intros; discriminate.
      * intros X. split; [destruct c; auto|auto].
    + destruct (splk s) eqn:SP; [discriminate|]. injection H as <-. go P C f.
    + destruct (owner s) as [g|] eqn:O; injection H as <-; go P C f.
      assert (NF : ~ In f (queue s)) by (intros X; specialize (HQ f X); rewrite P in HQ; discriminate). split.
      * clear - HN NF. induction (queue s) as [|x q IH]; cbn; [repeat constructor; auto|]. inversion HN; subst. constructor; [rewrite in_app_iff; cbn in *; intuition|apply IH; auto; cbn in NF; tauto].
      * intros w W. apply in_app_iff in W. destruct (Nat.eq_dec w f) as [->|N]; [rewrite upd_same; auto|rewrite upd_other by auto]. destruct W as [W|[W|[]]]; auto; congruence.
    + destruct (splk s) eqn:SP; [discriminate|]. injection H as <-. go P C f.
    + destruct (owner s) as [g|] eqn:O; injection H as <-; go P C f.
    + destruct (fut && c) eqn:FC; injection H as <-; destruct k; go P C f; intros X; rewrite X in FC; discriminate.
    + assert (FF : fut = false -> False) by (intros X; destruct (J X f) as [Y _]; rewrite P in Y; discriminate). destruct k; injection H as <-; go P C f; intros X; destruct (FF X).
    + assert (FF : fut = false -> False) by (intros X; destruct (J X f) as [Y _]; rewrite P in Y; discriminate).
      assert (NA : Forall (fun a => a = Addr) (note Addr s) /\ (fut = false -> note Addr s = [])) by (unfold note; destruct K as [K1 K2]; split; [destruct (dead s); auto|intros X; destruct (FF X)]).
      injection H as <-; destruct k; go P C f.
    + destruct (owner s) as [g|] eqn:O; [destruct (f =? g) eqn:FG; [apply Nat.eqb_eq in FG; subst g|apply Nat.eqb_neq in FG]|]; injection H as <-; go P C f; intros X; rewrite X in *; congruence.
    + injection H as <-. assert (O : owner s = Some f) by auto. go P C f.
      * assert (X : before (pcs s f) = true) by (rewrite P; auto). pose proof (cb_upd (pcs s) f (PUAcq false) n L) as Y. rewrite X in Y. cbn in *. lia.
      * cbn. intros X. right. splits; auto. destruct (cnt s =? 1) eqn:Z; [apply Nat.eqb_eq in Z; auto|discriminate].
    + destruct (splk s) eqn:SP; [discriminate|]. injection H as <-. go P C f; destruct last; auto.
    + assert (O : owner s = Some f) by auto. assert (SP : splk s = Some f) by auto. destruct (queue s) as [|w q] eqn:Q; injection H as <-.
      * rewrite <- Q at 1. go P C f; try (destruct last; auto; fail).
      * assert (QW : queued (pcs s w) = true) by (apply HQ; left; auto).
        assert (NW : w <> f) by (intros ->; rewrite P in QW; discriminate).
        assert (PW : pcs s w = PSleep). { destruct (holds (pcs s w)) eqn:X; [specialize (A w X); congruence|]. destruct (pcs s w) as [| | | | |[]|[]| | | | | | |]; try discriminate; auto. }
        assert (LW : w < n) by (destruct (le_lt_dec n w) as [X|X]; auto; rewrite (R w X) in PW; discriminate).
        inversion HN as [|? ? NI NQ]; subst.
        assert (V1 : inv (mkS (splk s) (owner s) q (cnt s) (upd (pcs s) w PAcq) (spw s) (dead s) (bad s))).
        { go PW C w. split; auto. intros x X. rewrite upd_other by (intros ->; auto). apply HQ. right. auto. }
        assert (P1 : pcs (mkS (splk s) (owner s) q (cnt s) (upd (pcs s) w PAcq) (spw s) (dead s) (bad s)) f = PUIn last) by (cbn [pcs]; rewrite upd_other by auto; auto).
        set (s1 := mkS (splk s) (owner s) q (cnt s) (upd (pcs s) w PAcq) (spw s) (dead s) (bad s)) in *.
        apply (inv_move s1 f (PRel (KDone last)) (splk s1) None (queue s1) (cnt s1) (spw s1) (note Word s)); rewrite ?P1; auto; try (intros; discriminate).
        -- apply same_queue; auto. rewrite P1. intros; discriminate.
        -- intros X. split; auto. apply FU; auto.
        -- apply WD; [reflexivity|intros; discriminate].
  - destruct (spw s f) as [|k] eqn:SW; [discriminate|]. injection H as <-.
    assert (FF : fut = false -> False) by (intros X; destruct (J X f) as [_ Y]; congruence).
    unfold inv. cbn [splk owner queue cnt pcs spw dead bad]. splits; auto; try (intros X; destruct (FF X)).
    unfold note. destruct K as [K1 _]. destruct (dead s); auto.
  - destruct (pcs s f) as [| | | | | | | | | | | | |[]] eqn:P; try discriminate. destruct (dead s) eqn:DD; [discriminate|]. injection H as <-.
    assert (LF : f < n) by (destruct (le_lt_dec n f) as [X|X]; auto; rewrite (R f X) in P; discriminate).
    unfold inv. cbn [splk owner queue cnt pcs spw dead bad]. splits; auto; try (intros; apply J; auto; fail).
    + intros _. exists f. auto.
    + apply K.
    + apply K.
Qed.
Lemma inv_reach : forall s, reachable (step fut n) (init n) s -> inv s.
Proof.
  apply (reachable_inv (step fut n) inv (init n)); [|intros; eapply inv_step; eauto].
  unfold inv. cbn. splits; auto; try (intros; discriminate); try constructor; try (intros ? []). symmetry. apply cb_all.
Qed.
End P.

(** C131, spinlocks that are released by a store: no access after the destruction, for all numbers of fibers and all schedules. *)
Theorem C131_partial : forall n s, reachable (step false n) (init n) s -> bad s = [].
Proof. intros n s H. apply inv_reach in H. apply H. auto. Qed.
Print Assumptions C131_partial.
(** C131 is false with the futex spinlock: futex_wake() gets the address of the destroyed mutex. *)
Theorem C131_refuted : exists n s, reachable (step true n) (init n) s /\ dead s = true /\ bad s = [Addr].
Proof.
  exists 2. apply (reach_by (step true 2) (init 2) ([Run 0 false; Run 0 false; Run 0 false; Run 0 false; Run 0 false; Run 0 false; Run 0 false; Run 0 true; Run 0 true] ++ [Run 1 false; Run 1 false; Run 1 false; Run 1 false; Run 1 false; Run 1 false; Run 1 false; Run 1 false; Destroy 1; Run 0 false])). vm_compute. splits; auto.
Qed.
Print Assumptions C131_refuted.
(** That is all that can happen: the memory of the destroyed mutex is not accessed. *)
Theorem C131_futex_partial : forall fut n s, reachable (step fut n) (init n) s -> Forall (fun a => a = Addr) (bad s).
Proof. intros fut n s H. apply inv_reach in H. apply H. Qed.
Print Assumptions C131_futex_partial.
(** The assertions of the destructor hold. *)
Theorem C131_destructor_partial : forall fut n s f s', reachable (step fut n) (init n) s -> step fut n s (Destroy f) = Some s' -> owner s = None /\ queue s = [].
Proof.
  intros fut n s f s' H ST. apply inv_reach in H. destruct H as (A & B & C & D & E & F & G & (HN & HQ) & R & J & K). cbn [step] in ST.
  destruct (pcs s f) as [| | | | | | | | | | | | |[]] eqn:P; try discriminate. destruct (F f) as [_ X]; [rewrite P; auto|].
  assert (Y : forall g, pcs s g <> PIdle -> g <> f -> fin (pcs s g) = true) by (intros g N NF; apply X; auto; destruct (le_lt_dec n g) as [Z|Z]; auto; destruct (N (R g Z))).
  split.
  - destruct (owner s) as [g|] eqn:O; auto. exfalso. assert (NF : g <> f) by (intros ->; destruct (C f eq_refl) as [Z|Z]; rewrite P in Z; discriminate).
    specialize (Y g). destruct (C g eq_refl) as [Z|Z]; destruct (pcs s g) as [| | | | |[]|[]|[]| | | | | |]; try discriminate; (assert (false = true) by (apply Y; auto; discriminate); discriminate).
  - destruct (queue s) as [|w q] eqn:Q; auto. exfalso. specialize (HQ w (or_introl eq_refl)). assert (NF : w <> f) by (intros ->; rewrite P in HQ; discriminate).
    specialize (Y w). destruct (pcs s w) as [| | | | |[]|[]|[]| | | | | |]; try discriminate; (assert (false = true) by (apply Y; auto; discriminate); discriminate).
Qed.
Print Assumptions C131_destructor_partial.
(** Three fibers, one of which waits and one of which uses try_lock(); the last one destroys the mutex. *)
Example C131_case : exists s, reachable (step false 3) (init 3) s /\ dead s = true /\ cnt s = 0 /\ pcs s 0 = PDone false /\ pcs s 1 = PDone true /\ pcs s 2 = PDone false.
Proof.
  apply (reach_by (step false 3) (init 3) ([Run 0 false; Run 0 false; Run 0 false; Run 0 false] ++ [Run 1 false; Run 1 false; Run 1 false; Run 1 false] ++ [Run 2 true; Run 2 false; Run 2 false; Run 2 false; Run 2 false] ++ [Run 0 false; Run 0 false; Run 0 false; Run 0 false] ++
    [Run 2 true; Run 2 false; Run 2 false; Run 2 false; Run 2 false; Run 2 false; Run 2 false; Run 2 false; Run 2 false] ++ [Run 1 false; Run 1 false; Run 1 false; Run 1 false; Run 1 false; Run 1 false; Run 1 false; Destroy 1])). vm_compute. splits; auto.
Qed.
(** The mutex can be destroyed with the futex spinlock, too. *)
Example C131_futex_case : exists s, reachable (step true 1) (init 1) s /\ step true 1 s (Destroy 0) <> None.
Proof.
  apply (reach_by (step true 1) (init 1) [Run 0 false; Run 0 false; Run 0 false; Run 0 true; Run 0 true; Run 0 true; Run 0 true; Run 0 true; Run 0 true; Run 0 true; Run 0 true; Run 0 true]). vm_compute. discriminate.
Qed.
