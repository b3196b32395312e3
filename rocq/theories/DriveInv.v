(** The invariant of Drive.v is preserved. *)
From Coq Require Import List Arith Bool Lia.
From Verif Require Import Base Algo AlgoSpec Drive DriveAlgo DriveProofs.
Import ListNotations.

Lemma pinned_main t : pinned (mainc t) = true.
Proof. unfold pinned, mainc. now rewrite Nat.mul_comm, Nat.mod_mul by lia. Qed.
Lemma pinned_disp t : pinned (disp t) = true.
Proof. unfold pinned, disp. now rewrite Nat.add_comm, Nat.mul_comm, Nat.mod_add by lia. Qed.
Lemma pinned_fiber k : pinned (fiber k) = false.
Proof. unfold pinned, fiber. now rewrite Nat.add_comm, Nat.mul_comm, Nat.mod_add by lia. Qed.
Lemma home_main t : home (mainc t) = t.
Proof. unfold home, mainc. now rewrite Nat.mul_comm, Nat.div_mul by lia. Qed.
Lemma home_disp t : home (disp t) = t.
Proof. unfold home, disp. symmetry. apply (Nat.div_unique _ _ _ 1); lia. Qed.
Lemma main_disp t : mainc t <> disp t. Proof. unfold mainc, disp. lia. Qed.
Lemma unpinned c : pinned c = false -> exists k, c = fiber k.
Proof.
  unfold pinned, fiber. intros H. apply negb_false_iff, Nat.eqb_eq in H. exists (c / 3). pose proof (Nat.div_mod c 3 ltac:(lia)). lia.
Qed.

(** The contexts a thread has in its hands. *)
Definition holds (t : nat) (m : mode_t) : list nat :=
  match m with
  | Off => [mainc t; disp t] | Run c => [c] | Drain l => disp t :: l
  | Picking (KYield c) => [c] | Picking KBlock => [] | Picking KDisp => [disp t]
  | Post n p => [n; p] | Null => [] | Gone => [disp t]
  end.
Definition is_gone (m : mode_t) : bool := match m with Gone => true | _ => false end.

Section Inv.
Variable kind : nat -> akind.
Variable sched : nat -> nat -> option nat.
Variable cfg : well_configured kind sched.
Notation good := (good pinned home kind sched).
Notation dstep := (dstep kind sched).

Definition core_of (s : dst) : core := mkCore (att (al s)) (ready (al s)) (bl s) (dead s) (rem s) (fun t => holds t (mode s t)) (started s) (born s) (fun t => is_gone (mode s t)).
(** The same with the hand of thread t replaced. *)
Definition core_but (s : dst) (t : nat) (L : list nat) : core := mkCore (att (al s)) (ready (al s)) (bl s) (dead s) (rem s) (upd (fun u => holds u (mode s u)) t L) (started s) (born s) (fun u => is_gone (mode s u)).

Record DInv (s : dst) : Prop := mkDI {
  d_good : good (al s);
  d_core : CI kind (core_of s);
  d_pc : forall t, match mode s t with Picking k => k = KDisp /\ exists r n, pc (al s) t = Steal r n None | _ => pc (al s) t = Idle end;
  d_null : forall t, mode s t <> Null;
  d_disp : forall t, mode s t <> Gone -> In (disp t) (holds t (mode s t)) \/ ready (al s) (disp t) = true
}.

Lemma dinv_init : DInv dinit.
Proof.
  constructor; simpl; auto; try discriminate.
  - apply good_init.
  - constructor; simpl; try discriminate; auto.
    + intros t c [[<-|[<-|[]]]|[]]; [rewrite pinned_main, home_main|rewrite pinned_disp, home_disp]; auto.
    + intros t. constructor; [|constructor; [easy|constructor]]. intros [E|[]]. now apply (main_disp t).
    + intros k. rewrite pinned_fiber. intros [X|[X|X]]; congruence.
    + easy.
Qed.

Ltac ext := eapply CI_ext; [eassumption|..]; simpl; auto; try (intros; upds; auto; fail).

(** pick_next() has been called and has come to a result, or goes on searching. *)
Lemma pick_result s t k L Z a' : good (al s) -> CI kind (core_but s t L) -> L = match k with KYield c => [c] | KBlock => [] | KDisp => [disp t] end ->
  (forall u, u <> t -> match mode s u with Picking k => k = KDisp /\ exists r n, pc (al s) u = Steal r n None | _ => pc (al s) u = Idle end) ->
  (forall u, mode s u <> Null) -> (forall u, u <> t -> mode s u <> Gone -> In (disp u) (holds u (mode s u)) \/ ready (al s) (disp u) = true) ->
  is_gone (mode s t) = false -> pick_eff pinned home kind sched Z (al s) t a' ->
  (k <> KDisp -> ~ Z /\ (In (disp t) L \/ ready (al s) (disp t) = true)) ->
  DInv (picked (with_al s a') t k).
Proof.
  intros G C EL Pc Nu Di Go PE Kk. unfold picked. cbn [al with_al].
  assert (Oth : forall u x, u <> t -> In (disp u) x \/ ready (al s) (disp u) = true -> forall n, ready (al s) n = true -> (n = disp u -> False) -> In (disp u) x \/ upd (ready (al s)) n false (disp u) = true).
  { intros u x N [X|X] n Rn F; auto. right. rewrite upd_other; auto. }
  destruct PE as [n G' P' Lg Rn Rd At Po An|G' P' Lg Hz Rd At Po|r m G' P' Hz Rd At Po].
  - rewrite P', Lg.
    assert (Dn : forall u, n = disp u -> u = t). { intros u ->. pose proof (pinned_att _ _ _ _ cfg _ _ G (pinned_disp u)) as X. rewrite home_disp in X. destruct An; congruence. }
    set (L' := match k with KYield c => [n; c] | KBlock => [n] | KDisp => [n; disp t] end).
    assert (NL : ~ In n L). { intros I. destruct (k_hold _ _ C t n) as (_ & X & _); [left; simpl; now rewrite upd_same|]. simpl in X. congruence. }
    assert (Iff : forall y, In y L' <-> In y L \/ y = n). { subst L L'. destruct k; simpl; intuition congruence. }
    assert (C' : CI kind (mkCore (att a') (upd (ready (al s)) n false) (bl s) (dead s) (rem s) (upd (upd (fun u => holds u (mode s u)) t L) t L') (started s) (born s) (fun u => is_gone (mode s u)))).
    { apply (op_take kind (core_but s t L) t n L' (att a') C); simpl; auto.
      - pose proof (k_nd _ _ C t) as N. simpl in N. rewrite upd_same in N. subst L L'. destruct k; simpl in *; repeat constructor; simpl; tauto.
      - intros y. rewrite upd_same. apply Iff. }
    assert (Dt : In (disp t) L' \/ upd (ready (al s)) n false (disp t) = true).
    { destruct (Nat.eq_dec n (disp t)) as [E|E]; [left; apply Iff; auto|]. rewrite upd_other by auto. destruct k.
      - destruct Kk as (_ & [X|X]); [discriminate| |auto]. left. apply Iff. auto.
      - destruct Kk as (_ & [X|X]); [discriminate| |auto]. left. apply Iff. auto.
      - left. apply Iff. left. subst L. now left. }
    assert (Fin : forall m, holds t m = L' -> is_gone m = false -> m <> Null -> (forall k, m <> Picking k) -> DInv (with_mode (with_al s a') t m)).
    { intros m Hh Hg Hn Hk. constructor; simpl; auto.
      - eapply CI_ext; [exact C'|..]; simpl; auto; intros u; rewrite ?Rd, ?At; upds; auto; simpl; congruence.
      - intros u. destruct (Nat.eq_dec u t) as [->|N]; updt.
        + destruct m; auto. now destruct (Hk k0).
        + rewrite (Po u N). now apply Pc.
      - intros u. upds; auto.
      - intros u Hu. destruct (Nat.eq_dec u t) as [->|N]; updt.
        + rewrite Hh, Rd. exact Dt.
        + rewrite Rd. apply (Oth u); auto. }
    destruct k; apply Fin; auto; discriminate.
  - rewrite P', Lg. destruct k as [c| |]; [now destruct Kk; [discriminate|]|now destruct Kk; [discriminate|]|].
    constructor; simpl; auto.
    + eapply CI_ext; [exact C|..]; simpl; auto; intros u; rewrite ?Rd, ?At; upds; auto; simpl; congruence.
    + intros u. destruct (Nat.eq_dec u t) as [->|N]; updt; auto. rewrite (Po u N). now apply Pc.
    + intros u. upds; [discriminate|auto].
    + intros u Hu. destruct (Nat.eq_dec u t) as [->|N]; updt; [left; now left|]. rewrite Rd. auto.
  - rewrite P'. destruct k as [c| |]; [now destruct Kk; [discriminate|]|now destruct Kk; [discriminate|]|].
    constructor; simpl; auto.
    + eapply CI_ext; [exact C|..]; simpl; auto; intros u; rewrite ?Rd, ?At; upds; auto; simpl; congruence.
    + intros u. destruct (Nat.eq_dec u t) as [->|N]; updt; eauto. rewrite (Po u N). now apply Pc.
    + intros u. upds; [discriminate|auto].
    + intros u Hu. destruct (Nat.eq_dec u t) as [->|N]; updt; [left; now left|]. rewrite Rd. auto.
Qed.

(** A held context is made ready, the thread goes on in mode m. *)
Lemma release_result s t c m a' : DInv s -> Algo.step pinned kind sched (al s) (Awake t c) = Some a' ->
  In c (holds t (mode s t)) -> NoDup (holds t m) -> (forall y, In y (holds t m) <-> In y (holds t (mode s t)) /\ y <> c) ->
  is_gone m = is_gone (mode s t) -> m <> Null -> (forall k, m <> Picking k) -> DInv (with_mode (with_al s a') t m).
Proof.
  intros [G C Pc Nu Di] E Ic ND Iff Hg Hn Hk. destruct (awake_step _ _ _ _ cfg _ _ _ _ G E) as [G' Rd Po Ao Ac Ar (P0 & A0 & R0)].
  assert (C' := op_release kind (core_of s) t c (holds t m) (att a') C Ic ND Iff Ao). simpl in C'.
  constructor; simpl; auto.
  - eapply CI_ext; [apply C'; auto; tauto|..]; simpl; auto; intros u; rewrite ?Rd, ?At; upds; auto; simpl; congruence.
  - intros u. rewrite Po. destruct (Nat.eq_dec u t) as [->|N]; updt; [|apply Pc]. destruct m; auto. now destruct (Hk k).
  - intros u. upds; auto.
  - intros u Hu. rewrite Rd. destruct (Nat.eq_dec (disp u) c) as [X|X]; [rewrite X, upd_same; auto|]. rewrite (upd_other (ready (al s))) by auto.
    destruct (Nat.eq_dec u t) as [->|N]; updt; [|auto]. assert (Hu2 : mode s t <> Gone) by (intros X2; rewrite X2 in Hg; destruct m; simpl in Hg; congruence).
    destruct (Di t Hu2) as [Y|Y]; auto. left. apply Iff. auto.
Qed.
(** A blocked context is made ready by its own thread. *)
Lemma local_result s t c a' : DInv s -> bl s c = true -> Algo.step pinned kind sched (al s) (Awake t c) = Some a' ->
  DInv (mkD a' (mode s) (upd (bl s) c false) (rem s) (down s) (started s) (born s) (dead s)).
Proof.
  intros [G C Pc Nu Di] B E. destruct (awake_step _ _ _ _ cfg _ _ _ _ G E) as [G' Rd Po Ao Ac Ar (P0 & A0 & R0)].
  constructor; simpl; auto.
  - eapply CI_ext; [apply (op_local kind (core_of s) t c (att a') C B A0 Ao); auto; tauto|..]; simpl; auto.
  - intros u. rewrite Po. apply Pc.
  - intros u Hu. rewrite Rd. destruct (Nat.eq_dec (disp u) c) as [X|X]; [rewrite X, upd_same; auto|]. rewrite upd_other by auto. auto.
Qed.
(** A new worker context is in the hands of its creator. *)
Lemma new_result s t k c a' m : DInv s -> mode s t = Run c -> ~ In k (started s) -> Algo.step pinned kind sched (al s) (Start t (fiber k)) = Some a' -> holds t m = [fiber k; c] -> is_gone m = false -> m <> Null -> (forall k, m <> Picking k) ->
  DInv (with_mode (mkD a' (mode s) (bl s) (rem s) (down s) (k :: started s) (upd (born s) k t) (dead s)) t m).
Proof.
  intros [G C Pc Nu Di] M Nk E Hm Hg Hn Hk. destruct (start_step _ _ _ _ _ _ _ _ G E) as [G' Rd Po At (P0 & A0 & R0 & Q0)].
  constructor; simpl; auto.
  - eapply CI_ext; [apply (op_new kind (core_of s) t k C Nk)|..]; simpl; auto; rewrite ?M; simpl; auto.
    + constructor; [|constructor; [easy|constructor]]. intros [X|[]]. destruct (k_hold _ _ C t (fiber k)) as (Y & _); [left; simpl; rewrite M; now left|]. simpl in Y. congruence.
    + intros u. upds; auto.
    + intros u. upds; auto. now rewrite M.
  - intros u. rewrite Po. destruct (Nat.eq_dec u t) as [->|N]; updt; [|apply Pc]. specialize (Pc t). rewrite M in Pc. destruct m; auto. now destruct (Hk k0).
  - intros u. upds; auto.
  - intros u Hu. rewrite Rd. destruct (Nat.eq_dec u t) as [->|N]; updt; [|auto]. destruct (Di t) as [X|X]; [congruence| |auto]. left. rewrite Hm. rewrite M in X. simpl in *. tauto.
Qed.

(** The active context c of thread t leaves and pick_next() is called. *)
Lemma leave_result s t c b d dn s' : DInv s -> mode s t = Run c -> c <> disp t -> (b = true -> d = false) -> (b = true \/ d = true \/ pinned c = true) ->
  call_pick kind sched (mkD (al s) (mode s) (upd (bl s) c b) (rem s) dn (started s) (born s) (upd (dead s) c d)) t KBlock = Some s' -> DInv s'.
Proof.
  intros [G C Pc Nu Di] M Nd Bd Hp E. unfold call_pick in E. cbn [al] in E. destruct (Algo.step _ _ _ (al s) (Pick t)) as [a'|] eqn:Ea; [|discriminate]. injection E as <-.
  assert (Rd : ready (al s) (disp t) = true). { destruct (Di t) as [X|X]; auto; [congruence|]. rewrite M in X. simpl in X. intuition congruence. }
  pose proof (op_leave kind (core_of s) t c [] b d C) as C'. simpl in C'. rewrite M in C'. simpl in C'.
  eapply (pick_result (mkD (al s) (mode s) (upd (bl s) c b) (rem s) dn (started s) (born s) (upd (dead s) c d)) t KBlock [] (q (al s) t = []) a'); simpl; eauto.
  - unfold core_but. simpl. apply C'; auto; [constructor|]. intros y. intuition.
  - intros u N. apply Pc.
  - now rewrite M.
  - now apply (pick_step _ _ _ _ cfg).
  - intros _. split; auto. pose proof (pinned_ready _ _ _ _ cfg _ _ G (pinned_disp t) Rd) as X. rewrite home_disp in X. destruct (q (al s) t); [easy|discriminate].
Qed.

Lemma dinv_step s l s' : DInv s -> dstep s l = Some s' -> DInv s'.
Proof.
  intros I H. assert (I' := I). destruct I' as [G C Pc Nu Di]. destruct l as [t|t k|t k|t|t|t|t c|t|t|t|t|t d]; cbn [Drive.dstep] in H.
  - destruct (mode s t) eqn:M; try discriminate. unfold call_awake in H. cbn [al with_mode] in H. destruct (Algo.step _ _ _ _ _) as [a'|] eqn:E; [|discriminate]. injection H as <-.
    apply (release_result s t (disp t) (Run (mainc t)) a' I E); rewrite ?M; simpl; auto; try discriminate.
    + constructor; [easy|constructor].
    + intros y. pose proof (main_disp t). intuition congruence.
  - destruct (mode s t) eqn:M; try discriminate. destruct (Nat.eqb_spec c (disp t)); [discriminate|]. destruct (existsb (Nat.eqb k) (started s)) eqn:X; [discriminate|]. cbn [orb] in H.
    assert (Nk : ~ In k (started s)). { intros F. assert (existsb (Nat.eqb k) (started s) = true); [|congruence]. apply existsb_exists. exists k. now rewrite Nat.eqb_refl. }
    destruct (Algo.step _ _ _ (al s) (Start t (fiber k))) as [a|] eqn:Es; [|discriminate]. unfold call_awake in H. cbn [al] in H. destruct (Algo.step _ _ _ a _) as [a'|] eqn:E; [|discriminate]. injection H as <-.
    assert (I1 := new_result s t k c a (Post (fiber k) c) I M Nk Es eq_refl eq_refl ltac:(discriminate) ltac:(discriminate)).
    assert (Nc : fiber k <> c). { pose proof (k_nd _ _ (d_core _ I1) t) as N. simpl in N. rewrite upd_same in N. simpl in N. inversion N as [|? ? N1 N2]. intros Ex. apply N1. left. congruence. }
    assert (I2 := release_result _ t (fiber k) (Run c) a' I1 E). simpl in I2. rewrite upd_same in I2. simpl in I2.
    assert (I3 : DInv (with_mode (with_al (with_mode (mkD a (mode s) (bl s) (rem s) (down s) (k :: started s) (upd (born s) k t) (dead s)) t (Post (fiber k) c)) a') t (Run c))).
    { apply I2; auto; try discriminate; [constructor; [easy|constructor]|]. intros y. intuition congruence. }
    clear - I3 M. destruct I3 as [G C Pc Nu Di]. simpl in *.
    assert (Em : forall u, upd (upd (mode s) t (Post (fiber k) c)) t (Run c) u = mode s u) by (intros u; upds; auto).
    constructor; simpl; auto.
    + eapply CI_ext; [exact C|..]; simpl; auto; intros u; now rewrite Em.
    + intros u. specialize (Pc u). now rewrite Em in Pc.
    + intros u. specialize (Nu u). now rewrite Em in Nu.
    + intros u. specialize (Di u). now rewrite Em in Di.
  - destruct (mode s t) eqn:M; try discriminate. destruct (Nat.eqb_spec c (disp t)); [discriminate|]. destruct (existsb (Nat.eqb k) (started s)) eqn:X; [discriminate|]. cbn [orb] in H.
    assert (Nk : ~ In k (started s)). { intros F. assert (existsb (Nat.eqb k) (started s) = true); [|congruence]. apply existsb_exists. exists k. now rewrite Nat.eqb_refl. }
    destruct (Algo.step _ _ _ (al s) (Start t (fiber k))) as [a|] eqn:Es; [|discriminate]. injection H as <-.
    apply (new_result s t k c a (Post (fiber k) c) I M Nk Es); auto; discriminate.
  - destruct (mode s t) eqn:M; try discriminate. destruct (Nat.eqb_spec c (disp t)) as [|Nd]; [discriminate|].
    unfold call_pick in H. destruct (Algo.step _ _ _ (al s) (Pick t)) as [a'|] eqn:Ea; [|discriminate]. injection H as <-.
    assert (Rd : ready (al s) (disp t) = true). { destruct (Di t) as [X|X]; auto; [congruence|]. rewrite M in X. simpl in X. intuition congruence. }
    eapply (pick_result s t (KYield c) [c] (q (al s) t = []) a'); simpl; eauto.
    + eapply CI_ext; [exact C|..]; simpl; auto. intros u. upds; auto. now rewrite M.
    + intros u N. apply Pc.
    + now rewrite M.
    + now apply (pick_step _ _ _ _ cfg).
    + intros _. split; auto. pose proof (pinned_ready _ _ _ _ cfg _ _ G (pinned_disp t) Rd) as X. rewrite home_disp in X. destruct (q (al s) t); [easy|discriminate].
  - destruct (mode s t) eqn:M; try discriminate. destruct (Nat.eqb_spec c (disp t)) as [|Nd]; [discriminate|].
    assert (Dc : dead s c = false). { destruct (k_hold _ _ C t c) as (_ & _ & _ & X); auto. left. simpl. rewrite M. now left. }
    assert (I2 : forall u, upd (dead s) c false u = dead s u) by (intros u; upds; auto).
    assert (R := leave_result s t c true false (down s)). unfold call_pick in *. cbn [al] in *. destruct (Algo.step _ _ _ (al s) (Pick t)) as [a'|] eqn:Ea; [|discriminate]. injection H as <-.
    specialize (R _ I M Nd (fun _ => eq_refl) (or_introl eq_refl) eq_refl). revert R. unfold picked. cbn [al with_al].
    destruct (pc a' t); intros [G' C' Pc' Nu' Di'].
    1: destruct (log a') as [|[?|? [?|]|?|?] ?].
    all: constructor; simpl in *; auto; (eapply CI_ext; [exact C'|..]; simpl; auto).
  - destruct (mode s t) eqn:M; try discriminate. destruct (pinned c) eqn:Pn; [discriminate|].
    assert (Nd : c <> disp t) by (intros ->; rewrite pinned_disp in Pn; discriminate).
    assert (Bc : bl s c = false). { destruct (k_hold _ _ C t c) as (_ & _ & X & _); auto. left. simpl. rewrite M. now left. }
    assert (I2 : forall u, upd (bl s) c false u = bl s u) by (intros u; upds; auto).
    assert (R := leave_result s t c false true (down s)). unfold call_pick in *. cbn [al] in *. destruct (Algo.step _ _ _ (al s) (Pick t)) as [a'|] eqn:Ea; [|discriminate]. injection H as <-.
    specialize (R _ I M Nd ltac:(discriminate) (or_intror (or_introl eq_refl)) eq_refl). revert R. unfold picked. cbn [al with_al].
    destruct (pc a' t); intros [G' C' Pc' Nu' Di'].
    1: destruct (log a') as [|[?|? [?|]|?|?] ?].
    all: constructor; simpl in *; auto; (eapply CI_ext; [exact C'|..]; simpl; auto).
  - destruct (mode s t) eqn:M; try discriminate. destruct (bl s c) eqn:B; [|discriminate]. destruct (att (al s) c) as [t'|] eqn:A; [|discriminate].
    destruct (Nat.eqb_spec t' t) as [->|N].
    + unfold call_awake in H. cbn [al] in H. destruct (Algo.step _ _ _ _ _) as [a'|] eqn:E; [|discriminate]. injection H as <-. now apply (local_result s t c a' I B E).
    + injection H as <-. simpl. constructor; simpl; auto. apply (op_remote kind (core_of s) t' c C B A).
  - destruct (mode s t) eqn:M; try discriminate. destruct (Nat.eqb_spec c (mainc t)) as [->|]; [|discriminate].
    destruct (k_hold _ _ C t (mainc t)) as (_ & _ & Bc & Dc); [left; simpl; rewrite M; now left|]. simpl in Bc, Dc.
    assert (I2 : forall u, upd (bl s) (mainc t) false u = bl s u) by (intros u; upds; auto). assert (I3 : forall u, upd (dead s) (mainc t) false u = dead s u) by (intros u; upds; auto).
    assert (R := leave_result s t (mainc t) false false (upd (down s) t true)). unfold call_pick in *. cbn [al] in *. destruct (Algo.step _ _ _ (al s) (Pick t)) as [a'|] eqn:Ea; [|discriminate]. injection H as <-.
    specialize (R _ I M (main_disp t) ltac:(discriminate) (or_intror (or_intror (pinned_main t))) eq_refl). revert R. unfold picked. cbn [al with_al].
    destruct (pc a' t); intros [G' C' Pc' Nu' Di'].
    1: destruct (log a') as [|[?|? [?|]|?|?] ?].
    all: constructor; simpl in *; auto; (eapply CI_ext; [exact C'|..]; simpl; auto).
  - destruct (mode s t) eqn:M; try discriminate. destruct (Nat.eqb_spec c (disp t)) as [->|]; [|discriminate]. destruct (down s t); [|discriminate]. destruct (no_workers s t) eqn:Nw; [|discriminate]. injection H as <-.
    assert (Hh : forall u, holds u (upd (mode s) t Gone u) = holds u (mode s u)) by (intros u; upds; auto; now rewrite M).
    constructor; simpl; auto.
    + destruct C as [A B Cc D E F Gg H]. constructor; simpl in *; auto.
      * intros u y. rewrite Hh. apply A.
      * intros u. rewrite Hh. apply B.
      * intros k K. destruct (F k K) as [X|[X|[X|(u & X)]]]; auto. right. right. right. exists u. now rewrite Hh.
      * intros u k Gu K At. destruct (Nat.eq_dec u t) as [->|N]; updt; [|eauto].
        unfold no_workers in Nw. rewrite forallb_forall in Nw. specialize (Nw k K). unfold attached_to in Nw. rewrite At, Nat.eqb_refl, orb_false_r in Nw. exact Nw.
    + intros u. specialize (Pc u). upds; auto. now rewrite M in Pc.
    + intros u. upds; [discriminate|auto].
    + intros u Hu. upds; [congruence|auto].
  - destruct (mode s t) eqn:M; try discriminate. destruct (Nat.eqb_spec c (disp t)) as [->|]; [|discriminate]. destruct (negb _); [|discriminate]. injection H as <-.
    constructor; simpl; auto.
    + eapply CI_ext; [apply (op_swap kind (core_of s) t (disp t) C); simpl; now rewrite M|..]; simpl; auto; intros u; upds; auto. now rewrite M.
    + intros u. specialize (Pc u). upds; auto. now rewrite M in Pc.
    + intros u. upds; [discriminate|auto].
    + intros u Hu. upds; [left; now left|auto].
  - destruct (mode s t) as [| |[|c l]| |n p| |] eqn:M; try discriminate.
    + unfold call_pick in H. destruct (Algo.step _ _ _ (al s) (Pick t)) as [a'|] eqn:Ea; [|discriminate]. injection H as <-.
      eapply (pick_result s t KDisp [disp t] (q (al s) t = []) a'); simpl; eauto.
      * eapply CI_ext; [exact C|..]; simpl; auto. intros u. upds; auto. now rewrite M.
      * intros u N. apply Pc.
      * now rewrite M.
      * now apply (pick_step _ _ _ _ cfg).
      * congruence.
    + unfold call_awake in H. cbn [al with_mode] in H. destruct (Algo.step _ _ _ _ _) as [a'|] eqn:E; [|discriminate]. injection H as <-.
      pose proof (k_nd _ _ C t) as N. simpl in N. rewrite M in N. simpl in N. inversion N as [|? ? N1 N2]; subst. inversion N2 as [|? ? N3 N4]; subst. simpl in N1.
      apply (release_result s t c (Drain l) a' I E); rewrite ?M; simpl; auto; try discriminate.
      * constructor; [rewrite in_app_iff in N1; tauto|]. clear - N4. induction l as [|y l IH]; simpl in *; [constructor|]. inversion N4 as [|? ? X Y]; subst. rewrite in_app_iff in X. constructor; auto.
      * intros y. rewrite in_app_iff in N1, N3. intuition congruence.
    + unfold call_awake in H. cbn [al with_mode] in H. destruct (Algo.step _ _ _ _ _) as [a'|] eqn:E; [|discriminate]. injection H as <-.
      pose proof (k_nd _ _ C t) as N. simpl in N. rewrite M in N. simpl in N. inversion N as [|? ? N1 N2]; subst. simpl in N1.
      apply (release_result s t p (Run n) a' I E); rewrite ?M; simpl; auto; try discriminate.
      * constructor; [easy|constructor].
      * intros y. intuition congruence.
  - destruct (mode s t) as [| | |k| | |] eqn:M; try discriminate. pose proof (Pc t) as Pt. rewrite M in Pt. destruct Pt as (-> & r & m & Pt).
    destruct (Algo.step _ _ _ (al s) (Draw t d)) as [a'|] eqn:Ea; [|discriminate]. injection H as <-.
    eapply (pick_result s t KDisp [disp t] True a'); simpl; eauto.
    + eapply CI_ext; [exact C|..]; simpl; auto. intros u. upds; auto. now rewrite M.
    + intros u N. apply Pc.
    + now rewrite M.
    + now apply (draw_step _ _ _ _ cfg _ _ d _ r m).
    + congruence.
Qed.

Lemma dinv_reachable s : reachable dstep dinit s -> DInv s.
Proof. revert s. apply (reachable_inv dstep DInv); [apply dinv_init|]. intros s l s' I E. eapply dinv_step; eauto. Qed.
End Inv.
