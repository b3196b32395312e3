(** Invariant of Drive.v. *)
From Coq Require Import List Arith Bool Lia.
From Verif Require Import Base Algo AlgoSpec Drive DriveAlgo.
Import ListNotations.

(** *** The places a context can be in *)
Section Core.
Variable kind : nat -> akind.
Record core := mkCore {
  c_att : nat -> option nat; c_ready : nat -> bool; c_bl : nat -> bool; c_dead : nat -> bool;
  c_rem : nat -> list nat; c_hold : nat -> list nat; c_started : list nat; c_born : nat -> nat; c_gone : nat -> bool
}.
Record CI (x : core) : Prop := mkCI {
  k_hold : forall t c, In c (c_hold x t) \/ In c (c_rem x t) -> c_att x c = Some t /\ c_ready x c = false /\ c_bl x c = false /\ c_dead x c = false;
  k_nd : forall t, NoDup (c_hold x t ++ c_rem x t);
  k_bl : forall c, c_bl x c = true -> c_ready x c = false /\ c_dead x c = false /\ c_att x c <> None;
  k_dead : forall c, c_dead x c = true -> c_ready x c = false;
  k_fresh : forall k, c_att x (fiber k) <> None \/ c_ready x (fiber k) = true \/ c_dead x (fiber k) = true -> In k (c_started x);
  k_live : forall k, In k (c_started x) -> c_dead x (fiber k) = true \/ c_ready x (fiber k) = true \/ c_bl x (fiber k) = true \/ exists t, In (fiber k) (c_hold x t) \/ In (fiber k) (c_rem x t);
  k_rr : forall k, In k (c_started x) -> kind (c_born x k) = RoundRobin -> c_att x (fiber k) = Some (c_born x k);
  k_gone : forall t k, c_gone x t = true -> In k (c_started x) -> c_att x (fiber k) = Some t -> c_dead x (fiber k) = true
}.

Lemma CI_ext x y : CI x -> (forall c, c_att y c = c_att x c) -> (forall c, c_ready y c = c_ready x c) -> (forall c, c_bl y c = c_bl x c) -> (forall c, c_dead y c = c_dead x c) ->
  (forall t, c_rem y t = c_rem x t) -> (forall t, c_hold y t = c_hold x t) -> c_started y = c_started x -> (forall k, c_born y k = c_born x k) -> (forall t, c_gone y t = c_gone x t) -> CI y.
Proof.
  intros [A B C D E F G H] E1 E2 E3 E4 E5 E6 E7 E8 E9. constructor.
  - intros t c. rewrite E1, E2, E3, E4, E5, E6. auto.
  - intros t. rewrite E5, E6. auto.
  - intros c. rewrite E1, E2, E3, E4. auto.
  - intros c. rewrite E2, E4. auto.
  - intros k. rewrite E1, E2, E4, E7. auto.
  - intros k. rewrite E2, E3, E4, E7. intros I. destruct (F k I) as [X|[X|[X|(t & X)]]]; auto. right. right. right. exists t. now rewrite E5, E6.
  - intros k. rewrite E1, E7, E8. auto.
  - intros t k. rewrite E1, E4, E7, E9. eauto.
Qed.

Lemma nodup_hold (L R L' : list nat) : NoDup (L ++ R) -> NoDup L' -> (forall x, In x L' -> In x L \/ ~ In x R) -> NoDup (L' ++ R).
Proof.
  intros N N' H. induction L' as [|y L' IH]; simpl.
  - clear - N. induction L as [|z L IH]; simpl in *; auto. inversion N; auto.
  - inversion N' as [|? ? M1 M2]; subst. constructor; [|apply IH; auto; intros x X; apply H; now right].
    rewrite in_app_iff. intros [X|X]; auto. destruct (H y) as [Y|Y]; [now left| |auto].
    clear - N X Y. induction L as [|z L IH]; simpl in *; [easy|]. inversion N as [|? ? M1 M2]; subst. destruct Y as [->|Y]; auto. apply M1, in_or_app. auto.
Qed.

(** A held context becomes ready. *)
Lemma op_release x t c L' att' : CI x -> In c (c_hold x t) -> NoDup L' -> (forall y, In y L' <-> In y (c_hold x t) /\ y <> c) ->
  (forall y, y <> c -> att' y = c_att x y) -> (att' c = c_att x c \/ att' c = None) -> (kind t = RoundRobin -> att' c = c_att x c) ->
  CI (mkCore att' (upd (c_ready x) c true) (c_bl x) (c_dead x) (c_rem x) (upd (c_hold x) t L') (c_started x) (c_born x) (c_gone x)).
Proof.
  intros [A B C D E F G H] Ic ND HL Ha Hc Hr. destruct (A t c) as (A1 & A2 & A3 & A4); auto.
  assert (Nr : forall u, ~ In c (c_rem x u)).
  { intros u I. assert (u = t). { destruct (A u c) as (X & _); auto. congruence. } subst u. specialize (B t). clear - B Ic I.
    induction (c_hold x t) as [|y l IH]; simpl in *; [easy|]. inversion B as [|? ? N1 N2]; subst. destruct Ic as [->|Ic]; auto. apply N1, in_or_app. auto. }
  constructor; simpl.
  - intros u y Y. assert (Y' : (In y (c_hold x u) \/ In y (c_rem x u)) /\ y <> c).
    { destruct Y as [Y|Y].
      - destruct (Nat.eq_dec u t) as [->|N]; [rewrite upd_same in Y; apply HL in Y; tauto|]. rewrite upd_other in Y by auto. split; auto. intros ->. destruct (A u c) as (X & _); auto. congruence.
      - split; auto. intros ->. now apply (Nr u). }
    destruct Y' as (Y' & N). rewrite Ha, upd_other by auto. apply A; auto.
  - intros u. destruct (Nat.eq_dec u t) as [->|N]; [rewrite upd_same|rewrite upd_other by auto; auto]. apply (nodup_hold (c_hold x t)); auto. intros y Y. apply HL in Y. tauto.
  - intros y Y. destruct (C y Y) as (C1 & C2 & C3). assert (y <> c) by congruence. rewrite Ha, upd_other by auto. auto.
  - intros y Y. rewrite upd_other; [auto|congruence].
  - intros k K. apply E. destruct (Nat.eq_dec (fiber k) c) as [Ek|N]; [left; rewrite Ek, A1; discriminate|]. rewrite upd_other, Ha in K; auto.
  - intros k K. destruct (Nat.eq_dec (fiber k) c) as [Ek|N]; [rewrite Ek, upd_same; auto|]. rewrite upd_other by auto.
    destruct (F k K) as [X|[X|[X|(u & X)]]]; auto. right. right. right. exists u. destruct X as [X|X]; auto. left. destruct (Nat.eq_dec u t) as [->|Nu]; [rewrite upd_same; apply HL; auto|rewrite upd_other; auto].
  - intros k K R. destruct (Nat.eq_dec (fiber k) c) as [Ek|N]; [|rewrite Ha; auto]. rewrite Ek, Hr; [rewrite <- Ek; auto|].
    assert (X := G k K R). rewrite Ek, A1 in X. congruence.
  - intros u k Gu K At. destruct (Nat.eq_dec (fiber k) c) as [Ek|N]; [|rewrite Ha in At; eauto]. rewrite Ek in *. destruct Hc as [Hc|Hc]; [|congruence]. rewrite Hc in At. specialize (H u k Gu K). rewrite Ek in H. auto.
Qed.

(** A ready context is taken by thread t. *)
Lemma op_take x t c L' att' : CI x -> c_ready x c = true -> c_gone x t = false -> NoDup L' -> (forall y, In y L' <-> In y (c_hold x t) \/ y = c) ->
  (forall y, att' y = upd (c_att x) c (Some t) y) -> (c_att x c = Some t \/ c_att x c = None) ->
  CI (mkCore att' (upd (c_ready x) c false) (c_bl x) (c_dead x) (c_rem x) (upd (c_hold x) t L') (c_started x) (c_born x) (c_gone x)).
Proof.
  intros [A B C D E F G H] Rc Gt ND HL Ha Hc.
  assert (Nh : forall u, ~ In c (c_hold x u) /\ ~ In c (c_rem x u)). { intros u. split; intros I; destruct (A u c) as (_ & X & _); auto; congruence. }
  assert (Dc : c_dead x c = false). { destruct (c_dead x c) eqn:X; auto. rewrite (D c X) in Rc. discriminate. }
  assert (Bc : c_bl x c = false). { destruct (c_bl x c) eqn:X; auto. destruct (C c X). congruence. }
  constructor; simpl.
  - intros u y Y. rewrite Ha. destruct (Nat.eq_dec y c) as [->|N].
    + rewrite !upd_same. destruct (Nat.eq_dec u t) as [->|Nu]; auto. exfalso. destruct (Nh u) as (N1 & N2). rewrite upd_other in Y by auto. tauto.
    + rewrite !upd_other by auto. apply A. destruct (Nat.eq_dec u t) as [->|Nu]; [rewrite upd_same, HL in Y; intuition congruence|rewrite upd_other in Y; auto].
  - intros u. destruct (Nat.eq_dec u t) as [->|N]; [rewrite upd_same|rewrite upd_other by auto; auto]. apply (nodup_hold (c_hold x t)); auto. intros y Y. apply HL in Y. destruct Y as [Y| ->]; auto. right. apply Nh.
  - intros y Y. assert (y <> c) by congruence. rewrite Ha, !upd_other by auto. auto.
  - intros y Y. assert (y <> c) by congruence. rewrite upd_other; auto.
  - intros k K. apply E. destruct (Nat.eq_dec (fiber k) c) as [Ek|N]; [rewrite Ek; auto|]. rewrite Ha, !upd_other in K; auto.
  - intros k K. destruct (Nat.eq_dec (fiber k) c) as [Ek|N].
    + right. right. right. exists t. left. rewrite upd_same, HL. auto.
    + rewrite upd_other by auto. destruct (F k K) as [X|[X|[X|(u & X)]]]; auto. right. right. right. exists u. destruct X as [X|X]; auto. left. destruct (Nat.eq_dec u t) as [->|Nu]; [rewrite upd_same; apply HL; auto|rewrite upd_other; auto].
  - intros k K R. rewrite Ha. destruct (Nat.eq_dec (fiber k) c) as [Ek|N]; [|rewrite upd_other; auto]. rewrite Ek, upd_same. specialize (G k K R). rewrite Ek in G. destruct Hc; congruence.
  - intros u k Gu K At. rewrite Ha in At. destruct (Nat.eq_dec (fiber k) c) as [Ek|N]; [|rewrite upd_other in At; eauto]. rewrite Ek, upd_same in At. congruence.
Qed.

(** A held context leaves: it blocks, terminates, or (main context) waits for the end of the dispatcher. *)
Lemma op_leave x t c L' b d : CI x -> In c (c_hold x t) -> NoDup L' -> (forall y, In y L' <-> In y (c_hold x t) /\ y <> c) ->
  (b = true -> d = false) -> (b = true \/ d = true \/ pinned c = true) ->
  CI (mkCore (c_att x) (c_ready x) (upd (c_bl x) c b) (upd (c_dead x) c d) (c_rem x) (upd (c_hold x) t L') (c_started x) (c_born x) (c_gone x)).
Proof.
  intros [A B C D E F G H] Ic ND HL Hbd Hp. destruct (A t c) as (A1 & A2 & A3 & A4); auto.
  assert (Nr : forall u, ~ In c (c_rem x u)).
  { intros u I. assert (u = t). { destruct (A u c) as (X & _); auto. congruence. } subst u. specialize (B t). clear - B Ic I.
    induction (c_hold x t) as [|y l IH]; simpl in *; [easy|]. inversion B as [|? ? N1 N2]; subst. destruct Ic as [->|Ic]; auto. apply N1, in_or_app. auto. }
  constructor; simpl.
  - intros u y Y. assert (Y' : (In y (c_hold x u) \/ In y (c_rem x u)) /\ y <> c).
    { destruct Y as [Y|Y].
      - destruct (Nat.eq_dec u t) as [->|N]; [rewrite upd_same in Y; apply HL in Y; tauto|]. rewrite upd_other in Y by auto. split; auto. intros ->. destruct (A u c) as (X & _); auto. congruence.
      - split; auto. intros ->. now apply (Nr u). }
    destruct Y' as (Y' & N). rewrite !upd_other by auto. apply A; auto.
  - intros u. destruct (Nat.eq_dec u t) as [->|N]; [rewrite upd_same|rewrite upd_other by auto; auto]. apply (nodup_hold (c_hold x t)); auto. intros y Y. apply HL in Y. tauto.
  - intros y Y. destruct (Nat.eq_dec y c) as [->|N]; [rewrite upd_same in *|rewrite upd_other in *; auto]. rewrite A1. splits; auto. discriminate.
  - intros y Y. destruct (Nat.eq_dec y c) as [->|N]; [auto|rewrite upd_other in *; auto].
  - intros k K. apply E. destruct (Nat.eq_dec (fiber k) c) as [Ek|N]; [left; rewrite Ek, A1; discriminate|]. rewrite upd_other in K; auto.
  - intros k K. destruct (Nat.eq_dec (fiber k) c) as [Ek|N].
    + rewrite Ek, !upd_same. destruct Hp as [ -> |[ -> |Pc]]; auto. exfalso. rewrite <- Ek in Pc. unfold pinned, fiber in Pc. rewrite Nat.add_comm, Nat.mul_comm, Nat.mod_add in Pc by lia. discriminate.
    + rewrite !upd_other by auto. destruct (F k K) as [X|[X|[X|(u & X)]]]; auto. right. right. right. exists u. destruct X as [X|X]; auto. left. destruct (Nat.eq_dec u t) as [->|Nu]; [rewrite upd_same; apply HL; auto|rewrite upd_other; auto].
  - auto.
  - intros u k Gu K At. destruct (Nat.eq_dec (fiber k) c) as [Ek|N]; [|rewrite upd_other; eauto]. rewrite Ek, upd_same. specialize (H u k Gu K). rewrite Ek in *. rewrite H in A4; auto. discriminate.
Qed.

(** A blocked context is woken from another thread. *)
Lemma op_remote x t c : CI x -> c_bl x c = true -> c_att x c = Some t ->
  CI (mkCore (c_att x) (c_ready x) (upd (c_bl x) c false) (c_dead x) (upd (c_rem x) t (c_rem x t ++ [c])) (c_hold x) (c_started x) (c_born x) (c_gone x)).
Proof.
  intros [A B C D E F G H] Bc At. destruct (C c Bc) as (C1 & C2 & C3).
  assert (Nh : forall u, ~ In c (c_hold x u) /\ ~ In c (c_rem x u)). { intros u. split; intros I; destruct (A u c) as (_ & _ & X & _); auto; congruence. }
  constructor; simpl; auto.
  - intros u y Y. destruct (Nat.eq_dec y c) as [->|N].
    + rewrite upd_same. destruct (Nat.eq_dec u t) as [->|Nu]; auto. exfalso. destruct (Nh u). rewrite upd_other in Y by auto. tauto.
    + rewrite upd_other by auto. apply A. destruct (Nat.eq_dec u t) as [->|Nu]; [rewrite upd_same, in_app_iff in Y; simpl in Y; intuition congruence|rewrite upd_other in Y; auto].
  - intros u. destruct (Nat.eq_dec u t) as [->|N]; [rewrite upd_same|rewrite upd_other by auto; auto]. rewrite app_assoc. specialize (B t). destruct (Nh t) as (N1 & N2). clear - B N1 N2.
    induction (c_hold x t ++ c_rem x t) as [|y l IH] eqn:El in N1, N2, B |- *.
    + simpl. constructor; [easy|constructor].
    + assert (Nc : ~ In c (y :: l)) by (rewrite <- El, in_app_iff; tauto). clear El IH N1 N2. revert B Nc. generalize (y :: l). intros l0 B Nc. induction l0 as [|z l0 IH]; simpl in *; [constructor; [easy|constructor]|].
      inversion B as [|? ? M1 M2]; subst. constructor; [|apply IH; tauto]. rewrite in_app_iff. simpl. intuition congruence.
  - intros y Y. destruct (Nat.eq_dec y c) as [->|N]; [rewrite upd_same in Y; discriminate|rewrite upd_other in Y; auto].
  - intros k K. destruct (Nat.eq_dec (fiber k) c) as [Ek|N].
    + right. right. right. exists t. right. rewrite upd_same, in_app_iff. simpl. auto.
    + rewrite upd_other by auto. destruct (F k K) as [X|[X|[X|(u & X)]]]; auto. right. right. right. exists u. destruct X as [X|X]; auto. right. destruct (Nat.eq_dec u t) as [->|Nu]; [rewrite upd_same, in_app_iff; auto|rewrite upd_other; auto].
Qed.
(** ... from its own thread. *)
Lemma op_local x t c att' : CI x -> c_bl x c = true -> c_att x c = Some t ->
  (forall y, y <> c -> att' y = c_att x y) -> (att' c = c_att x c \/ att' c = None) -> (kind t = RoundRobin -> att' c = c_att x c) ->
  CI (mkCore att' (upd (c_ready x) c true) (upd (c_bl x) c false) (c_dead x) (c_rem x) (c_hold x) (c_started x) (c_born x) (c_gone x)).
Proof.
  intros [A B C D E F G H] Bc At Ha Hc Hr. destruct (C c Bc) as (C1 & C2 & C3).
  assert (Nh : forall u, ~ In c (c_hold x u) /\ ~ In c (c_rem x u)). { intros u. split; intros I; destruct (A u c) as (_ & _ & X & _); auto; congruence. }
  constructor; simpl; auto.
  - intros u y Y. assert (y <> c) by (intros ->; destruct (Nh u); tauto). rewrite Ha, !upd_other by auto. auto.
  - intros y Y. destruct (Nat.eq_dec y c) as [->|N]; [rewrite upd_same in Y; discriminate|rewrite upd_other in *; auto]. rewrite Ha; auto.
  - intros y Y. assert (y <> c) by congruence. rewrite upd_other; auto.
  - intros k K. apply E. destruct (Nat.eq_dec (fiber k) c) as [Ek|N]; [left; rewrite Ek, At; discriminate|]. rewrite upd_other, Ha in K; auto.
  - intros k K. destruct (Nat.eq_dec (fiber k) c) as [Ek|N]; [rewrite Ek, upd_same; auto|]. rewrite !upd_other by auto. auto.
  - intros k K R. destruct (Nat.eq_dec (fiber k) c) as [Ek|N]; [|rewrite Ha; auto]. rewrite Ek, Hr; [rewrite <- Ek; auto|].
    assert (X := G k K R). rewrite Ek, At in X. congruence.
  - intros u k Gu K Ak. destruct (Nat.eq_dec (fiber k) c) as [Ek|N]; [|rewrite Ha in Ak; eauto]. rewrite Ek in *. destruct Hc as [Hc|Hc]; [|congruence]. rewrite Hc in Ak. specialize (H u k Gu K). rewrite Ek in H. auto.
Qed.
(** The dispatcher takes the remote ready queue. *)
Lemma op_swap x t c : CI x -> c_hold x t = [c] ->
  CI (mkCore (c_att x) (c_ready x) (c_bl x) (c_dead x) (upd (c_rem x) t []) (upd (c_hold x) t (c :: c_rem x t)) (c_started x) (c_born x) (c_gone x)).
Proof.
  intros [A B C D E F G H] Hh.
  assert (Same : forall u y, In y (upd (c_hold x) t (c :: c_rem x t) u) \/ In y (upd (c_rem x) t [] u) <-> In y (c_hold x u) \/ In y (c_rem x u)).
  { intros u y. destruct (Nat.eq_dec u t) as [->|N]; [rewrite !upd_same, Hh; simpl; tauto|rewrite !upd_other by auto; tauto]. }
  constructor; simpl; auto.
  - intros u y Y. apply A. now apply Same.
  - intros u. destruct (Nat.eq_dec u t) as [->|N]; [rewrite !upd_same|rewrite !upd_other by auto; auto]. rewrite app_nil_r. specialize (B t). now rewrite Hh in B.
  - intros k K. destruct (F k K) as [X|[X|[X|(u & X)]]]; auto. right. right. right. exists u. now apply Same.
Qed.
(** A new worker context. *)
Lemma op_new x t k : CI x -> ~ In k (c_started x) -> c_gone x t = false -> NoDup (fiber k :: c_hold x t) ->
  CI (mkCore (upd (c_att x) (fiber k) (Some t)) (c_ready x) (c_bl x) (c_dead x) (c_rem x) (upd (c_hold x) t (fiber k :: c_hold x t)) (k :: c_started x) (upd (c_born x) k t) (c_gone x)).
Proof.
  intros [A B C D E F G H] Nk Gt ND.
  assert (Fr : c_att x (fiber k) = None /\ c_ready x (fiber k) = false /\ c_dead x (fiber k) = false).
  { specialize (E k). destruct (c_att x (fiber k)); [exfalso; apply Nk, E; left; discriminate|]. destruct (c_ready x (fiber k)); [exfalso; auto|]. destruct (c_dead x (fiber k)); [exfalso; auto|auto]. }
  destruct Fr as (F1 & F2 & F3).
  assert (F4 : c_bl x (fiber k) = false). { destruct (c_bl x (fiber k)) eqn:X; auto. now destruct (C _ X) as (_ & _ & Y). }
  assert (Nh : forall u, ~ In (fiber k) (c_hold x u) /\ ~ In (fiber k) (c_rem x u)). { intros u. split; intros I; destruct (A u (fiber k)) as (X & _); auto; congruence. }
  assert (Inj : forall j, fiber j = fiber k -> j = k) by (unfold fiber; lia).
  constructor; simpl; auto.
  - intros u y Y. destruct (Nat.eq_dec y (fiber k)) as [->|N].
    + rewrite upd_same. destruct (Nat.eq_dec u t) as [->|Nu]; auto. exfalso. destruct (Nh u). rewrite upd_other in Y by auto. tauto.
    + rewrite !upd_other by auto. apply A. destruct (Nat.eq_dec u t) as [->|Nu]; [rewrite upd_same in Y; simpl in Y; intuition congruence|rewrite upd_other in Y; auto].
  - intros u. destruct (Nat.eq_dec u t) as [->|N]; [rewrite upd_same|rewrite upd_other by auto; auto]. apply (nodup_hold (c_hold x t)); auto. intros y [<-|Y]; auto. right. apply Nh.
  - intros y Y. assert (y <> fiber k) by congruence. rewrite upd_other by auto. auto.
  - intros j J. destruct (Nat.eq_dec j k) as [->|N]; auto. right. apply E. assert (fiber j <> fiber k) by auto. rewrite upd_other in J; auto.
  - intros j [<-|J].
    + right. right. right. exists t. left. rewrite upd_same. now left.
    + destruct (F j J) as [X|[X|[X|(u & X)]]]; auto. right. right. right. exists u. destruct X as [X|X]; auto. left. destruct (Nat.eq_dec u t) as [->|Nu]; [rewrite upd_same; now right|rewrite upd_other; auto].
  - intros j J R. destruct (Nat.eq_dec j k) as [->|N]; [now rewrite !upd_same|]. destruct J as [<-|J]; [congruence|]. rewrite (upd_other (c_born x)) in R |- * by auto. rewrite upd_other by auto. auto.
  - intros u j Gu J At. destruct (Nat.eq_dec j k) as [->|N]; [rewrite upd_same in At; congruence|]. destruct J as [<-|J]; [congruence|]. rewrite upd_other in At by auto. eauto.
Qed.
End Core.
