(** C121: reference counts under the C++ memory model. *)
From Coq Require Import List Arith Bool Lia.
From Verif Require Import Base RefCount.
Import ListNotations.

(** The object has been destroyed. *)
Definition destroyed (l : list event) : Prop := exists t v, In (EDestroy t v) l.
(** Every use that comes before the destruction in the log happens before it, nothing comes after it. *)
Definition ordered (l : list event) : Prop := forall a t v b, l = a ++ EDestroy t v :: b -> a = [] /\ (forall u n, In (EUse u n) b -> In n v) /\ ~ destroyed b.

Lemma holds_in : forall t l, existsb (Nat.eqb t) l = true <-> In t l.
Proof.
  intros t l. rewrite existsb_exists. split; [intros (x & A & B); apply Nat.eqb_eq in B; subst; auto|]. intros H. exists t. split; auto. apply Nat.eqb_refl.
Qed.
Lemma drop_len : forall t l, In t l -> S (length (drop t l)) = length l.
Proof. induction l as [|x l IH]; simpl; [tauto|]. intros H. destruct (Nat.eqb_spec x t); auto. simpl. f_equal. apply IH. intuition. Qed.
Lemma drop_in : forall t u l, In u (drop t l) -> In u l.
Proof. induction l as [|x l IH]; simpl; auto. destruct (Nat.eqb x t); simpl; intuition. Qed.
Lemma drop_other : forall t u l, In u l -> u <> t -> In u (drop t l).
Proof. induction l as [|x l IH]; simpl; auto. intros [H|H] N; destruct (Nat.eqb_spec x t); simpl; auto; congruence. Qed.

(** The object is about to be destroyed by t. *)
Definition closing (s : st) (t : nat) : Prop := pc s t <> Idle.
Record inv (s : st) : Prop := {
  i_cnt : cnt s = length (holders s);
  i_uses : forall u n, In (EUse u n) (log s) -> In n (mview s) \/ exists h, In h (holders s) /\ In n (view s h);
  i_close : forall t, closing s t -> holders s = [] /\ ~ destroyed (log s) /\ (forall u, closing s u -> u = t) /\
     forall u n, In (EUse u n) (log s) -> In n (view s t) \/ pc s t = AtFence /\ In n (pend s t);
  i_done : destroyed (log s) -> holders s = [];
  i_gone : holders s = [] -> destroyed (log s) \/ exists t, closing s t;
  i_ord : ordered (log s)
}.
Lemma inv_init : inv init_state.
Proof.
  split; simpl; auto; try tauto; try discriminate.
  - intros t C. destruct C. auto.
  - intros (t & v & []).
  - intros a t v b H. destruct a; discriminate.
Qed.
Lemma destroyed_use : forall u n l, destroyed (EUse u n :: l) <-> destroyed l.
Proof. intros u n l. split; intros (t & v & H); [destruct H as [H|H]; [discriminate|]|]; exists t, v; simpl; auto. Qed.
Lemma inv_step : forall s l s', inv s -> step s l = Some s' -> inv s'.
Proof.
  intros s l s' [A B C D E F] H. destruct l as [t|t|t u|t|t|t]; unfold step in H.
  - destruct (existsb (Nat.eqb t) (holders s)) eqn:X; [|discriminate]. apply holds_in in X. injection H as <-.
    assert (NE : holders s <> []) by (intros Y; rewrite Y in X; destruct X).
    split; unfold closing in *; cbn [cnt mview holders view pend pc next log]; auto.
    + intros u n [Y|Y]; [injection Y as <- <-; right; exists t; rewrite upd_same; simpl; auto|]. destruct (B u n Y) as [Z|(h & Z1 & Z2)]; auto. right. exists h. split; auto. destruct (Nat.eq_dec h t) as [->|N]; [rewrite upd_same; simpl; auto|rewrite upd_other; auto].
    + intros u Hc. destruct (C u Hc) as (Y & _). destruct (NE Y).
    + rewrite destroyed_use. auto.
    + intros Y. destruct (NE Y).
    + intros a u v b Y. destruct a as [|e a]; [discriminate|]. injection Y as <- Y. destruct (F a u v b Y) as (-> & _). simpl in Y. exfalso. apply NE. apply D. exists u, v. rewrite Y. simpl. auto.
  - destruct (existsb (Nat.eqb t) (holders s)) eqn:X; [|discriminate]. apply holds_in in X. injection H as <-.
    assert (NE : holders s <> []) by (intros Y; rewrite Y in X; destruct X).
    split; unfold closing in *; cbn [cnt mview holders view pend pc next log length]; auto.
    + intros u n Y. destruct (B u n Y) as [Z|(h & Z1 & Z2)]; auto. right. exists h. simpl. auto.
    + intros u Hc. destruct (C u Hc) as (Y & _). destruct (NE Y).
    + intros Y. destruct (NE (D Y)).
    + discriminate.
  - destruct (existsb (Nat.eqb t) (holders s)) eqn:X; [|discriminate]. apply holds_in in X. injection H as <-.
    assert (NE : holders s <> []) by (intros Y; rewrite Y in X; destruct X).
    split; unfold closing in *; cbn [cnt mview holders view pend pc next log length]; auto.
    + rewrite A. now rewrite drop_len.
    + intros w n Y. destruct (B w n Y) as [Z|(h & Z1 & Z2)]; auto. right. destruct (Nat.eq_dec h t) as [->|N].
      * exists u. rewrite upd_same. simpl. split; auto. apply in_or_app. auto.
      * exists h. split; [right; now apply drop_other|]. destruct (Nat.eq_dec h u) as [->|N2]; [rewrite upd_same; apply in_or_app; auto|rewrite upd_other; auto].
    + intros w Hc. destruct (C w Hc) as (Y & _). destruct (NE Y).
    + intros Y. destruct (NE (D Y)).
    + discriminate.
  - destruct (existsb (Nat.eqb t) (holders s)) eqn:X; [|discriminate]. apply holds_in in X. destruct (pc s t) eqn:P; try discriminate. injection H as <-.
    assert (NE : holders s <> []) by (intros Y; rewrite Y in X; destruct X).
    assert (NC : forall u, pc s u = Idle) by (intros u; destruct (pc s u) eqn:Pu; auto; exfalso; apply NE; apply (C u); unfold closing; rewrite Pu; discriminate).
    assert (ND : ~ destroyed (log s)) by (intros Y; exact (NE (D Y))).
    pose proof (drop_len t (holders s) X) as Dl.
    split; unfold closing in *; cbn [cnt mview holders view pend pc next log]; auto; try (intros Y; destruct (ND Y)).
    + lia.
    + intros w n Y. destruct (B w n Y) as [Z|(h & Z1 & Z2)]; [left; apply in_or_app; auto|]. destruct (Nat.eq_dec h t) as [->|N]; [left; apply in_or_app; auto|]. right. exists h. split; auto. now apply drop_other.
    + destruct (Nat.eqb_spec (cnt s) 1) as [C1|C1]; [|intros u Hc; destruct Hc; auto]. intros u Hc. destruct (Nat.eq_dec u t) as [->|N]; [|rewrite upd_other in Hc by auto; destruct Hc; auto].
      assert (H0 : drop t (holders s) = []) by (destruct (drop t (holders s)); auto; simpl in Dl; lia). splits; auto.
      * intros w Hw. destruct (Nat.eq_dec w t); auto. rewrite upd_other in Hw by auto. destruct Hw; auto.
      * intros w n Y. destruct (B w n Y) as [Z|(h & Z1 & Z2)]; [right; rewrite !upd_same; split; auto; apply in_or_app; auto|]. destruct (Nat.eq_dec h t) as [->|N]; auto.
        apply (drop_other t) in Z1; auto. rewrite H0 in Z1. destruct Z1.
    + intros Y. right. exists t. rewrite Y in Dl. simpl in Dl. assert (C1 : cnt s = 1) by lia. rewrite C1. simpl. rewrite upd_same. discriminate.
  - destruct (pc s t) eqn:P; try discriminate. injection H as <-. assert (Ct : closing s t) by (unfold closing; congruence). destruct (C t Ct) as (C1 & C2 & C3 & C4).
    split; unfold closing in *; cbn [cnt mview holders view pend pc next log]; auto.
    + intros u n Y. destruct (B u n Y) as [Z|(h & Z1 & Z2)]; auto. rewrite C1 in Z1. destruct Z1.
    + intros u Hu. assert (u = t) by (destruct (Nat.eq_dec u t); auto; rewrite upd_other in Hu by auto; auto). subst u. splits; auto.
      * intros w Hw. destruct (Nat.eq_dec w t); auto. rewrite upd_other in Hw by auto. auto.
      * intros w n Y. left. rewrite upd_same. apply in_or_app. destruct (C4 w n Y) as [Z|(_ & Z)]; auto.
    + intros _. right. exists t. rewrite upd_same. discriminate.
  - destruct (pc s t) eqn:P; try discriminate. injection H as <-. assert (Ct : closing s t) by (unfold closing; congruence). destruct (C t Ct) as (C1 & C2 & C3 & C4).
    split; unfold closing in *; cbn [cnt mview holders view pend pc next log]; auto.
    + intros u n [Y|Y]; [discriminate|]. destruct (B u n Y) as [Z|(h & Z1 & Z2)]; auto. rewrite C1 in Z1. destruct Z1.
    + intros u Hu. exfalso. destruct (Nat.eq_dec u t) as [->|N]; [rewrite upd_same in Hu; auto|]. rewrite upd_other in Hu by auto. auto.
    + intros _. left. exists t, (view s t). simpl. auto.
    + intros a u v b Y. destruct a as [|e a].
      * simpl in Y. injection Y as <- <- <-. splits; auto. intros w n Z. destruct (C4 w n Z) as [|(Q & _)]; auto. congruence.
      * injection Y as <- Y. exfalso. apply C2. exists u, v. rewrite Y. apply in_or_app. simpl. auto.
Qed.
Lemma inv_reach : forall s, reachable step init_state s -> inv s.
Proof. exact (reachable_inv step inv init_state inv_init inv_step). Qed.

(** C121: every use of the object by any thread happens before its destruction, under the C++ memory model; after the destruction it is not used and not destroyed again. *)
Theorem C121_ordered : forall s, reachable step init_state s -> ordered (log s).
Proof. intros s R. exact (i_ord s (inv_reach s R)). Qed.
Print Assumptions C121_ordered.

(** C121: the object is not destroyed as long as a thread has a reference, and the count is the number of references. *)
Theorem C121_alive : forall s t, reachable step init_state s -> In t (holders s) -> ~ destroyed (log s) /\ cnt s = length (holders s).
Proof. intros s t R H. pose proof (inv_reach s R) as Iv. split; [|apply Iv]. intros D. rewrite (i_done s Iv D) in H. destruct H. Qed.
Print Assumptions C121_alive.

(** C121: when the last reference is gone the object has been destroyed, or one thread is about to destroy it and nothing can keep it from doing so. *)
Theorem C121_destroyed : forall s, reachable step init_state s -> holders s = [] -> destroyed (log s) \/ exists tr s', length tr <= 2 /\ exec step s tr = Some s' /\ destroyed (log s') /\ forall u, step s (Use u) = None /\ step s (Release u) = None.
Proof.
  intros s R H. destruct (i_gone s (inv_reach s R) H) as [|(t & C)]; auto. right. unfold closing in C. destruct (pc s t) eqn:P; [congruence| |].
  - exists [Fence t; Delete t]. eexists. splits; [simpl; lia|cbn [exec step]; rewrite P; cbn [exec step pc]; rewrite upd_same; reflexivity| |].
    + eexists. eexists. simpl. left. reflexivity.
    + intros u. unfold step. rewrite H. auto.
  - exists [Delete t]. eexists. splits; [simpl; lia|cbn [exec step]; rewrite P; reflexivity| |].
    + eexists. eexists. simpl. left. reflexivity.
    + intros u. unfold step. rewrite H. auto.
Qed.
Print Assumptions C121_destroyed.

(** Two threads use the object; the last one destroys it and has seen the uses of both. *)
Example C121_case : exists s, reachable step init_state s /\ log s = [EDestroy 1 [2; 0; 1; 0]; EUse 1 2; EUse 0 1; EUse 0 0].
Proof. apply (reach_by step init_state [Use 0; Copy 0; Send 0 1; Use 0; Use 1; Release 0; Release 1; Fence 1; Delete 1]). vm_compute. splits; auto. Qed.
(** A reference of thread 1 keeps the object alive although thread 0 has dropped its own. *)
Example C121_case_alive : exists s, reachable step init_state s /\ holders s = [1] /\ log s = [EUse 1 1; EUse 0 0] /\ pc s 0 = Idle.
Proof. apply (reach_by step init_state [Use 0; Copy 0; Send 0 1; Release 0; Use 1]). vm_compute. splits; auto. Qed.
(** The last reference is gone, the object is about to be destroyed. *)
Example C121_case_destroyed : exists s, reachable step init_state s /\ holders s = [] /\ log s = [EUse 0 0] /\ pc s 1 = AtFence.
Proof. apply (reach_by step init_state [Use 0; Copy 0; Send 0 1; Release 0; Release 1]). vm_compute. splits; auto. Qed.
