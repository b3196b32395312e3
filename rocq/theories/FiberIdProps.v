(** C140: fiber ids. *)
From Coq Require Import List Arith Bool Lia.
From Verif Require Import Base FiberId FiberIdSpec FiberIdFacts.
Import ListNotations.

(** A fiber ends and is joined; the next fiber has its context at the same address, so that a saved id of the first equals the id of the second. *)
Definition reuse : list label := [Main 7; Create 0 9; Save 0 0; Lookup 1; End 1; Join 0 0; Create 0 9; Save 1 0; Cmp 0 1; Lookup 2].

Theorem C140_refuted : exists s, reachable step init_state s /\ In (ECmp (Some 1) (Some 2) true) (log s) /\ ~ ids_identify (log s).
Proof.
  apply (reach_by step init_state reuse). vm_compute. split; [auto 20|]. intros H.
  assert (X : Some 1 = Some 2) by (apply (H (Some 1) (Some 2) true); auto 20). discriminate.
Qed.
Theorem C140_names_refuted : exists s, reachable step init_state s /\ In (EName 2 1 0) (log s) /\ ~ own_names (log s).
Proof.
  apply (reach_by step init_state reuse). vm_compute. split; [auto 20|]. intros H.
  assert (X : 2 = 1) by (apply (H 2 1 0); auto 20). discriminate.
Qed.

(** While the contexts exist, ids identify the fibers. *)
Theorem C140_existing_partial s : reachable step init_state s -> ids_of_existing (log s).
Proof.
  intros R l1 x y b l2 E. apply reach_inv in R. pose proof (i_log _ _ R) as G. rewrite E in G. apply good_split in G. simpl in G. tauto.
Qed.
Theorem C140_safe s : reachable step init_state s -> ids_safe (log s).
Proof.
  intros R x y b H. apply reach_inv in R. destruct (good_in _ _ (i_log _ _ R) H) as (l1 & l2 & _ & G). simpl in G. tauto.
Qed.
(** The self test of join() is exact: the handle keeps the context. *)
Theorem C140_join s : reachable step init_state s -> join_exact (log s).
Proof.
  intros R. apply reach_inv in R. pose proof (i_log _ _ R) as G. split.
  - intros n x H. destruct (good_in _ _ G H) as (l1 & l2 & _ & W). exact W.
  - intros n m H. destruct (good_in _ _ G H) as (l1 & l2 & E & W). simpl in W. destruct W as (N & W). split; auto. rewrite E. apply in_or_app. right. right. exact W.
Qed.
Theorem C140_names_partial s : reachable step init_state s -> names_of_gone (log s).
Proof.
  intros R l1 n m k l2 E. apply reach_inv in R. pose proof (i_log _ _ R) as G. rewrite E in G. apply good_split in G. exact G.
Qed.
Theorem C140_names_kept s : reachable step init_state s -> names_kept (log s).
Proof.
  intros R. apply reach_inv in R. pose proof (i_fnd _ _ R) as F. split.
  - intros n m k m' k' H H'. destruct (F _ _ _ H) as (_ & A). destruct (F _ _ _ H') as (_ & B). split; congruence.
  - intros n m n' m' k H H'. destruct (F _ _ _ H) as (_ & A). destruct (F _ _ _ H') as (_ & B). apply find_some in A, B. eapply (i_num _ _ R); [apply A|apply B].
Qed.
(** join() for the calling fiber reports the deadlock. *)
Theorem C140_join_self s n h : reachable step init_state s -> run s n = true -> owner s (hnd s h) = Some n -> exists s', step s (Join n h) = Some s' /\ log s' = ESelf n (Some n) :: log s /\ hnd s' h = hnd s h.
Proof.
  intros R Q O. apply reach_inv in R. unfold step. rewrite Q. assert (E : adr s n = hnd s h).
  { unfold owner in O. destruct (hnd s h) eqn:W; [discriminate|]. rewrite <- W in *. apply (i_mem _ _ R) in O. tauto. }
  unfold id_eq. rewrite E, Nat.eqb_refl, O. eexists. split; [reflexivity|]. auto.
Qed.
Example C140_join_self_meets : exists s, reachable step init_state s /\ run s 1 = true /\ owner s (hnd s 6) = Some 1.
Proof. apply (reach_by step init_state [Main 7; Create 0 9; Move 0 6]). vm_compute. auto. Qed.
Theorem C140_order : total_order.
Proof.
  unfold total_order, id_lt, id_eq, id_gt, id_le, id_ge, id_gt, id_lt. splits; auto.
  - intros. apply Nat.ltb_irrefl.
  - intros a b c. rewrite !Nat.ltb_lt. lia.
  - intros a b. rewrite !Nat.ltb_lt, Nat.eqb_eq. lia.
  - intros a b. rewrite Nat.ltb_lt, Nat.eqb_neq. lia.
Qed.

(** Two fibers that exist, their ids compared in all ways; a fiber joins itself, a moved handle, and an empty handle. *)
Definition some_ids : list label := [Main 7; Create 0 9; Create 1 8; Save 0 0; Save 1 1; Self 2 1; Clear 3; Save 4 5; Cmp 0 1; Cmp 0 2; Cmp 3 4; Cmp 0 3; Move 0 6; Join 1 6; Join 1 0; Lookup 1; Lookup 2; Lookup 1; End 1; Join 2 6; Detach 1; End 2; Cmp 0 1].
Example C140_meets : exists s, reachable step init_state s /\
  log s = [ECmp (Some 1) (Some 2) false; EGone 2; EJoined 2 1; EGone 1; EName 1 1 0; EName 2 2 1; EName 1 1 0; EInval 1; ESelf 1 (Some 1); ECmp (Some 1) None false; ECmp None None true; ECmp (Some 1) (Some 1) true; ECmp (Some 1) (Some 2) false; ENew 2; ENew 1; ENew 0].
Proof. apply (reach_by step init_state some_ids). vm_compute. reflexivity. Qed.
Example C140_existing_meets : exists s l1 l2, reachable step init_state s /\ log s = l1 ++ ECmp (Some 1) (Some 2) false :: l2 /\ exists_in l2 (Some 1) /\ exists_in l2 (Some 2) /\ In (EGone 1) l1.
Proof.
  destruct (exec step init_state some_ids) as [s|] eqn:E; [|vm_compute in E; discriminate].
  exists s, [ECmp (Some 1) (Some 2) false; EGone 2; EJoined 2 1; EGone 1; EName 1 1 0; EName 2 2 1; EName 1 1 0; EInval 1; ESelf 1 (Some 1); ECmp (Some 1) None false; ECmp None None true; ECmp (Some 1) (Some 1) true], [ENew 2; ENew 1; ENew 0].
  splits; [exists some_ids; exact E| | | |simpl; auto 20].
  - vm_compute in E. injection E as <-. reflexivity.
  - intros n Q. injection Q as <-. simpl. intuition discriminate.
  - intros n Q. injection Q as <-. simpl. intuition discriminate.
Qed.
Example C140_names_meets : exists s, reachable step init_state s /\ In (EName 2 1 0) (log s) /\ In (EGone 1) (log s).
Proof. apply (reach_by step init_state reuse). vm_compute. auto 20. Qed.
Example C140_order_meets : id_lt 3 5 = true /\ id_eq 3 5 = false /\ id_ge 5 5 = true.
Proof. vm_compute. auto. Qed.
Print Assumptions C140_refuted.
Print Assumptions C140_names_refuted.
Print Assumptions C140_existing_partial.
Print Assumptions C140_safe.
Print Assumptions C140_join.
Print Assumptions C140_names_partial.
Print Assumptions C140_names_kept.
Print Assumptions C140_join_self.
Print Assumptions C140_order.
