(** C154: a range-based for loop over a channel whose elements throw. *)
From Coq Require Import List Arith Bool Lia.
From Verif Require Import Base IterThrow.
Import ListNotations.

(** Specification: the body sees the values up to the first outcome that is none; if the channel is closed there the loop ends regularly, if an element throws its exception leaves the loop. *)
Definition wanted (vs : list nat) (p : pop) : verdict := match p with Closed => Regular vs | Throws e => Exception vs e | Value _ => Bad end.
Definition is_value (p : pop) : Prop := match p with Value _ => True | _ => False end.

Lemma loop_values : forall us v vs p r, ~ is_value p ->
  loop (Iter true (Live v)) vs (map Value us ++ p :: r) =
  match p with Throws Other => Exception (rev vs ++ v :: us) Other | _ => Regular (rev vs ++ v :: us) end.
Proof.
  induction us as [|u us IH]; intros v vs p r N.
  - simpl. destruct p as [w| |[]]; simpl; auto; try (destruct N; exact Logic.I); rewrite <- ?app_assoc; auto; destruct r; simpl; auto.
  - simpl map. simpl app. change (loop (Iter true (Live v)) vs (Value u :: map Value us ++ p :: r)) with (loop (Iter true (Live u)) (v :: vs) (map Value us ++ p :: r)).
    rewrite IH by auto. simpl rev. rewrite <- app_assoc. reflexivity.
Qed.

(** C154 is false: (1) if the first element throws, the constructor of the iterator, which is noexcept, ends the program; (2) an exception derived from fiber_error ends the loop as if the channel were closed. *)
Theorem C154_refuted : range_for [Throws Other] = Terminated [] /\ range_for [Throws Other] <> wanted [] (Throws Other) /\
  range_for [Value 1; Throws FiberError; Value 2] = Regular [1] /\ range_for [Value 1; Throws FiberError; Value 2] <> wanted [1] (Throws FiberError).
Proof. splits; try reflexivity; discriminate. Qed.
Print Assumptions C154_refuted.

(** C154 after the first element, for exceptions not derived from fiber_error, and for closed channels: the loop does what is wanted. *)
Theorem C154_partial : forall us p r, ~ is_value p -> p <> Throws FiberError -> (us = [] -> p = Closed) -> range_for (map Value us ++ p :: r) = wanted us p.
Proof.
  intros [|u us] p r N F E.
  - rewrite (E eq_refl). simpl. destruct r; reflexivity.
  - change (range_for (map Value (u :: us) ++ p :: r)) with (loop (Iter true (Live u)) [] (map Value us ++ p :: r)). rewrite loop_values by auto.
    destruct p as [w| |[]]; simpl; auto; try congruence. destruct N. exact Logic.I.
Qed.
Print Assumptions C154_partial.

(** C154 where it fails, for all values before: exactly an exception of the first element calls std::terminate(). *)
Theorem C154_terminate_partial : forall ps, (exists vs, range_for ps = Terminated vs) <-> exists r, ps = Throws Other :: r.
Proof.
  assert (L : forall ps i vs ws, loop i vs ps <> Terminated ws).
  { induction ps as [|p ps IH]; intros [c s] vs ws; simpl; destruct c; try discriminate; destruct s; try discriminate. destruct p as [v'| |[]]; simpl; try apply IH; try discriminate. }
  intros ps. split.
  - intros (vs & H). destruct ps as [|p r]; [discriminate|]. destruct p as [v| |[]]; simpl in H; try (exfalso; eapply L; exact H). eauto.
  - intros (r & ->). exists []. reflexivity.
Qed.
Print Assumptions C154_terminate_partial.

(** C154 where it fails: a fiber_error of an element ends the loop regularly, and the values behind it stay in the channel unseen. *)
Theorem C154_swallowed_partial : forall us r, range_for (map Value us ++ Throws FiberError :: r) = Regular us.
Proof.
  intros [|u us] r; [destruct r; reflexivity|]. change (range_for (map Value (u :: us) ++ Throws FiberError :: r)) with (loop (Iter true (Live u)) [] (map Value us ++ Throws FiberError :: r)).
  rewrite loop_values by (intros []). reflexivity.
Qed.
Print Assumptions C154_swallowed_partial.

(** C154: the body is only ever given living elements. *)
Theorem C154_live_partial : forall ps, range_for ps <> Bad.
Proof.
  assert (L : forall ps i vs, (chan i = true -> exists v, sto i = Live v) -> loop i vs ps <> Bad).
  { induction ps as [|p ps IH]; intros [c s] vs H; simpl in *; destruct c; try discriminate; destruct (H eq_refl) as (v & ->); try discriminate.
    destruct p as [v'| |[]]; simpl; try discriminate; apply IH; simpl; eauto; discriminate. }
  intros [|p r]; [discriminate|]. destruct p as [v| |[]]; simpl; try discriminate; apply L; simpl; eauto; discriminate.
Qed.
Print Assumptions C154_live_partial.

Example C154_case : range_for [Value 3; Value 4; Closed] = Regular [3; 4] /\ range_for [Value 3; Value 4; Throws Other] = Exception [3; 4] Other /\ ~ is_value (Throws Other) /\ Throws Other <> Throws FiberError.
Proof. splits; try reflexivity; try discriminate. intros []. Qed.
