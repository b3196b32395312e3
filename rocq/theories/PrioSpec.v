(** Specification vocabulary for priorities. *)
From Coq Require Import List Arith ZArith.
From Verif Require Import Base Prio.
Import ListNotations.

(** The ready contexts in the order in which they became ready or had their priority changed, from the record of events. *)
Fixpoint arrivals (l : list event) : list nat :=
  match l with
  | [] => []
  | EReady c :: r => remove Nat.eq_dec c (arrivals r) ++ [c]
  | EPick c :: r => remove Nat.eq_dec c (arrivals r)
  end.
(** c is the oldest context with the highest priority. *)
Definition best (pr : nat -> Z) (l : list nat) (c : nat) : Prop :=
  exists a b, l = a ++ c :: b /\ (forall d, In d a -> (pr d < pr c)%Z) /\ (forall d, In d b -> (pr d <= pr c)%Z).
