(** Specification vocabulary for wait_first_...() and wait_all_...(). *)
From Coq Require Import List Arith Bool.
From Verif Require Import Base WhenAny.
Import ListNotations.

(** The functions in the order in which they have ended, oldest first. *)
Fixpoint ends (l : list event) : list nat := match l with [] => [] | EEnd i :: r => ends r ++ [i] | _ :: r => ends r end.
(** The call has ended. *)
Definition result (l : list event) : Prop := exists is, In (EReturn is) l \/ In (EThrow is) l.
(** None of the functions lets an exception escape to its fiber. *)
Definition safe (k : kind) (n : nat) (ok : nat -> bool) : Prop := catches k = true \/ forall i, i < n -> ok i = true.
(** The call has ended and every fiber that it has launched. *)
Definition over (n : nat) (s : st) : Prop := cons s = CDone /\ forall i, i < n -> prod s i = PDone.
(** Nothing can happen any more. *)
Definition stuck (k : kind) (n cap : nat) (ok : nat -> bool) (par : bool) (s : st) : Prop := forall l, step k n cap ok par s l = None.
(** The first element that satisfies [p]. *)
Definition first_of (p : nat -> bool) (l : list nat) (i : nat) : Prop := exists a b, l = a ++ i :: b /\ p i = true /\ forall j, In j a -> p j = false.
