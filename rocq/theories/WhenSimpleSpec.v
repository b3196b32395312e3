(** Specification vocabulary for wait_first_simple(), wait_all_simple() and wait_all_members(). *)
From Coq Require Import List Arith Bool.
From Verif Require Import Base WhenSimple.
Import ListNotations.

(** Function i has ended. *)
Definition has_ended (s : st) (i : nat) : Prop := In (EEnd i) (log s).
(** The call has returned or thrown. *)
Definition call_over (s : st) : Prop := exists e, In e (log s) /\ match e with EReturn _ | EThrow _ => True | _ => False end.
(** Nothing can happen any more. *)
Definition stuck (k : kind) (n : nat) (ok : nat -> bool) (s : st) : Prop := forall l, step k n ok s l = None.
(** [i] throws and the functions to the left of it do not. *)
Definition leftmost (ok : nat -> bool) (i : nat) : Prop := ok i = false /\ forall j, j < i -> ok j = true.
