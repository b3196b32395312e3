(** Specification vocabulary for join() and the cleanup functions of fiber-local storage. *)
From Coq Require Import List Arith Bool.
From Verif Require Import Base JoinFss.
Import ListNotations.

(** How many cleanup functions of c have returned. *)
Fixpoint cleaned (l : list event) (c : nat) : nat :=
  match l with [] => 0 | EClean d :: r => (if Nat.eqb d c then 1 else 0) + cleaned r c | _ :: r => cleaned r c end.
(** When join() for c returns (ENow: without having waited), all cleanup functions of c have returned. *)
Definition complete (n : nat -> nat) (l : list event) : Prop := forall a b g c, l = a ++ EJoined g c :: b -> cleaned b c = n c.
Definition complete_now (n : nat -> nat) (l : list event) : Prop := forall a b g c, l = a ++ ENow g c :: b -> cleaned b c = n c.
(** Executions in which no cleanup function suspends its fiber. *)
Inductive plain (thr cleanups : nat -> nat) : st -> Prop :=
  | p_init : plain thr cleanups init_state
  | p_step : forall s l s', plain thr cleanups s -> step thr cleanups s l = Some s' ->
      (forall f k, l = Yield f \/ l = Sleep f -> fib s f <> Cleaning k) -> plain thr cleanups s'.
