(** Specification vocabulary for the lifetime of a scheduler, over the log (newest event first) alone. *)
From Coq Require Import List Arith Bool.
From Verif Require Import Base SchedLife.
Import ListNotations.

(** Thread [i] has enqueued a fiber and its wake-up has not returned. *)
Fixpoint pushing (h : list event) (i : nat) : bool :=
  match h with
  | [] => false
  | EPush j _ :: h' => if i =? j then true else pushing h' i
  | ENotify j :: h' => if i =? j then false else pushing h' i
  | EDestroyed :: h' => pushing h' i
  end.
(** A waking thread has accessed the scheduler after it was destroyed. *)
Definition dangling (h : list event) : Prop := exists h1 e h0, h = h1 ++ e :: h0 /\ e <> EDestroyed /\ In EDestroyed h0.
