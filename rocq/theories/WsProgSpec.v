(** Specification vocabulary for the work sharing example, over the log (newest event first) alone. *)
From Coq Require Import List Arith Bool.
From Verif Require Import Base WsProg.
Import ListNotations.

(** How often the function of fiber [f] has ended. *)
Fixpoint ends (h : list event) (f : fid) : nat :=
  match h with [] => 0 | EEnd g :: h' => (if f =? g then 1 else 0) + ends h' f | _ :: h' => ends h' f end.
(** How often the wait of thread [k] has returned. *)
Fixpoint returns (h : list event) (k : tid) : nat :=
  match h with [] => 0 | EReturn j _ :: h' => (if k =? j then 1 else 0) + returns h' k | _ :: h' => returns h' k end.
(** How often main() has returned. *)
Fixpoint programs (h : list event) : nat :=
  match h with [] => 0 | EProgram :: h' => S (programs h') | _ :: h' => programs h' end.
(** Nothing can happen any more. *)
Definition stuck (n : nat) (s : st) : Prop := forall l, step n s l = None.
