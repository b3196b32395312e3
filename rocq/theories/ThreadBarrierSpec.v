(** Specification vocabulary for thread_barrier, computed from the log (newest first). *)
From Coq Require Import List Arith Bool.
From Verif Require Import Base ThreadBarrier.
Import ListNotations.

Fixpoint arrivals (h : list event) : nat :=
  match h with [] => 0 | EArrive _ :: h' => S (arrivals h') | _ :: h' => arrivals h' end.
(** The number (from 0 on) of the call of wait() that thread [t] is in, in the order of the calls; the call belongs to round ticket/n. *)
Fixpoint ticket (h : list event) (t : nat) : option nat :=
  match h with
  | [] => None
  | EArrive u :: h' => if u =? t then Some (arrivals h') else ticket h' t
  | ERet u _ :: h' => if u =? t then None else ticket h' t
  end.
(** A call returns only when the n calls of its round have been made, with true exactly for the last one. *)
Fixpoint barrier_ok (n : nat) (h : list event) : Prop :=
  match h with
  | [] => True
  | EArrive t :: h' => ticket h' t = None /\ barrier_ok n h'
  | ERet t b :: h' =>
      (exists k, ticket h' t = Some k /\ n * (k / n + 1) <= arrivals h' /\ b = (k mod n =? n - 1)) /\ barrier_ok n h'
  end.
(** Thread of a label. *)
Definition thr (l : label) : nat := match l with Enter t | NotifyAll t | Spurious t | Check t => t end.
(** Nothing is about to happen: no thread is between two steps of wait(). *)
Definition quiet (s : st) : Prop := forall t, pc s t <> Notify /\ forall c, pc s t <> Woken c.
(** Thread [t] is in a call of a round whose n calls have all been made: it has to return. *)
Definition owed (n : nat) (s : st) (t : nat) : Prop := exists k, ticket (log s) t = Some k /\ n * (k / n + 1) <= arrivals (log s).
