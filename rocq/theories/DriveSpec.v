(** Specification vocabulary for the schedulers of Drive.v. *)
From Coq Require Import List Arith Bool.
From Verif Require Import Base Algo Drive.
Import ListNotations.

(** Places a context can be in: ready (in a queue of an algorithm), blocked, in the hands of a thread (it runs, has just been picked, or is about to be made ready), in the remote ready queue of a thread, terminated. *)
Inductive place := PQueue (a : nat) | PShared | PBlocked | PThread (t : nat) | PRemote (t : nat) | PDead.
Definition in_hands (t : nat) (m : mode_t) (c : nat) : Prop :=
  match m with
  | Run c' => c = c'
  | Drain l => In c l \/ c = disp t
  | Post n p => c = n \/ c = p
  | Picking (KYield c') => c = c'
  | Picking KDisp => c = disp t
  | _ => False
  end.
Definition is_at (s : dst) (c : nat) (p : place) : Prop :=
  match p with
  | PQueue a => In c (q (al s) a)
  | PShared => In c (shq (al s))
  | PBlocked => bl s c = true
  | PThread t => in_hands t (mode s t) c
  | PRemote t => In c (rem s t)
  | PDead => dead s c = true
  end.
(** Every thread that ever ran has ended. *)
Definition all_over (s : dst) : Prop := forall t, mode s t = Off \/ mode s t = Gone.
