(** Model: fibers that use an unbuffered channel (Unbuffered.v) on one thread with the scheduling
    algorithm round_robin (algo/round_robin.cpp), whose ready queue is first in, first out. *)
From Coq Require Import List Arith Bool.
From Verif Require Import Base Kernel Unbuffered.
Import ListNotations.

Section RoundRobin.
Context {V : Type}.
Variable fs : list fid.   (* the fibers of the program *)

(** The state of the channel and the fibers, and rqueue_ (round_robin.hpp:43), front first. *)
Record rstate := mkR { ust : state V; rqueue : list fid }.

(** At the start all fibers have been launched in the order of [fs] (fiber.cpp:24-41, awakened). *)
Definition rinit : rstate := mkR init fs.

(** round_robin.cpp:28-39 pick_next: only the front of rqueue_ can be resumed, it is removed; there is
    one thread, number 1. round_robin.cpp:20-25 awakened (called by scheduler.cpp:177-192 schedule when a
    fiber is woken or yields): a fiber that has become ready is linked at the back. Every other step is
    that of Unbuffered.v. The dispatcher fiber, which also passes through rqueue_, is left out: it only
    yields as long as another fiber is ready (scheduler.cpp:116-170). *)
Definition rstep (x : rstate) (l : label V) : option rstate :=
  match l with
  | LK (Pick f t) =>
      match rqueue x with
      | g :: r => if Nat.eqb f g && Nat.eqb t 1
                  then match step (ust x) l with Some s => Some (mkR s r) | None => None end
                  else None
      | [] => None
      end
  | _ => match step (ust x) l with
         | Some s => Some (mkR s (rqueue x ++ flips (kn (ust x)) (kn s) fs))
         | None => None
         end
  end.
End RoundRobin.
Arguments rstate : clear implicits.
