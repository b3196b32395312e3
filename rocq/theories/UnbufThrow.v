(** Model: unbuffered_channel<T> (unbuffered_channel.hpp) for a T whose move operations may throw.

    The only difference to Unbuffered.v: the move in pop (309), value_pop (336) and pop_wait_until (375) may throw.
    The exception leaves the member function; the slot has been taken (try_pop_, 304, 330, 369), the waiting
    producers have been notified (306-307, 332-333, 371-372), but [s->w.wake()] (311, 338, 377) is not executed.
    Copying or moving the argument of push into its slot (130, 164, 213, 259) may throw as well; that happens
    before the first access to the channel and has no effect on it. A throwing move is assumed to leave its
    source unchanged. Moving the result out of value_pop (339) after the producer has been woken is assumed not to throw. *)
From Coq Require Import List Arith Bool.
From Verif Require Import Base Kernel Unbuffered.
Import ListNotations.

Section Channel.
Context {V : Type}.

(** The channel (unbuffered_channel.hpp:58-66) and, as ghost, the slots from which a move has thrown. *)
Record xstate := mkX { xs : state V; thrown : list sptr }.
(** 98 unbuffered_channel() = default *)
Definition xinit : xstate := mkX init [].

(** XThrow: "std::move( s->value)" of fiber [f] (309, 336, 375) throws, the call of [f] ends with that exception. *)
Inductive xlabel := XL (l : label V) | XThrow (f : fid).

(** A step of the channel (Unbuffered.v), or a throwing move (309, 336, 375). Reading a slot whose frame is gone is
    not a throwing move but undefined behaviour (XL (LRun f)). *)
Definition xstep (s : xstate) (l : xlabel) : option xstate :=
  match l with
  | XL l => match step (xs s) l with Some s' => Some (mkX s' (thrown s)) | None => None end
  | XThrow f =>
      if ub (xs s) then None else
      if running (fib (kn (xs s)) f) then
        match pcs (xs s) f with
        | CRead o p => match deref (xs s) p with
                       | Some _ => Some (mkX (ret (xs s) f o RExc) (p :: thrown s))
                       | None => None
                       end
        | _ => None
        end
      else None
  end.
End Channel.
Arguments xstate : clear implicits.
Arguments xlabel : clear implicits.
