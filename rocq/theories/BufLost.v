(** Model: buffered_channel<T>::value_pop() for a T whose move constructor may throw when the result is returned.

    buffered_channel.hpp:315-318: the value is moved out of the slot into the local variable [value] (315), cidx_ is advanced (316),
    a producer is notified (317), and then [value] is returned (318). Where the compiler does not construct the local variable
    in the place of the result (copy elision is optional here), 318 is another move, and it may throw. *)
From Coq Require Import List Arith NArith Bool.
From Verif Require Import Base Kernel Buffered.
Import ListNotations.

Section Channel.
Context {V : Type}.

(** YLost: the move of "return value;" (318) throws; everything before has been done. *)
Inductive ylabel := YL (l : label V) | YLost (f : fid).

(** 315-317 as in [fetch]; the call ends with the exception. *)
Definition lost (s : state V) (f : fid) : state V :=
  let c := ch s in
  let c' := mkChan (queues c) (upd (slots c) (cidx c) None) (pidx c) ((cidx c + 1) mod capacity c) (capacity c) (closed c) in
  ret (notify1 (mkState (kn s) c' (pcs s) (log s)) 0) f ValuePop RExn.

(** A step of the channel (Buffered.v), or value_pop() throwing at 318. *)
Definition ystep (s : state V) (l : ylabel) : option (state V) :=
  match l with
  | YL l => step s l
  | YLost f =>
      match pcs s f with
      | Top ValuePop => if running (fib (kn s) f) && transfers (ch s) ValuePop then Some (lost s f) else None
      | _ => None
      end
  end.
End Channel.
Arguments ylabel : clear implicits.
