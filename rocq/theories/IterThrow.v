(** Model: a range-based for loop over a channel whose elements may throw when they are moved (iterators: buffered_channel.hpp:357-441, unbuffered_channel.hpp:393-476; examples/range_for.cpp:28). The model Iter has the iterators without such exceptions. *)
From Coq Require Import List Arith Bool.
From Verif Require Import Base.
Import ListNotations.

(** An exception of the element type: of a class derived from fiber_error (exceptions.hpp:28-58; for example a lock_error, if the element locks a mutex), or another one. *)
Inductive exn := FiberError | Other.
(** What one value_pop() does, together with the construction of the element in storage_ (buffered_channel.hpp:370, unbuffered_channel.hpp:406): a value; fiber_error because the channel is closed; an exception of the element. *)
Inductive pop := Value (v : nat) | Closed | Throws (e : exn).
(** storage_: no object was ever constructed, a living object, a destroyed object. *)
Inductive storage := Raw | Live (v : nat) | Dead.
(** An iterator: chan_ is not nullptr; storage_. *)
Record iter := Iter { chan : bool; sto : storage }.
(** How a member function ends: it returns, an exception leaves it, std::terminate() is called. *)
Inductive ends := Returns (i : iter) | Exits (i : iter) (e : exn) | Terminate.

(** increment_() after the destruction of the old element (buffered_channel.hpp:370-373, unbuffered_channel.hpp:406-409): catch ( fiber_error const&) ends the iteration, other exceptions pass. [old]: what is in storage_ before. *)
Definition increment (old : storage) (p : pop) : ends :=
  match p with
  | Value v => Returns (Iter true (Live v))
  | Closed | Throws FiberError => Returns (Iter false old)
  | Throws Other => Exits (Iter true old) Other
  end.
(** The constructor, which is noexcept (buffered_channel.hpp:387-390, unbuffered_channel.hpp:423-426), called by begin() (433-435, 468-470). *)
Definition begin (p : pop) : ends := match increment Raw p with Exits _ _ => Terminate | r => r end.
(** operator++ (buffered_channel.hpp:411-415, unbuffered_channel.hpp:446-450): the element is destroyed first. *)
Definition next (i : iter) (p : pop) : ends := increment (match sto i with Raw => Raw | _ => Dead end) p.
(** How the loop ends, with the values its body saw: regularly, by an exception, by std::terminate(); [Stuck]: value_pop() has not returned yet (no further outcome is given), [Bad]: the body was given no living object. *)
Inductive verdict := Regular (vs : list nat) | Exception (vs : list nat) (e : exn) | Terminated (vs : list nat) | Stuck (vs : list nat) | Bad.
(** The loop from the test of its condition on (range_for.cpp:28-30): [i] != end(), the body, ++. [vs]: what the body saw so far, newest first. *)
Fixpoint loop (i : iter) (vs : list nat) (ps : list pop) : verdict :=
  if chan i then
    match sto i with
    | Live v => match ps with
        | [] => Stuck (rev (v :: vs))
        | p :: r => match next i p with Returns i' => loop i' (v :: vs) r | Exits _ e => Exception (rev (v :: vs)) e | Terminate => Terminated (rev (v :: vs)) end
        end
    | _ => Bad
    end
  else Regular (rev vs).
(** The whole statement; [ps]: what the calls of value_pop() do. *)
Definition range_for (ps : list pop) : verdict :=
  match ps with
  | [] => Stuck []
  | p :: r => match begin p with Returns i => loop i [] r | Exits _ e => Exception [] e | Terminate => Terminated [] end
  end.
