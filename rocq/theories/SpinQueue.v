(** Model: detail/context_spinlock_queue.hpp, the ready queue of work_stealing. Each operation holds splk_ from beginning to end, so it is one atomic step.
    Indices are unbounded: std::size_t would overflow only for an array that does not fit into memory. [None] is undefined behaviour: an access outside of the array, or division by a capacity of 0. *)
From Coq Require Import List Arith Bool.
Import ListNotations.

Section Queue.
Variable A : Type.            (* context * *)
Variable pinned : A -> bool.  (* is_context( type::pinned_context) *)

(** context_spinlock_queue.hpp:34-37. A slot that was never written is [None]. *)
Record queue := mkQ { pidx : nat; cidx : nat; cap : nat; slots : list (option A) }.

(** context_spinlock_queue.hpp:62-65 *)
Definition create (capacity : nat) : queue := mkQ 0 0 capacity (repeat None capacity).

(** context_spinlock_queue.hpp:43, 45: n elements from src + soff to dst + doff. *)
Definition memcpy (dst : list (option A)) (doff : nat) (src : list (option A)) (soff n : nat) : option (list (option A)) :=
  if (soff + n <=? length src) && (doff + n <=? length dst)
  then Some (firstn doff dst ++ firstn n (skipn soff src) ++ skipn (doff + n) dst) else None.

(** context_spinlock_queue.hpp:39-51; [cap - cidx] does not wrap since cidx_ < capacity_ ([None] otherwise). *)
Definition resize (q : queue) : option queue :=
  if cap q <? cidx q then None else
  let offset := cap q - cidx q in
  match memcpy (repeat None (2 * cap q)) 0 (slots q) (cidx q) offset with
  | None => None
  | Some m =>
      match (if 0 <? cidx q then memcpy m offset (slots q) 0 (pidx q) else Some m) with
      | None => None
      | Some m' => Some (mkQ (cap q - 1) 0 (2 * cap q) m')
      end
  end.

(** context_spinlock_queue.hpp:53-55; division by zero is undefined. *)
Definition is_full (q : queue) : option bool :=
  if cap q =? 0 then None else Some (cidx q =? (pidx q + 1) mod cap q).
(** context_spinlock_queue.hpp:57-59 *)
Definition is_empty (q : queue) : bool := cidx q =? pidx q.

(** context_spinlock_queue.hpp:84: slots_[i] = c *)
Definition write (l : list (option A)) (i : nat) (c : A) : option (list (option A)) :=
  if i <? length l then Some (firstn i l ++ Some c :: skipn (S i) l) else None.

(** context_spinlock_queue.hpp:79-86 *)
Definition push (q : queue) (c : A) : option queue :=
  match is_full q with
  | None => None
  | Some full =>
      match (if full then resize q else Some q) with
      | None => None
      | Some q1 =>
          match write (slots q1) (pidx q1) c with
          | None => None
          | Some m => Some (mkQ ((pidx q1 + 1) mod cap q1) (cidx q1) (cap q1) m)
          end
      end
  end.

(** context_spinlock_queue.hpp:92, 102: slots_[cidx_]; a slot that was never written is an indeterminate value. *)
Definition front (q : queue) : option A := match nth_error (slots q) (cidx q) with Some (Some c) => Some c | _ => None end.
(** context_spinlock_queue.hpp:93, 106 *)
Definition drop (q : queue) : queue := mkQ (pidx q) ((cidx q + 1) mod cap q) (cap q) (slots q).

(** context_spinlock_queue.hpp:88-96; the result nullptr is [None]. *)
Definition pop (q : queue) : option (queue * option A) :=
  if is_empty q then Some (q, None)
  else match front q with None => None | Some c => Some (drop q, Some c) end.

(** context_spinlock_queue.hpp:98-109 *)
Definition steal (q : queue) : option (queue * option A) :=
  if is_empty q then Some (q, None)
  else match front q with
       | None => None
       | Some c => if pinned c then Some (q, None) else Some (drop q, Some c)
       end.

Inductive op := Push (c : A) | Pop | Steal | Empty.
(** What a call returns. *)
Inductive res := RPush | RPop (o : option A) | RSteal (o : option A) | REmpty (b : bool).

Definition step (q : queue) (o : op) : option (queue * res) :=
  match o with
  | Push c => match push q c with Some q' => Some (q', RPush) | None => None end
  | Pop => match pop q with Some (q', r) => Some (q', RPop r) | None => None end
  | Steal => match steal q with Some (q', r) => Some (q', RSteal r) | None => None end
  | Empty => Some (q, REmpty (is_empty q))   (* context_spinlock_queue.hpp:74-77 *)
  end.

(** A sequence of calls, by whichever threads, in the order in which they take the spinlock; results in the same order. *)
Fixpoint exec (q : queue) (os : list op) : option (queue * list res) :=
  match os with
  | [] => Some (q, [])
  | o :: os' => match step q o with
                | None => None
                | Some (q', r) => match exec q' os' with Some (q2, rs) => Some (q2, r :: rs) | None => None end
                end
  end.
End Queue.
Arguments mkQ {A}. Arguments pidx {A}. Arguments cidx {A}. Arguments cap {A}. Arguments slots {A}.
Arguments create {A}. Arguments resize {A}. Arguments is_full {A}. Arguments is_empty {A}. Arguments push {A}. Arguments pop {A}. Arguments steal {A}.
Arguments Push {A}. Arguments Pop {A}. Arguments Steal {A}. Arguments Empty {A}. Arguments RPush {A}. Arguments RPop {A}. Arguments RSteal {A}. Arguments REmpty {A}.
Arguments step {A}. Arguments exec {A}. Arguments write {A}. Arguments memcpy {A}. Arguments front {A}. Arguments drop {A}.
