(** Model: the skynet benchmarks (performance/fiber/skynet_join.cpp:30-83 and its variants skynet_shared_join.cpp, skynet_stealing_join.cpp:42-65, skynet_detach.cpp:30-49, skynet_shared_detach.cpp, skynet_stealing_detach.cpp): a tree of fibers, each with a buffered channel for the sums of its children.
    Every fiber may take the next step at any time (any scheduling algorithm, any number of threads). A channel is a bounded FIFO queue (C17-C20); push() with a full channel and value_pop() with an empty one wait. Terminated fibers can be joined (C36).
    Simplified: numbers do not overflow; the stack allocator is left out; push() and the end of the fiber are one step where nothing else is in between. *)
From Coq Require Import List Arith Bool.
From Verif Require Import Base.
Import ListNotations.

(** The variants: [JoinPop]: joins the children, then takes their values (skynet_join.cpp:44-51, skynet_shared_join.cpp); [PopJoin]: takes the values, passes on the sum, then joins (skynet_stealing_join.cpp:56-63); [Detach]: takes the values only (skynet_detach.cpp:43-47). *)
Inductive mode := JoinPop | PopJoin | Detach.
(** A fiber that executes skynet( c, num, size, div): [New]: at the beginning; [Par n sz cs q k s]: has launched the children cs, their channel rc holds q, k values have been taken, with sum s; [Tail cs q]: has pushed its sum and joins the children; [Done]: terminated. *)
Inductive fib := New (n sz : nat) | Par (n sz : nat) (cs : list fib) (q : list nat) (k s : nat) | Tail (cs : list fib) (q : list nat) | Done.
Definition is_done (f : fib) : bool := match f with Done => true | _ => false end.
(** Replaces element i. *)
Fixpoint setn {A} (l : list A) (i : nat) (x : A) : list A := match l, i with [], _ => [] | _ :: l, 0 => x :: l | y :: l, S i => y :: setn l i x end.

Section Skynet.
(** The variant, div, and the number of values that fit into rc{ 16 }, which is 15 (buffered_channel.hpp:52-54, C18). *)
Variables (m : mode) (d cap : nat).
(** A step of the fiber itself (skynet_join.cpp:31-53); the number is pushed into the channel of the parent. *)
Definition own (f : fib) : option (fib * option nat) :=
  match f with
  | New n sz => if Nat.eqb sz 1 then Some (Done, Some n) else Some (Par n sz [] [] 0 0, None)
  | Par n sz cs q k s =>
      if length cs <? d then Some (Par n sz (cs ++ [New (n + length cs * sz / d) (sz / d)]) q k s, None)
      else if k <? d then
        match m with JoinPop => if forallb is_done cs then match q with v :: q' => Some (Par n sz cs q' (S k) (s + v), None) | [] => None end else None
                   | _ => match q with v :: q' => Some (Par n sz cs q' (S k) (s + v), None) | [] => None end end
      else Some (match m with PopJoin => Tail cs q | _ => Done end, Some s)
  | Tail cs q => if forallb is_done cs then Some (Done, None) else None
  | Done => None
  end.
(** A step of the descendant with the given path; a value of a child enters the channel if there is room. *)
Fixpoint step (p : list nat) (f : fib) : option (fib * option nat) :=
  match p with
  | [] => own f
  | i :: p' =>
      match f with
      | Par n sz cs q k s =>
          match nth_error cs i with
          | Some c => match step p' c with
                      | Some (c', None) => Some (Par n sz (setn cs i c') q k s, None)
                      | Some (c', Some v) => if length q <? cap then Some (Par n sz (setn cs i c') (q ++ [v]) k s, None) else None
                      | None => None end
          | None => None end
      | Tail cs q =>
          match nth_error cs i with
          | Some c => match step p' c with
                      | Some (c', None) => Some (Tail (setn cs i c') q, None)
                      | Some (c', Some v) => if length q <? cap then Some (Tail (setn cs i c') (q ++ [v]), None) else None
                      | None => None end
          | None => None end
      | _ => None end
  end.
(** main() (skynet_join.cpp:55-83): skynet() is called with the channel rc{ 2 }, which holds one value; that value is the result. *)
Record st := mkSt { root : fib; out : list nat }.
Definition init_state (size : nat) : st := mkSt (New 0 size) [].
Definition mstep (s : st) (p : list nat) : option st :=
  match step p (root s) with
  | Some (f, None) => Some (mkSt f (out s))
  | Some (f, Some v) => if length (out s) <? 1 then Some (mkSt f (out s ++ [v])) else None
  | None => None end.
End Skynet.
