(** Model: handles of fibers, i.e. objects of class fiber (fiber.hpp:40-221, fiber.cpp:23-65). Any number of handles and fibers; fibers of one thread or of several threads act on the same handles, one member function at a time, except that join() is left while it waits (context.cpp:228-243).
    Simplified: what a fiber does between two member functions is not modelled; any fiber that has not terminated and does not wait in join() may call any member function on any handle. The main fiber is 0. The contexts are reference counted by the handle and by the scheduler (context.hpp:412-422). *)
From Coq Require Import List Arith Bool.
From Verif Require Import Base.
Import ListNotations.

(** Newest first. *)
Inductive event :=
  | ECreate (f h c : nat)        (* fiber f makes fiber c with handle h *)
  | EEnd (c : nat)               (* c has terminated *)
  | EDetach (f h c : nat)
  | EWait (f h c : nat)          (* join() begins to wait for c *)
  | EJoined (f h c : nat)        (* join(), called when h referred to c, returns *)
  | EReset (f h c : nat)         (* impl_.reset() of join() (fiber.cpp:55) gives up the reference to c *)
  | EInvalid (f h : nat)         (* fiber_error, invalid_argument *)
  | EDeadlock (f h : nat)        (* fiber_error, resource_deadlock_would_occur *)
  | EAbort (f h : nat)           (* std::terminate(), because of handle h *)
  | EFree (c : nat)              (* the context is destroyed *)
  | EDangling (c : nat)          (* a destroyed context is accessed *)
  | EBadHandle (f h : nat).      (* join() continues on a destroyed handle *)
(** [hnd h]: None: there is no such object; Some i: impl_ is i. [count]: contexts made so far are 1, ..., count-1. [refs]: use_count_. [ended]: terminated_. [reaped]: the scheduler has given up its reference. [joining f]: f waits in join(): handle and context. *)
Record st := mkSt {
  hnd : nat -> option (option nat); count : nat; refs : nat -> nat; ended : nat -> bool; reaped : nat -> bool;
  joining : nat -> option (nat * nat); aborted : bool; log : list event }.
(** Only the main fiber exists (model only). *)
Definition init_state : st := mkSt (fun _ => None) 1 (fun _ => 0) (fun _ => false) (fun _ => false) (fun _ => None) false [].
(** Calls by fiber f: constructor with a function (fiber.hpp:161-172), default constructor, move constructor, move assignment, swap, destructor, detach, join; the end of the wait of join(); the fiber c terminates; the scheduler releases it. *)
Inductive label :=
  | Create (f h : nat) | Default (f h : nat) | MoveTo (f dst src : nat) | Assign (f dst src : nat) | Swap (f a b : nat)
  | Destroy (f h : nat) | Detach (f h : nat) | Join (f h : nat) | Resume (f : nat) | End (c : nat) | Reap (c : nat).

(** Field updates (model only). *)
Definition set_hnd (s : st) (m : nat -> option (option nat)) (es : list event) : st :=
  mkSt m (count s) (refs s) (ended s) (reaped s) (joining s) (aborted s) (es ++ log s).
(** Append events (model only). *)
Definition emit (s : st) (es : list event) : st := set_hnd s (hnd s) es.
(** std::terminate(), fiber.hpp:176, 190. *)
Definition abort (s : st) (f h : nat) : st := mkSt (hnd s) (count s) (refs s) (ended s) (reaped s) (joining s) true (EAbort f h :: log s).
(** f begins or ends its wait (model only). *)
Definition set_joining (s : st) (f : nat) (v : option (nat * nat)) : st :=
  mkSt (hnd s) (count s) (refs s) (ended s) (reaped s) (upd (joining s) f v) (aborted s) (log s).
(** Exchange of two handles: impl_.swap( other.impl_), fiber.hpp:195, 200. *)
Definition swap (m : nat -> option (option nat)) (a b : nat) : nat -> option (option nat) := upd (upd m a (m b)) b (m a).
(** intrusive_ptr_release, context.hpp:412-422 *)
Definition release (s : st) (c : nat) : st :=
  match refs s c with
  | 0 => emit s [EDangling c]
  | 1 => mkSt (hnd s) (count s) (upd (refs s) c 0) (ended s) (reaped s) (joining s) (aborted s) (EFree c :: log s)
  | S r => mkSt (hnd s) (count s) (upd (refs s) c r) (ended s) (reaped s) (joining s) (aborted s) (log s)
  end.
(** impl_.reset(), fiber.cpp:55, 63 *)
Definition reset (s : st) (h : nat) : st :=
  match hnd s h with
  | Some (Some c) => release (set_hnd s (upd (hnd s) h (Some None)) []) c
  | _ => s
  end.
(** Can fiber f call a function? *)
Definition can_act (s : st) (f : nat) : bool :=
  (Nat.eqb f 0 || (Nat.ltb f (count s) && negb (ended s f))) && match joining s f with None => true | _ => false end.
(** The end of join(): line 55 of fiber.cpp, for the handle that join() was called on. *)
Definition finish_join (s : st) (f h c : nat) : st :=
  match hnd s h with
  | None => emit s [EBadHandle f h]
  | Some None => emit s [EJoined f h c]
  | Some (Some d) => reset (emit s [EJoined f h c; EReset f h d]) h
  end.
(** fiber::join(), fiber.cpp:43-56; context::join(), context.cpp:228-243. *)
Definition join (s : st) (f h : nat) : option st :=
  match hnd s h with
  | None => None
  | Some None => Some (emit s [EInvalid f h])
  | Some (Some c) =>
      if Nat.eqb c f then Some (emit s [EDeadlock f h])
      else if Nat.eqb (refs s c) 0 then Some (emit s [EDangling c])
      else if ended s c then Some (finish_join s f h c)
      else Some (set_joining (emit s [EWait f h c]) f (Some (h, c)))
  end.

(** One call or one event; nothing happens after std::terminate(). *)
Definition step (s : st) (l : label) : option st :=
  if aborted s then None else
  match l with
  | Create f h =>
      if can_act s f then match hnd s h with
        | None => Some (mkSt (upd (hnd s) h (Some (Some (count s)))) (S (count s)) (upd (refs s) (count s) 2) (ended s) (reaped s) (joining s) false (ECreate f h (count s) :: log s))
        | _ => None end else None
  | Default f h => if can_act s f then match hnd s h with None => Some (set_hnd s (upd (hnd s) h (Some None)) []) | _ => None end else None
  (* fiber( fiber && other), fiber.hpp:183-186 *)
  | MoveTo f d r =>
      if can_act s f then match hnd s d, hnd s r with
        | None, Some _ => Some (set_hnd s (swap (upd (hnd s) d (Some None)) d r) [])
        | _, _ => None end else None
  (* operator=( fiber && other), fiber.hpp:188-197 *)
  | Assign f d r =>
      if can_act s f then match hnd s d, hnd s r with
        | Some (Some _), Some _ => Some (abort s f d)
        | Some None, Some _ => if Nat.eqb d r then Some s else Some (set_hnd s (swap (hnd s) d r) [])
        | _, _ => None end else None
  (* swap(), fiber.hpp:199-201 *)
  | Swap f a b =>
      if can_act s f then match hnd s a, hnd s b with
        | Some _, Some _ => Some (set_hnd s (swap (hnd s) a b) [])
        | _, _ => None end else None
  (* ~fiber(), fiber.hpp:174-178 *)
  | Destroy f h =>
      if can_act s f then match hnd s h with
        | Some (Some _) => Some (abort s f h)
        | Some None => Some (set_hnd s (upd (hnd s) h None) [])
        | None => None end else None
  (* detach(), fiber.cpp:58-65 *)
  | Detach f h =>
      if can_act s f then match hnd s h with
        | Some (Some c) => Some (reset (emit s [EDetach f h c]) h)
        | Some None => Some (emit s [EInvalid f h])
        | None => None end else None
  | Join f h => if can_act s f then join s f h else None
  (* the joining fiber has been woken by terminate() (context.cpp:268-271) *)
  | Resume f =>
      match joining s f with
      | Some (h, c) => if ended s c then Some (finish_join (set_joining s f None) f h c) else None
      | None => None
      end
  (* context::terminate(), context.cpp:264-280 *)
  | End c =>
      if Nat.ltb 0 c && Nat.ltb c (count s) && negb (ended s c) then match joining s c with
        | None => Some (mkSt (hnd s) (count s) (refs s) (upd (ended s) c true) (reaped s) (joining s) false (EEnd c :: log s))
        | _ => None end else None
  (* scheduler::release_terminated_(), scheduler.cpp:25-46 *)
  | Reap c =>
      if ended s c && negb (reaped s c) then
        Some (release (mkSt (hnd s) (count s) (refs s) (ended s) (upd (reaped s) c true) (joining s) false (log s)) c)
      else None
  end.
