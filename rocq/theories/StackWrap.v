(** Model: class stack_allocator_wrapper (include/boost/fiber/stack_allocator_wrapper.hpp:56-90) and its use for the stack of a fiber (include/boost/fiber/context.hpp:487-511, 471; src/context.cpp:45-68). Wrappers, fibers (worker or dispatcher contexts), wrapped allocators and stacks are numbered. An allocator succeeds and the constructors do not throw (FiberMake has the exceptions). The record in which boost::context::fiber keeps the allocator is trusted to move it out, to deallocate the stack with it and to destroy it, in this order. *)
From Coq Require Import List Arith Bool.
From Verif Require Import Base.
Import ListNotations.

(** _allocator->allocate(), _allocator->deallocate() (stack_allocator_wrapper.hpp:41-49, 70-78) with the stack; the destructor of the wrapped allocator (18, 39). *)
Inductive event := EAlloc (a n : nat) | EDealloc (a n : nat) | EDestroy (a : nat).
(** The wrappers ([None]: there is no such object; [Some None]: the unique_ptr is null, line 81), the fibers with allocator and stack (context.hpp:471, 494), the numbers of allocators and stacks created so far; [ub]: a null pointer was dereferenced; the log, newest first. *)
Record st := mkSt { wr : nat -> option (option nat); fibs : nat -> option (nat * nat); na : nat; ns : nat; ub : bool; log : list event }.
(** Nothing exists (stack_allocator_wrapper.hpp:56). *)
Definition init : st := mkSt (fun _ => None) (fun _ => None) 0 0 false [].
(** make_stack_allocator_wrapper() (84-90, 58-60); the move constructor (67); the move assignment (68); the destructor (62); the creation of a fiber with std::move( wrapper) (context.hpp:487-511); the end of a fiber (context.hpp:379-389). *)
Inductive label := LMake (w : nat) | LMoveCtor (d s : nat) | LMoveAssign (d s : nat) | LDrop (w : nat) | LCreate (f w : nat) | LEnd (f : nat).
(** The destructor of a unique_ptr (stack_allocator_wrapper.hpp:62, 68, 81). *)
Definition destroy (v : option nat) (h : list event) : list event := match v with Some a => EDestroy a :: h | None => h end.
(** One operation (stack_allocator_wrapper.hpp:56-90, context.hpp:379-389, 487-511); the assignment of a unique_ptr to itself changes nothing. *)
Definition step (s : st) (l : label) : option st :=
  match l with
  | LMake w => match wr s w with None => Some (mkSt (upd (wr s) w (Some (Some (na s)))) (fibs s) (S (na s)) (ns s) (ub s) (log s)) | Some _ => None end
  | LMoveCtor d x => match wr s d, wr s x with
      | None, Some v => Some (mkSt (upd (upd (wr s) d (Some v)) x (Some None)) (fibs s) (na s) (ns s) (ub s) (log s))
      | _, _ => None end
  | LMoveAssign d x => match wr s d, wr s x with
      | Some old, Some v => if d =? x then Some s else Some (mkSt (upd (upd (wr s) d (Some v)) x (Some None)) (fibs s) (na s) (ns s) (ub s) (destroy old (log s)))
      | _, _ => None end
  | LDrop w => match wr s w with Some v => Some (mkSt (upd (wr s) w None) (fibs s) (na s) (ns s) (ub s) (destroy v (log s))) | None => None end
  | LCreate f w => match fibs s f, wr s w with
      | None, Some (Some a) => Some (mkSt (upd (wr s) w (Some None)) (upd (fibs s) f (Some (a, ns s))) (na s) (S (ns s)) (ub s) (EAlloc a (ns s) :: log s))
      | None, Some None => Some (mkSt (wr s) (fibs s) (na s) (ns s) true (log s))
      | _, _ => None end
  | LEnd f => match fibs s f with
      | Some (a, n) => Some (mkSt (wr s) (upd (fibs s) f None) (na s) (ns s) (ub s) (EDestroy a :: EDealloc a n :: log s))
      | None => None end
  end.
