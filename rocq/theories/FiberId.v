(** Model: fiber::id (context.hpp:175-227, 261, src/context.cpp:172-175, fiber.hpp:203-209, operations.hpp:28-31), its use in fiber::join() (src/fiber.cpp:43-56), and the names of fibers in examples/asio/autoecho.cpp:64-91. An id is the address of the context; the memory of a context is released with its last reference (context.hpp:379-389) and may be used for the next context.
    Fibers are numbered in the order of their creation; the numbers are not part of the code.
    Simplified: addresses are numbers, 0 is nullptr, and < compares them (the result of comparing pointers to different objects is unspecified in C++). A fiber has one handle (C104). join() of a fiber that runs is not enabled until it has ended. FiberNames::lookup() is one step (it holds mtx_). *)
From Coq Require Import List Arith Bool.
From Verif Require Import Base.
Import ListNotations.

(** operator==, operator<, operator>, operator<=, operator>= (context.hpp:187-209, operator!= is the negation of operator==). *)
Definition id_eq (a b : nat) : bool := a =? b.
Definition id_lt (a b : nat) : bool := a <? b.
Definition id_gt (a b : nat) : bool := b <? a.
Definition id_le (a b : nat) : bool := negb (id_gt a b).
Definition id_ge (a b : nat) : bool := negb (id_lt a b).

(** Newest first. [ENew n]: fiber n is created; [EGone n]: its context is destroyed; [ECmp x y b]: == of two ids that were obtained for x and y (None: not-a-fiber) yields b; [ESelf n x]: join() of fiber n for a handle of x reports resource_deadlock_would_occur; [EInval n]: invalid_argument; [EJoined n m]: join() of n for m has returned; [EName n m k]: lookup() gives fiber n the k-th name, which was made for fiber m. *)
Inductive event := ENew (n : nat) | EGone (n : nat) | ECmp (x y : option nat) (b : bool) | ESelf (n : nat) (x : option nat) | EInval (n : nat) | EJoined (n m : nat) | EName (n m k : nat).
(** [mem]: the fiber whose context is at an address; [refs]: use_count_ (context.hpp:139); [adr], [run]: address and state of a fiber; [hnd]: impl_ of a handle (fiber.hpp:46); [ids]: saved ids, and [who] they were obtained for (model only); [names]: names_ (autoecho.cpp:66), with the fiber for which the entry was made (model only) and its number (next_). *)
Record st := mkSt { mem : nat -> option nat; refs : nat -> nat; adr : nat -> nat; run : nat -> bool; hnd : nat -> nat; ids : nat -> nat; who : nat -> option nat; names : list (nat * (nat * nat)); next : nat; log : list event }.
(** [Main a]: a thread begins, its main context is at a; [Create h a]: fiber() (fiber.hpp:69-140) with its stack at a; [End n]; [Detach h]; [Join n h]: fiber n calls h.join(); [Move h g]: g = std::move( h); [Save i h]: i = h.get_id(); [Self i n]: i = this_fiber::get_id() in fiber n; [Clear i]: i = id(); [Cmp i j]; [Lookup n]: fiber_names.lookup() in fiber n. *)
Inductive label := Main (a : nat) | Create (h a : nat) | End (n : nat) | Detach (h : nat) | Join (n h : nat) | Move (h g : nat) | Save (i h : nat) | Self (i n : nat) | Clear (i : nat) | Cmp (i j : nat) | Lookup (n : nat).
(** No fibers. *)
Definition init_state : st := mkSt (fun _ => None) (fun _ => 0) (fun _ => 0) (fun _ => false) (fun _ => 0) (fun _ => 0) (fun _ => None) [] 0 [].
(** intrusive_ptr_release() (context.hpp:379-389). *)
Definition release (s : st) (a : nat) : st := match refs s a, mem s a with
  | 1, Some n => mkSt (upd (mem s) a None) (upd (refs s) a 0) (adr s) (run s) (hnd s) (ids s) (who s) (names s) (next s) (EGone n :: log s)
  | r, _ => mkSt (mem s) (upd (refs s) a (pred r)) (adr s) (run s) (hnd s) (ids s) (who s) (names s) (next s) (log s) end.
(** A new context at a with r references. *)
Definition fresh (s : st) (a r : nat) : st := let n := next s in
  mkSt (upd (mem s) a (Some n)) (upd (refs s) a r) (upd (adr s) n a) (upd (run s) n true) (hnd s) (ids s) (who s) (names s) (S n) (ENew n :: log s).
(** An address at which a context can be placed: not nullptr and not in use. Simplified: contexts do not overlap. *)
Definition free_at (s : st) (a : nat) : bool := match a, mem s a with S _, None => true | _, _ => false end.
(** Model only: assignments. *)
Definition set_hnd s h a := mkSt (mem s) (refs s) (adr s) (run s) (upd (hnd s) h a) (ids s) (who s) (names s) (next s) (log s).
Definition set_id s i a x := mkSt (mem s) (refs s) (adr s) (run s) (hnd s) (upd (ids s) i a) (upd (who s) i x) (names s) (next s) (log s).
Definition add s e := mkSt (mem s) (refs s) (adr s) (run s) (hnd s) (ids s) (who s) (names s) (next s) (e :: log s).
(** Model only: whose context is at a. *)
Definition owner (s : st) (a : nat) : option nat := match a with 0 => None | _ => mem s a end.
(** One step. End: the scheduler releases its reference (src/scheduler.cpp:24-46); Join: src/fiber.cpp:43-56; Detach: src/fiber.cpp:58-65; Lookup: autoecho.cpp:73-88. *)
Definition step (s : st) (l : label) : option st :=
  match l with
  | Main a => if free_at s a then Some (fresh s a 1) else None
  | Create h a => if free_at s a && (hnd s h =? 0) then Some (set_hnd (fresh s a 2) h a) else None
  | End n => if run s n then Some (release (mkSt (mem s) (refs s) (adr s) (upd (run s) n false) (hnd s) (ids s) (who s) (names s) (next s) (log s)) (adr s n)) else None
  | Detach h => match hnd s h with 0 => None | S _ => Some (release (set_hnd s h 0) (hnd s h)) end
  | Join n h => if run s n then
      if id_eq (adr s n) (hnd s h) then Some (add s (ESelf n (owner s (hnd s h))))
      else match hnd s h with
        | 0 => Some (add s (EInval n))
        | S _ => match mem s (hnd s h) with
            | Some m => if run s m then None else Some (add (release (set_hnd s h 0) (hnd s h)) (EJoined n m))
            | None => None end end
      else None
  | Move h g => if hnd s g =? 0 then Some (set_hnd (set_hnd s g (hnd s h)) h 0) else None
  | Save i h => Some (set_id s i (hnd s h) (owner s (hnd s h)))
  | Self i n => if run s n then Some (set_id s i (adr s n) (Some n)) else None
  | Clear i => Some (set_id s i 0 None)
  | Cmp i j => Some (add s (ECmp (who s i) (who s j) (id_eq (ids s i) (ids s j))))
  | Lookup n => if run s n then match find (fun p => id_eq (fst p) (adr s n)) (names s) with
      | Some (_, (m, k)) => Some (add s (EName n m k))
      | None => Some (add (mkSt (mem s) (refs s) (adr s) (run s) (hnd s) (ids s) (who s) ((adr s n, (n, length (names s))) :: names s) (next s) (log s)) (EName n n (length (names s)))) end
      else None
  end.
