(** Model: wait_first_simple(), wait_all_simple() and wait_all_members() of examples/wait_stuff.cpp (doc/when_any.qbk). One call with any number of functions, each on a fiber of its own; the fibers run on any number of threads.
    Simplified: the mutex, the condition variable, the barrier and the futures behave as C01-C16 and C29-C33 say: a critical section under the mutex of Done is one step, wait() on the condition variable releases the mutex and suspends in one step; a barrier counts. Only in wait_all_members() functions may throw; elsewhere an exception ends in std::terminate() (fiber.hpp, context.cpp). *)
From Coq Require Import List Arith Bool.
From Verif Require Import Base.
Import ListNotations.

(** wait_stuff.cpp:167-174, 535-545, 893-915. *)
Inductive kind := FirstSimple | AllSimple | Members.
(** Newest first; the functions are numbered in the order of the arguments. *)
Inductive event :=
  | EEnd (i : nat)            (* function i has ended *)
  | EReturn (is : list nat)   (* the call returns; wait_all_members() with the values of these functions, in this order *)
  | EThrow (i : nat).         (* wait_all_members() throws the exception of function i *)
(** Fiber of a function. [PRun]: before the end of the function. [PSet]: before the critical section of notify() (wait_stuff.cpp:135-138). [PNote]: before notify_one() (139). [PWait]: in barrier::wait() (524). [PDone]: ended. *)
Inductive ppc := PRun | PSet | PNote | PWait | PDone.
(** The caller. [CStart]: the fibers have been launched. [CSleep]: suspended by the condition variable or the barrier. [CGet got]: before futures.get() of the next future, with the values of [got] (902). [CDone]: the call has ended. *)
Inductive cpc := CStart | CSleep | CGet (got : list nat) | CDone.
(** [ready]: Done::ready (124). [arrived]: the number of fibers that are in barrier::wait(). *)
Record st := mkSt { prod : nat -> ppc; cons : cpc; ready : bool; arrived : nat; log : list event }.

Section M.
(** [n] functions; [ok i]: function i returns a value. *)
Context (k : kind) (n : nat) (ok : nat -> bool).
(** wait_stuff.cpp:171-172, 542-543, 913-914. *)
Definition init_state : st := mkSt (fun _ => PRun) (match k with Members => CGet [] | _ => CStart end) false 0 [].
(** [End i]: the function ends. [Go i]: the fiber of the function goes on. [Caller]: the caller goes on. *)
Inductive label := End (i : nat) | Go (i : nat) | Caller.

(** barrier::wait() (wait_stuff.cpp:524, 544, barrier.cpp:26-41) by a fiber: the last of n + 1 releases all others. [m], [c]: the states of the fibers and the caller, in which the arriving one already waits. *)
Definition arrive (s : st) (m : nat -> ppc) (c : cpc) (es : list event) : st :=
  if Nat.eqb (S (arrived s)) (S n)
  then mkSt (fun i => match m i with PWait => PDone | p => p end) CDone (ready s) 0 (EReturn [] :: es ++ log s)
  else mkSt m c (ready s) (S (arrived s)) (es ++ log s).
(** The function ends. *)
Definition ended (s : st) (i : nat) : st :=
  match k with
  | FirstSimple => mkSt (upd (prod s) i PSet) (cons s) (ready s) (arrived s) (EEnd i :: log s)
  | AllSimple => arrive s (upd (prod s) i PWait) (cons s) [EEnd i]
  (* async.hpp:36-55, packaged_task: the future becomes ready *)
  | Members => mkSt (upd (prod s) i PDone) (cons s) (ready s) (arrived s) (EEnd i :: log s)
  end.
(** The caller goes on. *)
Definition caller (s : st) : option st :=
  match cons s, k with
  (* wait_stuff.cpp:130-131: the predicate is tested with the mutex; also after a notification *)
  | CStart, FirstSimple => Some (if ready s then mkSt (prod s) CDone (ready s) (arrived s) (EReturn [] :: log s) else mkSt (prod s) CSleep (ready s) (arrived s) (log s))
  | CStart, AllSimple => Some (arrive s (prod s) CSleep [])
  (* wait_stuff.cpp:902: the elements of a braced list are evaluated from left to right; get() waits *)
  | CGet got, _ =>
      if length got <? n then
        match prod s (length got) with
        | PDone => Some (if ok (length got) then mkSt (prod s) (CGet (got ++ [length got])) (ready s) (arrived s) (log s) else mkSt (prod s) CDone (ready s) (arrived s) (EThrow (length got) :: log s))
        | _ => None
        end
      else Some (mkSt (prod s) CDone (ready s) (arrived s) (EReturn got :: log s))
  | _, _ => None
  end.
(** One step. *)
Definition step (s : st) (l : label) : option st :=
  match l with
  | End i => if i <? n then match prod s i with PRun => Some (ended s i) | _ => None end else None
  | Go i => match prod s i with
      (* wait_stuff.cpp:135-138 *)
      | PSet => Some (mkSt (upd (prod s) i PNote) (cons s) true (arrived s) (log s))
      (* wait_stuff.cpp:139: the caller is woken if it waits *)
      | PNote => Some (mkSt (upd (prod s) i PDone) (match cons s with CSleep => CStart | c => c end) (ready s) (arrived s) (log s))
      | _ => None end
  | Caller => caller s
  end.
End M.
