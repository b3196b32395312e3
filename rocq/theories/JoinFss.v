(** Model: the end of a fiber and join(), with the cleanup functions of fiber-local storage (context.cpp:228-243, 264-280, scheduler.cpp:216-240, waker.cpp:16-23). Any number of fibers on any number of threads; fibers do not migrate.
    The spinlock splk_ of a context is held by its fiber from the beginning of terminate() to scheduler::terminate(), i.e. while the cleanup functions run. A cleanup function is user code, which may suspend its fiber.
    Simplified: the test of a spinlock and its acquisition are one step; a joining fiber whose context switch releases the lock is one step. *)
From Coq Require Import List Arith Bool.
From Verif Require Import Base.
Import ListNotations.

(** Newest first. *)
Inductive event :=
  | EExit (c : nat)        (* the function of fiber c has returned *)
  | EClean (c : nat)       (* a cleanup function of c has returned *)
  | EEnded (c : nat)       (* terminate() has released the lock and given up the processor *)
  | EJoin (g c : nat)      (* g calls join() for c *)
  | ENow (g c : nat)       (* join() has found c terminated *)
  | EJoined (g c : nat).   (* join() returns *)
(** [Idle]: outside of the functions modelled. [Cleaning k]: in terminate(), k cleanup functions to go, splk_ held. [Spin c]: in join(), before the acquisition of splk_ of c (context.cpp:233). [Waiting c]: suspended (239). [Woken c]: its waker has been called. *)
Inductive pc := Idle | Cleaning (k : nat) | Spin (c : nat) | Waiting (c : nat) | Woken (c : nat) | Gone.
(** [fib]: what a fiber does. [run t]: the fiber that has the processor of thread t. [sleep f]: the fiber is suspended in user code (a cleanup function, or its own). [ended c]: terminated_. *)
Record st := mkSt { fib : nat -> pc; run : nat -> option nat; sleep : nat -> bool; ended : nat -> bool; log : list event }.
(** Nothing runs yet; all fibers exist (model only). *)
Definition init_state : st := mkSt (fun _ => Idle) (fun _ => None) (fun _ => false) (fun _ => false) [].
(** [Pick f]: the scheduler of its thread resumes f. [Yield f], [Sleep f]: the running fiber gives up the processor and stays ready / is suspended until [Wake f]. [Exit f]: terminate() is called. [Clean f]: the next cleanup function runs to its end. [End f]: scheduler::terminate(). [Join g c]: join() is called. [Go g]: join() continues. *)
Inductive label := Pick (f : nat) | Yield (f : nat) | Sleep (f : nat) | Wake (f : nat) | Exit (f : nat) | Clean (f : nat) | End (f : nat) | Join (g c : nat) | Go (g : nat).

Section M.
(** The thread of a fiber and the number of its cleanup functions (fss_data_, context.cpp:274). *)
Context (thr cleanups : nat -> nat).

(** The fiber has the processor of its thread. *)
Definition runs (s : st) (f : nat) : bool := match run s (thr f) with Some g => Nat.eqb g f | None => false end.
(** Is splk_ of c held? By c itself, in terminate() (267); the critical sections of join() are single steps. *)
Definition locked (s : st) (c : nat) : bool := match fib s c with Cleaning _ => true | _ => false end.
(** Field updates (model only). *)
Definition put (s : st) (f : nat) (p : pc) (es : list event) : st := mkSt (upd (fib s) f p) (run s) (sleep s) (ended s) (es ++ log s).
(** f gives up the processor (model only). *)
Definition off (s : st) (f : nat) : st := mkSt (fib s) (upd (run s) (thr f) None) (sleep s) (ended s) (log s).
(** wait_queue_.notify_all(), context.cpp:271, waker.cpp:53-59: all fibers that wait for c are woken. *)
Definition wake_all (m : nat -> pc) (c : nat) : nat -> pc := fun g => match m g with Waiting d => if Nat.eqb d c then Woken c else Waiting d | p => p end.
(** The critical section of context::join(), context.cpp:233-242. *)
Definition enter (s : st) (g c : nat) : st :=
  if ended s c then put s g Idle [EJoined g c; ENow g c] else off (put s g (Waiting c) []) g.

(** One step. *)
Definition step (s : st) (l : label) : option st :=
  match l with
  | Pick f =>
      match run s (thr f), fib s f with
      | None, (Idle | Cleaning _ | Woken _) => if sleep s f then None else Some (mkSt (fib s) (upd (run s) (thr f) (Some f)) (sleep s) (ended s) (log s))
      | _, _ => None
      end
  | Yield f => if runs s f then match fib s f with Idle | Cleaning _ => Some (off s f) | _ => None end else None
  | Sleep f => if runs s f then match fib s f with Idle | Cleaning _ => Some (off (mkSt (fib s) (run s) (upd (sleep s) f true) (ended s) (log s)) f) | _ => None end else None
  | Wake f => if sleep s f then Some (mkSt (fib s) (run s) (upd (sleep s) f false) (ended s) (log s)) else None
  (* context::terminate(), context.cpp:264-272 *)
  | Exit f =>
      if runs s f then match fib s f with
        | Idle => Some (mkSt (upd (wake_all (fib s) f) f (Cleaning (cleanups f))) (run s) (sleep s) (upd (ended s) f true) (EExit f :: log s))
        | _ => None end else None
  (* 274-276 *)
  | Clean f => if runs s f then match fib s f with Cleaning (S k) => Some (put s f (Cleaning k) [EClean f]) | _ => None end else None
  (* 277-280, scheduler.cpp:230-239 *)
  | End f => if runs s f then match fib s f with Cleaning 0 => Some (off (put s f Gone [EEnded f]) f) | _ => None end else None
  (* fiber::join(), fiber.cpp:43-54, and context::join() *)
  | Join g c =>
      if runs s g && negb (Nat.eqb g c) then match fib s g with
        | Idle => Some (put s g (Spin c) [EJoin g c])
        | _ => None end else None
  | Go g =>
      if runs s g then match fib s g with
        | Spin c => if locked s c then None else Some (enter s g c)
        | Woken c => Some (put s g Idle [EJoined g c])
        | _ => None end else None
  end.
End M.
