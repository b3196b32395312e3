(** Model: promise, packaged_task, future and shared_future for a value type whose copy and move constructors may throw (future/detail/shared_state.hpp:36-221, future/promise.hpp:25-143, future/packaged_task.hpp:30-133, future/detail/task_object.hpp:56-76, future/future.hpp:112-155, 446-455).
    One shared state; what the value type does is recorded: every construction in storage_, every destruction, every value that is read.
    Simplified: a critical section under mtx_ is one step; a provider is a promise or a packaged_task whose function runs once per call; exceptions are numbers, and the exception_ptr given to set_exception() is not null (for that see C62); waiting is left out (get() is enabled when the state is ready). *)
From Coq Require Import List Arith Bool.
From Verif Require Import Base.
Import ListNotations.

(** Exceptions: broken_promise, one of the user's. *)
Inductive exn := Broken | User (n : nat).
(** Newest first. [ECons v], [EDest v]: an object is constructed or destroyed in storage_; [EBadDest]: the destructor runs on storage_ without object; [ESet v], [EExc x]: the state has been satisfied; [EFail x]: set_value() lets the exception of the constructor through; [EAlready]: promise_already_satisfied; [EGot v]: get() returns a value that was moved or copied out of, or refers to, the object v; [EGotBad]: get() reads storage_ without object; [ERethrow x]: get() rethrows the stored exception; [EMoveFail x]: get() lets the exception of the move constructor of its result through; [EFree]: the state is deallocated. *)
Inductive event := ECons (v : nat) | EDest (v : nat) | EBadDest | ESet (v : nat) | EExc (x : exn) | EFail (x : nat) | EAlready | EGot (v : nat) | EGotBad | ERethrow (x : exn) | EMoveFail (x : nat) | EFree.
(** shared_state.hpp:39, 44-45, 160: ready_, except_, the object in storage_; [prov], [obt]: the provider points to the state, obtained_; [fut]: a future; [shr]: the number of shared_futures; use_count_ is the number of these pointers. *)
Record st := mkSt { ready : bool; exc : option exn; obj : option nat; prov : bool; obt : bool; fut : bool; shr : nat; freed : bool; log : list event }.
(** [thr]: the exception of the copy or move constructor, if it throws. [SetValue v thr], [SetExc n]: of a promise; [RunVal v thr], [RunExc n]: a packaged_task whose function returns v or throws n; [Get thr]: future::get(); [SGet]: shared_future::get(). *)
Inductive label := SetValue (v : nat) (thr : option nat) | SetExc (n : nat) | RunVal (v : nat) (thr : option nat) | RunExc (n : nat) | GetFuture | Get (thr : option nat) | Share | SCopy | SGet | SDrop | DropProv | DropFut.
(** promise_base() (promise.hpp:37-53), packaged_task() (packaged_task.hpp:49-71). *)
Definition init_state : st := mkSt false None None true false false 0 false [].

(** Model only: an event. *)
Definition add (s : st) (e : event) : st := mkSt (ready s) (exc s) (obj s) (prov s) (obt s) (fut s) (shr s) (freed s) (e :: log s).
(** set_value_() (shared_state.hpp:162-178): the object is constructed before ready_ is set. *)
Definition set_value_ (s : st) (v : nat) (thr : option nat) : st :=
  if ready s then add s EAlready
  else match thr with
    | Some x => add s (EFail x)
    | None => mkSt true (exc s) (Some v) (prov s) (obt s) (fut s) (shr s) (freed s) (ESet v :: ECons v :: log s)
    end.
(** set_exception_() (shared_state.hpp:63-70). *)
Definition set_exception_ (s : st) (x : exn) : st :=
  if ready s then add s EAlready else mkSt true (Some x) (obj s) (prov s) (obt s) (fut s) (shr s) (freed s) (EExc x :: log s).
(** task_object::run() (task_object.hpp:56-76): the exception of the function or of the constructor is caught and stored. *)
Definition run_val (s : st) (v : nat) (thr : option nat) : st := match thr with
  | None => set_value_ s v None
  | Some x => if ready s then add s EAlready else set_exception_ (add s (EFail x)) (User x) end.
(** ~shared_state() (shared_state.hpp:194-198) when the last pointer goes (148-154). *)
Definition release (s : st) : st :=
  if prov s || fut s || negb (shr s =? 0) then s
  else mkSt (ready s) (exc s) None (prov s) (obt s) (fut s) (shr s) true
    (EFree :: (if ready s && match exc s with None => true | Some _ => false end then [match obj s with Some v => EDest v | None => EBadDest end] else []) ++ log s).
(** owner_destroyed_() (shared_state.hpp:54-61). *)
Definition owner_destroyed (s : st) : st := if ready s then s else set_exception_ s Broken.
(** Model only: assignments to the pointers. *)
Definition set_prov (s : st) (b : bool) : st := mkSt (ready s) (exc s) (obj s) b (obt s) (fut s) (shr s) (freed s) (log s).
Definition set_fut (s : st) (b : bool) (n : nat) : st := mkSt (ready s) (exc s) (obj s) (prov s) (obt s) b n (freed s) (log s).
(** get_() (shared_state.hpp:180-187): the object is read. *)
Definition read (s : st) (e : nat -> event) : st := match exc s with
  | Some x => add s (ERethrow x)
  | None => match obj s with Some v => add s (e v) | None => add s EGotBad end end.
(** One step. GetFuture: promise.hpp:78-87; Get: future.hpp:143-150, the future lets go of the state before the result is constructed; Share: share(), future.hpp:446-455; DropProv: ~promise_base() (promise.hpp:55-59), ~packaged_task() (packaged_task.hpp:73-77). *)
Definition step (s : st) (l : label) : option st :=
  match l with
  | SetValue v thr => if prov s then Some (set_value_ s v thr) else None
  | SetExc n => if prov s then Some (set_exception_ s (User n)) else None
  | RunVal v thr => if prov s then Some (run_val s v thr) else None
  | RunExc n => if prov s then Some (set_exception_ s (User n)) else None
  | GetFuture => if prov s && negb (obt s) then Some (mkSt (ready s) (exc s) (obj s) (prov s) true true (shr s) (freed s) (log s)) else None
  | Get thr => if fut s && ready s then Some (release (set_fut (read s (fun v => match thr with None => EGot v | Some x => EMoveFail x end)) false (shr s))) else None
  | Share => if fut s then Some (set_fut s false (S (shr s))) else None
  | SCopy => match shr s with 0 => None | n => Some (set_fut s (fut s) (S n)) end
  | SGet => match shr s with 0 => None | _ => if ready s then Some (read s EGot) else None end
  | SDrop => match shr s with 0 => None | S n => Some (release (set_fut s (fut s) n)) end
  | DropProv => if prov s then Some (release (set_prov (if obt s then owner_destroyed s else s) false)) else None
  | DropFut => if fut s then Some (release (set_fut s false (shr s))) else None
  end.
