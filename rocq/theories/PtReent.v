(** Model: what the function of a packaged_task may do to the packaged_task that is executing it (future/packaged_task.hpp:28-137, future/detail/task_object.hpp:29-84, future/detail/shared_state.hpp).
    One packaged_task; its function is a script of operations on that packaged_task and ends with a value or an exception. The operations of a script may as well be those of other fibers, executed while the function is suspended. Every execution of the function may behave differently: a nested call comes with its own script.
    Simplified: one future at most per shared state; move assignment from an empty packaged_task stands for all operations that drop the task (destructor, move assignment, swap with a task that is destroyed), the packaged_task remains as an object; waiting is left out (see C30-C34). *)
From Coq Require Import List Arith Bool.
From Verif Require Import Base.
Import ListNotations.

(** Exceptions: [User e] thrown by the function, packaged_task_uninitialized, future_already_retrieved, promise_already_satisfied, broken_promise (exceptions.hpp:93-142). *)
Inductive exn := User (e : nat) | Uninit | Already | Sat | Broken.
(** What the function returns or throws, and what a shared state holds. *)
Inductive outcome := OVal (v : nat) | OExc (x : exn).
(** Operations: reset() (packaged_task.hpp:124-132), assignment of an empty packaged_task (lines 73-77 and 88-94), get_future() (lines 105-115), and the destruction of the future of shared state i. *)
Inductive op := Reset | Assign | GetFuture | Drop (i : nat).
(** The function: returns, throws, executes an operation and goes on, or calls the packaged_task; c: an exception out of it is caught. *)
Inductive script := Ret (v : nat) | Thr (e : nat) | Do (o : op) (c : bool) (k : script) | Invoke (q : script) (c : bool) (k : script).
(** Newest first: the function of state i starts and ends, its function object is moved away, state i (with the function object) is destroyed, an outcome is stored into it, operator() throws. *)
Inductive event := EStart (i : nat) | EEnd (i : nat) | EMove (i : nat) | EFree (i : nat) | EStore (i : nat) (o : outcome) | EThrow (i : nat) (x : exn).
(** [task]: task_; [obt]: obtained_; [nst]: number of shared states created; [fut i]: a future refers to state i; [res]: the stored outcome; [freed]: destroyed; [ub]: a destroyed state has been used. *)
Record st := mkSt { task : option nat; obt : bool; nst : nat; fut : nat -> bool; res : nat -> option outcome; freed : nat -> bool; ub : bool; log : list event }.
(** A packaged_task with a function (packaged_task.hpp:45-68). *)
Definition fresh : st := mkSt (Some 0) false 1 (fun _ => false) (fun _ => None) (fun _ => false) false [].
(** Bookkeeping of the model. *)
Definition with_log (s : st) (e : event) : st := mkSt (task s) (obt s) (nst s) (fut s) (res s) (freed s) (ub s) (e :: log s).
(** The last reference to i may have gone (intrusive_ptr_release(), shared_state.hpp:149-155, deallocate_future(), task_object.hpp:92-94): task_ and the future are the only references. *)
Definition release (s : st) (i : nat) : st :=
  if match task s with Some j => Nat.eqb j i | None => false end || fut s i || freed s i then s
  else mkSt (task s) (obt s) (nst s) (fut s) (res s) (upd (freed s) i true) (ub s) (EFree i :: log s).
(** One operation; Some x: it throws x. *)
Definition doop (s : st) (o : op) : st * option exn :=
  match o with
  | Reset =>
      match task s with
      | None => (s, Some Uninit)
      (* task_object::reset() moves fn_ into a new task_object; then the temporary drops the old one *)
      | Some i => (release (mkSt (Some (nst s)) false (S (nst s)) (fut s) (res s) (freed s) (ub s) (EMove i :: log s)) i, None)
      end
  | Assign =>
      match task s with
      | None => (s, None)
      (* ~packaged_task() of the temporary: owner_destroyed(), shared_state.hpp:54-62 and 111-114, then the pointer is released *)
      | Some i =>
          let s1 := if obt s then match res s i with None => mkSt (task s) (obt s) (nst s) (fut s) (upd (res s) i (Some (OExc Broken))) (freed s) (ub s) (EStore i (OExc Broken) :: log s) | Some _ => s end else s in
          (release (mkSt None false (nst s1) (fut s1) (res s1) (freed s1) (ub s1) (log s1)) i, None)
      end
  | GetFuture =>
      if obt s then (s, Some Already)
      else match task s with
           | None => (s, Some Uninit)
           | Some i => (mkSt (task s) true (nst s) (upd (fut s) i true) (res s) (freed s) (ub s) (log s), None) end
  | Drop i => if fut s i then (release (mkSt (task s) (obt s) (nst s) (upd (fut s) i false) (res s) (freed s) (ub s) (log s)) i, None) else (s, None)
  end.
(** The rest of task_object::run() after the function (task_object.hpp:56-74): set_value(), or set_exception() from the handler; if the state holds an outcome, set_value() throws promise_already_satisfied, and so does set_exception() in the handler. *)
Definition finish (s : st) (i : nat) (o : outcome) : st * option exn :=
  if freed s i then (mkSt (task s) (obt s) (nst s) (fut s) (res s) (freed s) true (log s), None)
  else match res s i with
       | None => (mkSt (task s) (obt s) (nst s) (fut s) (upd (res s) i (Some o)) (freed s) (ub s) (EStore i o :: log s), None)
       | Some _ => (with_log s (EThrow i Sat), Some Sat) end.
(** The function (fn_, called in task_object.hpp:58-66). *)
Fixpoint body (s : st) (p : script) : st * outcome :=
  match p with
  | Ret v => (s, OVal v)
  | Thr e => (s, OExc (User e))
  | Do o c k => let (s1, r) := doop s o in match r with None => body s1 k | Some x => if c then body s1 k else (s1, OExc x) end
  | Invoke q c k =>
      match task s with
      | None => if c then body s k else (s, OExc Uninit)
      | Some i =>
          let (s1, o) := body (with_log s (EStart i)) q in
          let (s2, r) := finish (with_log s1 (EEnd i)) i o in
          match r with None => body s2 k | Some x => if c then body s2 k else (s2, OExc x) end
      end
  end.
(** operator() (packaged_task.hpp:117-122) for a function that behaves as p; Some x: it throws x. *)
Definition call (s : st) (p : script) : st * option exn :=
  match task s with
  | None => (s, Some Uninit)
  | Some i => let (s1, o) := body (with_log s (EStart i)) p in finish (with_log s1 (EEnd i)) i o
  end.
