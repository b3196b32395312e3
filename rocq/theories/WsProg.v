(** Model: examples/work_sharing.cpp as a whole program, any number of fibers, threads and iterations (26 fibers, 3 additional threads and 10 iterations in the example). examples/work_stealing.cpp differs only in the scheduling algorithm.
    The model starts when the barrier (work_sharing.cpp:72, 110) has been passed: until then no thread suspends its main fiber, so that no worker fiber has run (launch::post, line 99), fiber_count has been set by the main thread alone (line 100).
    Simplified: a thread whose running fiber suspends or ends may continue with any ready worker fiber (src/algo/shared_work.cpp:43-68: the front of the queue shared by all threads; src/algo/work_stealing.cpp:57-89: its own or a stolen one) or with its main fiber if that is ready; the model allows every order. A thread that finds nothing to do polls without effect. A dispatcher fiber is not represented. notify_all() is one step under the spinlock of the condition variable. Output to std::cout and the exceptions it may throw (lines 32-51) are left out. *)
From Coq Require Import List Arith Bool.
From Verif Require Import Base.
Import ListNotations.

Definition tid := nat.   (* threads, 0 is the one that executes main() *)
Definition fid := nat.   (* worker fibers *)
(** A worker fiber (work_sharing.cpp:31-57): ready with n iterations left; running in line 39 with n iterations left; before line 52; before line 53; holding the lock after the decrement, before line 57 or before line 54; before line 55; ended. *)
Inductive fpc := FReady (n : nat) | FRun (n : nat) | FLock | FDec | FUnl | FUnl0 | FNotify | FDone.
(** A main fiber in work_sharing.cpp:73-80 (111-130 for the main thread) and condition_variable_any::wait() (include/boost/fiber/condition_variable.hpp:66-91): locking mtx_count; evaluating the predicate; before taking wait_queue_splk_; before unlocking mtx_count; before being enqueued and suspended; waiting; woken; before unlocking at the end; returned; main() returned (line 129). *)
Inductive mpc := MLock | MCheck | MSplk | MUnl | MEnq | MWaiting | MReady | MUnlEnd | MExit | MEnd.
(** Owner of mtx_count (work_sharing.cpp:23). *)
Inductive own := OM (k : tid) | OF (f : fid).
(** Observable events, newest first: the fiber function returned; cnd_count.wait() returned in thread k with this value of fiber_count; main() returned. *)
Inductive event := EEnd (f : fid) | EReturn (k : tid) (c : nat) | EProgram.
(** fiber_count, mtx_count (work_sharing.cpp:22-23), wait_queue_splk_ of cnd_count (line 24), the fibers and the worker fiber that a thread is running. *)
Record st := mkSt { cnt : nat; mtx : option own; splk : option tid; fp : fid -> fpc; on : fid -> tid; cur : tid -> option fid; mains : tid -> mpc; log : list event }.
(** [m] fibers are ready (lines 94-101), [n] additional threads and the main thread have passed the barrier; [y] iterations (line 38). *)
Definition init (n m y : nat) : st :=
  mkSt m None None (fun f => if f <? m then FReady y else FDone) (fun _ => 0) (fun _ => None) (fun k => if k <=? n then MLock else MExit) [].

(** The main fiber of a thread continues, a worker fiber continues, a thread picks a ready worker fiber or its main fiber (shared_work.cpp:43-68). *)
Inductive label := LMain (k : tid) | LFib (f : fid) | LPick (k : tid) (f : fid) | LResume (k : tid).

(** Field updates, no counterpart in the code. *)
Definition set_f (s : st) (f : fid) (p : fpc) := mkSt (cnt s) (mtx s) (splk s) (upd (fp s) f p) (on s) (cur s) (mains s) (log s).
Definition set_m (s : st) (k : tid) (p : mpc) := mkSt (cnt s) (mtx s) (splk s) (fp s) (on s) (cur s) (upd (mains s) k p) (log s).
Definition set_x (s : st) (o : option own) := mkSt (cnt s) o (splk s) (fp s) (on s) (cur s) (mains s) (log s).
Definition set_p (s : st) (o : option tid) := mkSt (cnt s) (mtx s) o (fp s) (on s) (cur s) (mains s) (log s).
Definition set_c (s : st) (c : nat) := mkSt c (mtx s) (splk s) (fp s) (on s) (cur s) (mains s) (log s).
Definition leave (s : st) (f : fid) := mkSt (cnt s) (mtx s) (splk s) (fp s) (on s) (upd (cur s) (on s f) None) (mains s) (log s).
Definition emit (s : st) (e : event) := mkSt (cnt s) (mtx s) (splk s) (fp s) (on s) (cur s) (mains s) (e :: log s).

(** condition_variable_any::notify_all() (src/condition_variable.cpp:25-28): every main fiber in the wait queue becomes ready. *)
Definition notify_all (s : st) :=
  mkSt (cnt s) (mtx s) (splk s) (fp s) (on s) (cur s) (fun k => match mains s k with MWaiting => MReady | p => p end) (log s).

(** Next step of the running worker fiber [f] (work_sharing.cpp:38-57). *)
Definition fib_step (s : st) (f : fid) : option st :=
  match fp s f with
  | FRun (S n) => Some (leave (set_f s f (FReady n)) f)                                           (* line 39 *)
  | FRun 0 => Some (set_f s f FLock)                                                              (* line 38 *)
  | FLock => match mtx s with None => Some (set_x (set_f s f FDec) (Some (OF f))) | _ => None end (* line 52 *)
  | FDec => Some (set_c (set_f s f (if pred (cnt s) =? 0 then FUnl0 else FUnl)) (pred (cnt s)))   (* line 53 *)
  | FUnl => Some (emit (leave (set_x (set_f s f FDone) None) f) (EEnd f))                         (* line 57 *)
  | FUnl0 => Some (set_x (set_f s f FNotify) None)                                                (* line 54 *)
  | FNotify => match splk s with None => Some (emit (leave (notify_all (set_f s f FDone)) f) (EEnd f)) | _ => None end  (* line 55 *)
  | _ => None
  end.

(** Have the other threads returned (line 125: join())? *)
Definition joined (n : nat) (s : st) : bool :=
  forallb (fun k => match mains s k with MExit => true | _ => false end) (seq 1 n).

(** Next step of the main fiber of thread [k] (work_sharing.cpp:73-80, 111-130). *)
Definition main_step (n : nat) (s : st) (k : tid) : option st :=
  match mains s k with
  | MLock => match mtx s with None => Some (set_x (set_m s k MCheck) (Some (OM k))) | _ => None end  (* line 73, condition_variable.hpp:76 *)
  | MCheck => Some (set_m s k (if cnt s =? 0 then MUnlEnd else MSplk))                               (* line 74, condition_variable.hpp:88 *)
  | MSplk => match splk s with None => Some (set_p (set_m s k MUnl) (Some k)) | _ => None end        (* condition_variable.hpp:70 *)
  | MUnl => Some (set_x (set_m s k MEnq) None)                                                       (* condition_variable.hpp:71 *)
  | MEnq => Some (set_p (set_m s k MWaiting) None)                                                   (* condition_variable.hpp:72 *)
  | MUnlEnd => Some (emit (set_x (set_m s k MExit) None) (EReturn k (cnt s)))                        (* lines 79-80, 118-123 *)
  | MExit => if (k =? 0) && joined n s then Some (emit (set_m s k MEnd) EProgram) else None          (* lines 124-129 *)
  | _ => None
  end.

(** All steps; the main fiber continues only if its thread is not running a worker fiber. *)
Definition step (n : nat) (s : st) (l : label) : option st :=
  match l with
  | LMain k => match cur s k with None => main_step n s k | Some _ => None end
  | LFib f => fib_step s f
  | LPick k f =>
      match cur s k, mains s k, fp s f with
      | None, (MWaiting | MReady), FReady n =>
          Some (mkSt (cnt s) (mtx s) (splk s) (upd (fp s) f (FRun n)) (upd (on s) f k) (upd (cur s) k (Some f)) (mains s) (log s))
      | _, _, _ => None
      end
  | LResume k =>
      match cur s k, mains s k with None, MReady => Some (set_m s k MLock) | _, _ => None end
  end.
