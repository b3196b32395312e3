(** Model: condition_variable_any together with one boost::fibers::mutex (condition_variable.hpp:46-142,
    condition_variable.cpp:18-28, mutex.cpp).

    condition_variable (condition_variable.hpp:144-) forwards to condition_variable_any.
    The spinlock of the condition variable is explicit, because wait() holds it across lt.unlock();
    the critical sections of the mutex' own spinlock are single steps (as in Mutex.v). *)
From Coq Require Import List Arith Bool.
From Verif Require Import Base Kernel.
From Verif Require Mutex.
Import ListNotations.

Definition mtx := Mutex.mtx.
Definition owner := Mutex.owner.
Definition mwaiters := Mutex.waiters.
Definition is_owner := Mutex.is_owner.
Definition is_free := Mutex.is_free.

(** Member functions called by user code: lock/unlock of the mutex, and of the condition variable wait(lk),
    wait_until(lk, tp) (wait_for: 130-134, is wait_until), notify_one, notify_all. *)
Inductive op := Lock | Unlock | Wait | WaitUntil (tp : nat) | NotifyOne | NotifyAll.

Inductive res := ROk | RTimeout | RErr.

(** EWake g f: the notify call of fiber g put fiber f, waiting on the condition variable, into a ready queue. *)
Inductive event :=
| ECall (f : fid) (o : op)
| EWake (g f : fid)
| ERet (f : fid) (o : op) (r : res) (at_ : nat).

Inductive pc :=
| Idle
| LockTop (o : op) (r : res)     (* mutex.cpp:26; on success call [o] returns [r] *)
| LockWait (o : op) (r : res) (e : nat)  (* mutex.cpp:40 *)
| UnlockTop                      (* mutex.cpp:63 *)
| WaitA (tp : option nat)        (* condition_variable.hpp:70 / 100, before taking the spinlock *)
| WaitB (tp : option nat)        (* condition_variable.hpp:71 / 102, before lt.unlock() *)
| WaitC (tp : option nat)        (* condition_variable.hpp:72 / 103, before suspend_and_wait[_until] *)
| CvWait (e : nat)               (* waker.cpp:21 *)
| CvTimed (tp e : nat)           (* waker.cpp:32 *)
| CvRelock (tp e : nat)          (* waker.cpp:34-38 *)
| NotifyTop (all : bool).        (* condition_variable.cpp:20 / 26 *)

Record state := mkState {
  kn : kern;
  mx : mtx;               (* the mutex *)
  splk : option fid;      (* wait_queue_splk_ of the condition variable: who holds it across steps *)
  cvq : wq;               (* wait_queue_ *)
  pcs : fid -> pc;
  log : list event
}.
Definition init : state := mkState kinit (Mutex.mkMtx None 0 []) None [] (fun _ => Idle) [].

Inductive label :=
| LK (l : klabel)
| LCall (f : fid) (o : op)
| LRun (f : fid)
| LYield (f : fid)
| LContend (f : fid).          (* waker.cpp:35-37: try_lock() failed, yield *)

Definition goto (s : state) (f : fid) (p : pc) : state :=
  mkState (kn s) (mx s) (splk s) (cvq s) (upd (pcs s) f p) (log s).
Definition ret (s : state) (f : fid) (o : op) (r : res) : state :=
  mkState (kn s) (mx s) (splk s) (cvq s) (upd (pcs s) f Idle) (ERet f o r (now (kn s)) :: log s).
Definition set_kn (s : state) (k : kern) : state := mkState k (mx s) (splk s) (cvq s) (pcs s) (log s).
Definition set_mx (s : state) (m : mtx) : state := mkState (kn s) m (splk s) (cvq s) (pcs s) (log s).
Definition set_splk (s : state) (o : option fid) : state := mkState (kn s) (mx s) o (cvq s) (pcs s) (log s).
Definition set_cvq (s : state) (q : wq) : state := mkState (kn s) (mx s) (splk s) q (pcs s) (log s).
Definition add_log (s : state) (l : list event) : state :=
  mkState (kn s) (mx s) (splk s) (cvq s) (pcs s) (l ++ log s).

(** mutex::lock (mutex.cpp:25-42), called by the user or by wait() to relock (condition_variable.hpp:76, 108). An
    exception there is std::terminate() (81-83, 113-115), recorded as an error. *)
Definition lock_step (s : state) (f : fid) (o : op) (r : res) : state :=
  let m := mx s in
  if is_owner m f then
    match o with
    | Lock => ret s f Lock RErr
    | _ => ret (set_kn s (kassert (kn s) false)) f o RErr
    end
  else if is_free m then ret (set_mx s (Mutex.take Mutex.KMutex m f)) f o r
  else
    let '(k, q, e) := suspend_and_wait (kn s) f (mwaiters m) in
    goto (set_kn (set_mx s (Mutex.mkMtx (owner m) (Mutex.count m) q)) k) f (LockWait o r e).

(** mutex::unlock (mutex.cpp:63-74), the part after the owner test. *)
Definition release (s : state) : state :=
  let '(k, q) := notify_one (kn s) (mwaiters (mx s)) in
  set_kn (set_mx s (Mutex.mkMtx None (Mutex.count (mx s)) q)) k.

(** condition_variable.cpp:19-28. *)
Definition notify_step (s : state) (f : fid) (all : bool) : state :=
  let '(k, q) := if all then notify_all (kn s) (cvq s) else notify_one (kn s) (cvq s) in
  ret (set_cvq (set_kn (add_log s (rev (map (EWake f) (flips (kn s) k (map fst (cvq s)))))) k) q) f
      (if all then NotifyAll else NotifyOne) ROk.

Definition wait_op (tp : option nat) : op := match tp with None => Wait | Some t => WaitUntil t end.

Definition run_step (s : state) (f : fid) : option state :=
  match pcs s f with
  | Idle => None
  | LockTop o r => Some (lock_step s f o r)
  | LockWait o r e =>                                        (* waker.cpp:22, mutex.cpp:40-41 loop *)
      Some (goto (set_kn s (suspend_and_wait_end (kn s) (mwaiters (mx s)) (f, e))) f (LockTop o r))
  | UnlockTop =>                                             (* mutex.cpp:63-74 *)
      if is_owner (mx s) f then Some (ret (release s) f Unlock ROk) else Some (ret s f Unlock RErr)
  | WaitA tp =>                                              (* condition_variable.hpp:70, 100 *)
      match splk s with
      | None => Some (goto (set_splk s (Some f)) f (WaitB tp))
      | Some _ => None
      end
  | WaitB tp =>                                              (* condition_variable.hpp:71, 102; mutex.cpp:63-74; an exception releases lk *)
      if is_owner (mx s) f then Some (goto (release s) f (WaitC tp))
      else Some (ret (set_splk s None) f (wait_op tp) RErr)
  | WaitC None =>                                            (* condition_variable.hpp:72; the context switch releases lk *)
      let '(k, q, e) := suspend_and_wait (kn s) f (cvq s) in
      Some (goto (set_splk (set_cvq (set_kn s k) q) None) f (CvWait e))
  | WaitC (Some tp) =>                                       (* condition_variable.hpp:103 *)
      let '(k, q, e) := suspend_and_wait_until (kn s) f (cvq s) tp in
      Some (goto (set_splk (set_cvq (set_kn s k) q) None) f (CvTimed tp e))
  | CvWait e =>                                              (* waker.cpp:22, condition_variable.hpp:76 *)
      Some (goto (set_kn s (suspend_and_wait_end (kn s) (cvq s) (f, e))) f (LockTop Wait ROk))
  | CvTimed tp e =>                                          (* scheduler.cpp:301, waker.cpp:32, 46 *)
      if wait_until_result (kn s) tp then Some (goto s f (LockTop (WaitUntil tp) ROk))
      else Some (goto s f (CvRelock tp e))
  | CvRelock tp e =>                                         (* waker.cpp:35-44, condition_variable.hpp:104 *)
      match splk s with
      | None =>
          let q := if is_linked (cvq s) (f, e) then wq_remove (cvq s) (f, e) else cvq s in
          Some (goto (set_cvq s q) f (LockTop (WaitUntil tp) RTimeout))
      | Some _ => None
      end
  | NotifyTop all =>                                         (* condition_variable.cpp:19-28 *)
      match splk s with
      | None => Some (notify_step s f all)
      | Some _ => None
      end
  end.

Definition start_pc (o : op) : pc :=
  match o with
  | Lock => LockTop Lock ROk | Unlock => UnlockTop
  | Wait => WaitA None | WaitUntil tp => WaitA (Some tp)
  | NotifyOne => NotifyTop false | NotifyAll => NotifyTop true
  end.

Definition step (s : state) (l : label) : option state :=
  match l with
  | LK kl => match kstep (kn s) kl with Some k => Some (set_kn s k) | None => None end
  | LCall f o =>
      match pcs s f with
      | Idle => if running (fib (kn s) f) then
                  Some (mkState (kn s) (mx s) (splk s) (cvq s) (upd (pcs s) f (start_pc o)) (ECall f o :: log s))
                else None
      | _ => None
      end
  | LRun f => if running (fib (kn s) f) then run_step s f else None
  | LYield f =>
      match pcs s f with
      | Idle => if running (fib (kn s) f) then Some (set_kn s (yield (kn s) f)) else None
      | _ => None
      end
  | LContend f =>
      match pcs s f with
      | CvRelock _ _ => if running (fib (kn s) f) then Some (set_kn s (yield (kn s) f)) else None
      | _ => None
      end
  end.
