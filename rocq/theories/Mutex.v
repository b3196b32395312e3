(** Model: mutex, timed_mutex, recursive_mutex, recursive_timed_mutex.
    One instance, any number of fibers calling it. A critical section under wait_queue_splk_ is one step. *)
From Coq Require Import List Arith Bool.
From Verif Require Import Base Kernel.
Import ListNotations.

(** The four classes (mutex.hpp, timed_mutex.hpp, recursive_mutex.hpp, recursive_timed_mutex.hpp). *)
Inductive mkind := KMutex | KTimed | KRec | KRecTimed.

(** recursive_mutex.hpp / recursive_timed_mutex.hpp have a member count_, the others do not. *)
Definition recursive (m : mkind) : bool :=
  match m with KRec | KRecTimed => true | _ => false end.
(** timed_mutex.hpp / recursive_timed_mutex.hpp have try_lock_for/try_lock_until. *)
Definition timed (m : mkind) : bool :=
  match m with KTimed | KRecTimed => true | _ => false end.

(** Public member functions. try_lock_for(d) computes now()+d and calls try_lock_until_
    (timed_mutex.hpp), hence it is TryLockUntil. *)
Inductive op := Lock | TryLock | Unlock | TryLockUntil (tp : nat).

(** lock_error codes thrown (mutex.cpp:31-33, 67-69). *)
Inductive errc := EDeadlock | ENotPermitted.
Inductive res := ROk | RBool (b : bool) | RErr (e : errc).

(** API log; a return carries the value of the clock at that moment. *)
Inductive event :=
| ECall (f : fid) (o : op)
| ERet (f : fid) (o : op) (r : res) (at_ : nat).

(** Where a fiber is inside the code. *)
Inductive pc :=
| Idle                       (* in user code *)
| LockTop                    (* mutex.cpp:26-29, before taking the spinlock *)
| LockWait (e : nat)         (* mutex.cpp:40, in suspend_and_wait, waker epoch e *)
| TryTop                     (* mutex.cpp:46 *)
| TryYield                   (* mutex.cpp:57, spinlock released, before yield *)
| TryCheck                   (* mutex.cpp:59, after yield *)
| UnlockTop                  (* mutex.cpp:64 *)
| UntilTop (tp : nat)        (* timed_mutex.cpp:25 *)
| UntilCS (tp : nat)         (* timed_mutex.cpp:28-29 *)
| UntilWait (tp e : nat)     (* waker.cpp:32, in wait_until *)
| UntilRelock (tp e : nat).  (* waker.cpp:33-38, timed out, relocking *)

(** The mutex object: owner_, count_ (recursive kinds only), wait_queue_. *)
Record mtx := mkMtx { owner : option fid; count : nat; waiters : wq }.

Record state := mkState {
  kn : kern;
  mx : mtx;
  pcs : fid -> pc;
  log : list event      (* newest first *)
}.

Definition init : state := mkState kinit (mkMtx None 0 []) (fun _ => Idle) [].

Inductive label :=
| LK (l : klabel)            (* scheduler, timer, clock *)
| LCall (f : fid) (o : op)   (* user code of running fiber f calls a member function *)
| LRun (f : fid)             (* running fiber f executes its next atomic step *)
| LYield (f : fid)           (* user code between two calls: this_fiber::yield() or time spent in other objects *)
| LContend (f : fid).        (* waker.cpp:34-38: try_lock() fails because another thread holds the spinlock *)

Definition goto (s : state) (f : fid) (p : pc) : state :=
  mkState (kn s) (mx s) (upd (pcs s) f p) (log s).
Definition ret (s : state) (f : fid) (o : op) (r : res) : state :=
  mkState (kn s) (mx s) (upd (pcs s) f Idle) (ERet f o r (now (kn s)) :: log s).
Definition set_mx (s : state) (m : mtx) : state := mkState (kn s) m (pcs s) (log s).
Definition set_kn (s : state) (k : kern) : state := mkState k (mx s) (pcs s) (log s).

Definition is_owner (m : mtx) (f : fid) : bool :=
  match owner m with Some g => Nat.eqb g f | None => false end.
Definition is_free (m : mtx) : bool :=
  match owner m with Some _ => false | None => true end.

(** First acquisition: owner_ = active_ctx; recursive kinds also count_ = 1
    (mutex.cpp:35-38; recursive_mutex.cpp:32-36; timed_mutex.cpp:51-54; recursive_timed_mutex.cpp:56-60). *)
Definition take (mk : mkind) (m : mtx) (f : fid) : mtx :=
  mkMtx (Some f) (if recursive mk then 1 else count m) (waiters m).
(** Nested acquisition: ++count_ (recursive_mutex.cpp:28-31; recursive_timed_mutex.cpp:52-55). *)
Definition again (m : mtx) : mtx := mkMtx (owner m) (S (count m)) (waiters m).

(** lock(), body of the loop (mutex.cpp:26-41; timed_mutex.cpp:42-56; recursive_mutex.cpp:24-39;
    recursive_timed_mutex.cpp:48-62). *)
Definition lock_step (mk : mkind) (s : state) (f : fid) : state :=
  let m := mx s in
  if is_owner m f then
    if recursive mk then ret (set_mx s (again m)) f Lock ROk
    else ret s f Lock (RErr EDeadlock)
  else if is_free m then ret (set_mx s (take mk m f)) f Lock ROk
  else
    let '(k, q, e) := suspend_and_wait (kn s) f (waiters m) in
    goto (set_kn (set_mx s (mkMtx (owner m) (count m) q)) k) f (LockWait e).

(** try_lock(), critical section (mutex.cpp:46-56; timed_mutex.cpp:61-71;
    recursive_mutex.cpp:44-52; recursive_timed_mutex.cpp:67-75). *)
Definition try_step (mk : mkind) (s : state) (f : fid) : state :=
  let m := mx s in
  if recursive mk then
    if is_free m then goto (set_mx s (take mk m f)) f TryYield
    else if is_owner m f then goto (set_mx s (again m)) f TryYield
    else goto s f TryYield
  else
    if is_owner m f then ret s f TryLock (RErr EDeadlock)
    else if is_free m then goto (set_mx s (take mk m f)) f TryYield
    else goto s f TryYield.

(** owner_ = nullptr; wait_queue_.notify_one() (mutex.cpp:71-73; timed_mutex.cpp:86-88;
    recursive_mutex.cpp:68-69; recursive_timed_mutex.cpp:91-92). *)
Definition release (s : state) (c : nat) : state :=
  let '(k, q) := notify_one (kn s) (waiters (mx s)) in
  set_kn (set_mx s (mkMtx None c q)) k.

(** unlock() (mutex.cpp:63-74; timed_mutex.cpp:78-89; recursive_mutex.cpp:59-71; recursive_timed_mutex.cpp:82-94).
    count_ is a size_t; it is positive whenever there is an owner (proved), so --count_ does not wrap. *)
Definition unlock_step (mk : mkind) (s : state) (f : fid) : state :=
  let m := mx s in
  if negb (is_owner m f) then ret s f Unlock (RErr ENotPermitted)
  else if recursive mk then
    if Nat.eqb (pred (count m)) 0 then ret (release s 0) f Unlock ROk
    else ret (set_mx s (mkMtx (owner m) (pred (count m)) (waiters m))) f Unlock ROk
  else ret (release s (count m)) f Unlock ROk.

(** try_lock_until_, critical section (timed_mutex.cpp:28-34; recursive_timed_mutex.cpp:28-40).
    Only the recursive version tests for the caller being the owner. *)
Definition until_step (mk : mkind) (s : state) (f : fid) (tp : nat) : state :=
  let m := mx s in
  if recursive mk && is_owner m f then ret (set_mx s (again m)) f (TryLockUntil tp) (RBool true)
  else if is_free m then ret (set_mx s (take mk m f)) f (TryLockUntil tp) (RBool true)
  else
    let '(k, q, e) := suspend_and_wait_until (kn s) f (waiters m) tp in
    goto (set_kn (set_mx s (mkMtx (owner m) (count m) q)) k) f (UntilWait tp e).

(** Next atomic step of running fiber [f]. *)
Definition run_step (mk : mkind) (s : state) (f : fid) : option state :=
  match pcs s f with
  | Idle => None
  | LockTop => Some (lock_step mk s f)
  | LockWait e =>                                               (* waker.cpp:22, mutex.cpp:40-41 loop *)
      Some (goto (set_kn s (suspend_and_wait_end (kn s) (waiters (mx s)) (f, e))) f LockTop)
  | TryTop => Some (try_step mk s f)
  | TryYield => Some (goto (set_kn s (yield (kn s) f)) f TryCheck)  (* mutex.cpp:58 *)
  | TryCheck => Some (ret s f TryLock (RBool (is_owner (mx s) f)))  (* mutex.cpp:59 *)
  | UnlockTop => Some (unlock_step mk s f)
  | UntilTop tp =>                                              (* timed_mutex.cpp:25-27 *)
      if Nat.ltb tp (now (kn s)) then Some (ret s f (TryLockUntil tp) (RBool false))
      else Some (goto s f (UntilCS tp))
  | UntilCS tp => Some (until_step mk s f tp)
  | UntilWait tp e =>                                           (* scheduler.cpp:301, waker.cpp:32,46 *)
      if wait_until_result (kn s) tp then Some (goto s f (UntilTop tp))
      else Some (goto s f (UntilRelock tp e))
  | UntilRelock tp e =>                                         (* waker.cpp:39-44, timed_mutex.cpp:34-36 *)
      let m := mx s in
      let q := if is_linked (waiters m) (f, e) then wq_remove (waiters m) (f, e) else waiters m in
      Some (ret (set_mx s (mkMtx (owner m) (count m) q)) f (TryLockUntil tp) (RBool false))
  end.

Definition start_pc (o : op) : pc :=
  match o with
  | Lock => LockTop | TryLock => TryTop | Unlock => UnlockTop | TryLockUntil tp => UntilTop tp
  end.
Definition permitted (mk : mkind) (o : op) : bool :=
  match o with TryLockUntil _ => timed mk | _ => true end.

Definition step (mk : mkind) (s : state) (l : label) : option state :=
  match l with
  | LK kl => match kstep (kn s) kl with Some k => Some (set_kn s k) | None => None end
  | LCall f o =>
      match pcs s f with
      | Idle => if running (fib (kn s) f) && permitted mk o then
                  Some (mkState (kn s) (mx s) (upd (pcs s) f (start_pc o)) (ECall f o :: log s))
                else None
      | _ => None
      end
  | LRun f => if running (fib (kn s) f) then run_step mk s f else None
  | LYield f =>
      match pcs s f with
      | Idle => if running (fib (kn s) f) then Some (set_kn s (yield (kn s) f)) else None
      | _ => None
      end
  | LContend f =>
      match pcs s f with
      | UntilRelock _ _ => if running (fib (kn s) f) then Some (set_kn s (yield (kn s) f)) else None
      | _ => None
      end
  end.
