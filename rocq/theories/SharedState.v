(** Model: the shared state of promise and future (future/detail/shared_state.hpp): one shared_state<R>, any number of fibers
    calling it. It is code on top of one mutex and one condition variable (Client.v). shared_state<R&> (219-261) and
    shared_state<void> (263-305) differ in the type of the stored value only. Copying R is assumed not to throw.
    Reference counting (143-154) is in FutureObj.v. *)
From Coq Require Import List Arith Bool.
From Verif Require Import Base Kernel CondVar Client.
Import ListNotations.

(** What a std::exception_ptr may point to: broken_promise (58) or an exception [x] of the user's. *)
Inductive exn (E : Type) := Broken | User (x : E).
Arguments Broken {E}. Arguments User {E}.

Section Shared.
Context {V E : Type}.   (* R; the user's exceptions *)

(** 44-45 ready_, except_ (None: null); 160 storage_ (None: no object constructed there). mtx_ and waiters_ (43, 40) are the
    machine of CondVar.v. *)
Record sdata := mkS { ready : bool; except : option (exn E); storage : option V }.

(** Public member functions: set_value (203-211), set_exception (116-119), owner_destroyed (111-114), get (213-216),
    get_exception_ptr (121-124), wait (126-129), wait_until (137-141; wait_for, 131-135, is wait_until with tp = now + d). *)
Inductive sop := SetValue (v : V) | SetExc (x : option E) | OwnerDestroyed | Get | GetExc | WaitS | WaitUntilS (tp : nat).

(** RVoid; promise_already_satisfied; the value; the rethrown exception; the exception_ptr; future_status; a read of storage_ in
    which no object was constructed; lock_error of the mutex. *)
Inductive sres := RVoid | RSatisfied | RVal (v : V) | RThrow (x : exn E) | REPtr (x : option (exn E)) | RReady | RTimedOut | RUninit | RLockErr.

(** Where a fiber is: *)
Inductive spc :=
| PLock (o : sop)       (* std::unique_lock lk{ mtx_ } *)
| PWait (o : sop)       (* 80: in waiters_.wait(lk), loop condition_variable.hpp:88-90 *)
| PWaitT (tp : nat)     (* 96: in waiters_.wait_until(lk, tp), loop condition_variable.hpp:122-127 *)
| PUnlock (r : sres)    (* destructor of lk, on return or with an exception *)
| PUnlockGet            (* the same, get() returns a reference to storage_ *)
| PUnlockN              (* 50 lk.unlock() *)
| PNotify.              (* 51 *)

(** Ghost: ready_ has been set (49) with this outcome. *)
Inductive outcome := OVal (v : V) | OExc (x : option (exn E)).
Inductive sx := XStore (o : outcome).

(** Readers after the wait: 183-186 (get), 75 (get_exception_ptr), 128 (wait), 97 (wait_until). *)
Definition finish (d : sdata) (o : sop) : act spc sres :=
  ACall Unlock match o with
               | Get => match except d with Some x => PUnlock (RThrow x) | None => PUnlockGet end
               | GetExc => PUnlock (REPtr (except d))
               | _ => PUnlock RReady
               end.
(** condition_variable.hpp:88-90 and 122-127 with the predicate "ready_" (80, 96). *)
Definition wait_loop (d : sdata) (o : sop) : act spc sres :=
  if ready d then finish d o
  else match o with
       | WaitUntilS tp => ACall (WaitUntil tp) (PWaitT tp)
       | _ => ACall Wait (PWait o)
       end.

(** 47-52 after the assignment of the outcome. *)
Definition mark_ready (d : sdata) (x : outcome) : sdata * list sx * act spc sres :=
  (match x with OVal v => mkS true (except d) (Some v) | OExc e => mkS true e (storage d) end, [XStore x], ACall Unlock PUnlockN).

(** Lines 205, 210 with 162-178; 118 with 63-70; 113 with 54-61; the readers. *)
Definition locked (d : sdata) (o : sop) : sdata * list sx * act spc sres :=
  match o with
  | SetValue v => if ready d then (d, [], ACall Unlock (PUnlock RSatisfied)) else mark_ready d (OVal v)
  | SetExc x => if ready d then (d, [], ACall Unlock (PUnlock RSatisfied)) else mark_ready d (OExc (option_map User x))
  | OwnerDestroyed => if ready d then (d, [], ACall Unlock (PUnlock RVoid)) else mark_ready d (OExc (Some Broken))
  | _ => (d, [], wait_loop d o)
  end.

Definition scont (d : sdata) (p : spc) (r : res) : sdata * list sx * act spc sres :=
  match r, p with
  | RErr, _ => (d, [], ARet RLockErr)
  | _, PLock o => locked d o
  | _, PWait o => (d, [], wait_loop d o)
  | RTimeout, PWaitT tp => (d, [], if ready d then finish d (WaitUntilS tp) else ACall Unlock (PUnlock RTimedOut))
  | _, PWaitT tp => (d, [], wait_loop d (WaitUntilS tp))
  | _, PUnlock r => (d, [], ARet r)
  | _, PUnlockGet => (d, [], ARet match storage d with Some v => RVal v | None => RUninit end)  (* future.hpp:149 reads it *)
  | _, PUnlockN => (d, [], ACall NotifyAll PNotify)
  | _, PNotify => (d, [], ARet RVoid)
  end.

Definition shared_state : client sdata spc sop sres sx :=
  mkClient _ _ _ _ _ (mkS false None None) (fun _ d o => Some (d, [], ACall Lock (PLock o))) scont.
Definition sstate := cstate sdata spc sop sres sx.
Definition sstep : sstate -> clabel sop -> option sstate := cstep shared_state.
Definition sinit : sstate := cinit shared_state.
End Shared.
Arguments sdata : clear implicits. Arguments sop : clear implicits. Arguments sres : clear implicits. Arguments spc : clear implicits.
Arguments outcome : clear implicits. Arguments sx : clear implicits. Arguments sstate : clear implicits. Arguments shared_state : clear implicits.
