(** Model: buffered_channel<T> (buffered_channel.hpp). One channel, any number of fibers calling it.

    A critical section under splk_ is one step; the return is logged in that step, because after
    it only the destructor of the spinlock_lock runs. Copying or moving an element may throw; it is assumed that source and
    destination are then unchanged, and that moving the result out of value_pop (318) does not throw (see BufLost.v). *)
From Coq Require Import List Arith NArith Bool.
From Verif Require Import Base Kernel.
Import ListNotations.

(** channel_op_status.hpp:19-26 enum class channel_op_status. *)
Inductive status := Success | Empty | Full | Closed | Timeout.

Section Channel.
Context {V : Type}.   (* value_type, buffered_channel.hpp:38 *)

(** Public member functions. push(value const&) and push(value&&) (145-165, 167-188) differ in
    copying or moving the argument only; likewise try_push (106-123, 125-143) and push_wait_until
    (205-229, 232-257). push_wait_for / pop_wait_for add now() and call push_wait_until /
    pop_wait_until (190-202, 323-328). *)
Inductive op :=
| Push (v : V) | TryPush (v : V) | PushUntil (v : V) (tp : nat)
| Pop | TryPop | ValuePop | PopUntil (tp : nat)
| Close | IsClosed.

(** What a call returns: a status; a value with status success (pop, try_pop, pop_wait_until) or
    a returned value (value_pop) -- None stands for a default-constructed or moved-from object;
    fiber_error(operation_not_permitted) (309-311); void; a bool; an exception thrown by the copy or move
    operation of value_type. *)
Inductive res := RStatus (st : status) | RValue (x : option V) | RThrow | RVoid | RBool (b : bool) | RExn.

Inductive event :=
| ECall (f : fid) (o : op)
| ERet (f : fid) (o : op) (r : res) (at_ : nat).

(** Where a fiber is. *)
Inductive pc :=
| Idle                             (* in user code *)
| Top (o : op)                     (* before (try-)locking splk_: 94, 108, 127, 148, 170, 210, 237, 261, 280, 302, 336 *)
| Wait (o : op) (e : nat)          (* 157, 179, 289, 313: in suspend_and_wait *)
| WaitUntil (o : op) (tp e : nat)  (* 219, 246, 345: in suspend_and_wait_until *)
| Relock (o : op) (tp e : nat).    (* waker.cpp:34-38: timed out, taking the spinlock again *)

(** buffered_channel.hpp:43-50: the members. waiting_producers_ is queue 0, waiting_consumers_ queue 1.
    The indices are size_t; they are below capacity_ <= 2^63 (see [construct]), so +1 does not wrap. *)
Record chan := mkChan {
  queues : nat -> wq;
  slots : nat -> option V;
  pidx : nat;
  cidx : nat;
  capacity : nat;
  closed : bool
}.

Record state := mkState {
  kn : kern;
  ch : chan;
  pcs : fid -> pc;
  log : list event      (* newest first *)
}.

(** 52-54 is_full_ *)
Definition is_full (c : chan) : bool := Nat.eqb (cidx c) ((pidx c + 1) mod capacity c).
(** 56-58 is_empty_ *)
Definition is_empty (c : chan) : bool := Nat.eqb (cidx c) (pidx c).

(** 65-72 constructor: None = throws invalid_argument. *)
Definition construct (cap : N) : option state :=
  if ((cap <? 2) || negb (N.land cap (cap - 1) =? 0))%N then None
  else Some (mkState kinit (mkChan (fun _ => []) (fun _ => None) 0 0 (N.to_nat cap) false) (fun _ => Idle) []).

Definition goto (s : state) (f : fid) (p : pc) : state := mkState (kn s) (ch s) (upd (pcs s) f p) (log s).
Definition ret (s : state) (f : fid) (o : op) (r : res) : state :=
  mkState (kn s) (ch s) (upd (pcs s) f Idle) (ERet f o r (now (kn s)) :: log s).
Definition set_queue (c : chan) (i : nat) (q : wq) : chan :=
  mkChan (upd (queues c) i q) (slots c) (pidx c) (cidx c) (capacity c) (closed c).

(** waiting_xxx_.notify_one() *)
Definition notify1 (s : state) (i : nat) : state :=
  let '(k, q) := notify_one (kn s) (queues (ch s) i) in
  mkState k (set_queue (ch s) i q) (pcs s) (log s).
(** waiting_xxx_.notify_all() *)
Definition notifyA (s : state) (i : nat) : state :=
  let '(k, q) := notify_all (kn s) (queues (ch s) i) in
  mkState k (set_queue (ch s) i q) (pcs s) (log s).

(** waiting_xxx_.suspend_and_wait(lk, active_ctx) up to the context switch *)
Definition block (s : state) (f : fid) (i : nat) (o : op) : state :=
  let '(k, q, e) := suspend_and_wait (kn s) f (queues (ch s) i) in
  mkState k (set_queue (ch s) i q) (upd (pcs s) f (Wait o e)) (log s).
(** waiting_xxx_.suspend_and_wait_until(lk, active_ctx, timeout_time) up to the context switch *)
Definition block_until (s : state) (f : fid) (i : nat) (o : op) (tp : nat) : state :=
  let '(k, q, e) := suspend_and_wait_until (kn s) f (queues (ch s) i) tp in
  mkState k (set_queue (ch s) i q) (upd (pcs s) f (WaitUntil o tp e)) (log s).

(** 119-122 = 139-142 = 159-162 = 181-185 = 223-226 = 250-254: store, advance pidx_, notify one consumer, success *)
Definition store (s : state) (f : fid) (o : op) (v : V) : state :=
  let c := ch s in
  let c' := mkChan (queues c) (upd (slots c) (pidx c) (Some v)) ((pidx c + 1) mod capacity c) (cidx c) (capacity c) (closed c) in
  ret (notify1 (mkState (kn s) c' (pcs s) (log s)) 1) f o (RStatus Success).
(** 271-274 = 291-294 = 315-318 = 349-352: move out, advance cidx_, notify one producer, success.
    std::move leaves a moved-from object behind. *)
Definition fetch (s : state) (f : fid) (o : op) : state :=
  let c := ch s in
  let c' := mkChan (queues c) (upd (slots c) (cidx c) None) (pidx c) ((cidx c + 1) mod capacity c) (capacity c) (closed c) in
  ret (notify1 (mkState (kn s) c' (pcs s) (log s)) 0) f o (RValue (slots c (cidx c))).

(** The critical section of each member function. *)
Definition cs (s : state) (f : fid) (o : op) : state :=
  let c := ch s in
  match o with
  | IsClosed => ret s f o (RBool (closed c))                                  (* 89 *)
  | Close =>                                                                  (* 99-103 *)
      if closed c then ret s f o RVoid
      else let c' := mkChan (queues c) (slots c) (pidx c) (cidx c) (capacity c) true in
           ret (notifyA (notifyA (mkState (kn s) c' (pcs s) (log s)) 0) 1) f o RVoid
  | TryPush v =>                                                              (* 113-122, 133-142 *)
      if closed c then ret s f o (RStatus Closed)
      else if is_full c then ret s f o (RStatus Full) else store s f o v
  | Push v =>                                                                 (* 153-163, 175-186 *)
      if closed c then ret s f o (RStatus Closed)
      else if is_full c then block s f 0 o else store s f o v
  | PushUntil v tp =>                                                         (* 215-227, 242-255 *)
      if closed c then ret s f o (RStatus Closed)
      else if is_full c then block_until s f 0 o tp else store s f o v
  | TryPop =>                                                                 (* 266-274 *)
      if is_empty c then ret s f o (RStatus (if closed c then Closed else Empty)) else fetch s f o
  | Pop =>                                                                    (* 285-295 *)
      if is_empty c then if closed c then ret s f o (RStatus Closed) else block s f 1 o
      else fetch s f o
  | ValuePop =>                                                               (* 307-319 *)
      if is_empty c then if closed c then ret s f o RThrow else block s f 1 o
      else fetch s f o
  | PopUntil tp =>                                                            (* 341-353 *)
      if is_empty c then if closed c then ret s f o (RStatus Closed) else block_until s f 1 o tp
      else fetch s f o
  end.

(** The wait queue an operation blocks on. *)
Definition queue_of (o : op) : nat :=
  match o with Push _ | TryPush _ | PushUntil _ _ => 0 | _ => 1 end.

Definition run_step (s : state) (f : fid) : option state :=
  match pcs s f with
  | Idle => None
  | Top o => Some (cs s f o)
  | Wait o e =>                                                 (* waker.cpp:22, then the loop again *)
      Some (goto (mkState (suspend_and_wait_end (kn s) (queues (ch s) (queue_of o)) (f, e)) (ch s) (pcs s) (log s)) f (Top o))
  | WaitUntil o tp e =>                                         (* waker.cpp:32, 46 *)
      Some (goto s f (if wait_until_result (kn s) tp then Top o else Relock o tp e))
  | Relock o tp e =>                                            (* waker.cpp:39-44, then 220, 247, 346 *)
      let i := queue_of o in
      let q := queues (ch s) i in
      Some (ret (mkState (kn s) (set_queue (ch s) i (if is_linked q (f, e) then wq_remove q (f, e) else q)) (pcs s) (log s))
                f o (RStatus Timeout))
  end.

Inductive label :=
| LK (l : klabel)
| LCall (f : fid) (o : op)
| LRun (f : fid)
| LYield (f : fid)              (* user code between two calls *)
| LThrow (f : fid)              (* that copy or move throws: indices and wait queues are untouched, the lock is released *)
| LContend (f : fid).           (* try_lock() of splk_ fails: yield and retry (97, 111, 130, 150, ...; waker.cpp:35-37) *)

(** The critical section of [o] comes to the copy or move of an element:
    119, 139, 159, 181, 223, 250 (not closed, not full); 271, 291, 315, 349 (not empty). *)
Definition transfers (c : chan) (o : op) : bool :=
  match o with
  | Push _ | TryPush _ | PushUntil _ _ => negb (closed c) && negb (is_full c)
  | Pop | TryPop | ValuePop | PopUntil _ => negb (is_empty c)
  | Close | IsClosed => false
  end.

Definition step (s : state) (l : label) : option state :=
  match l with
  | LK kl => match kstep (kn s) kl with Some k => Some (mkState k (ch s) (pcs s) (log s)) | None => None end
  | LCall f o =>
      match pcs s f with
      | Idle => if running (fib (kn s) f) then
                  Some (mkState (kn s) (ch s) (upd (pcs s) f (Top o)) (ECall f o :: log s))
                else None
      | _ => None
      end
  | LRun f => if running (fib (kn s) f) then run_step s f else None
  | LYield f =>
      match pcs s f with
      | Idle => if running (fib (kn s) f) then Some (mkState (yield (kn s) f) (ch s) (pcs s) (log s)) else None
      | _ => None
      end
  | LThrow f =>
      match pcs s f with
      | Top o => if running (fib (kn s) f) && transfers (ch s) o then Some (ret s f o RExn) else None
      | _ => None
      end
  | LContend f =>
      match pcs s f with
      | Top _ | Relock _ _ _ => if running (fib (kn s) f) then Some (mkState (yield (kn s) f) (ch s) (pcs s) (log s)) else None
      | _ => None
      end
  end.
End Channel.
Arguments op : clear implicits.
Arguments res : clear implicits.
Arguments event : clear implicits.
Arguments pc : clear implicits.
Arguments chan : clear implicits.
Arguments state : clear implicits.
Arguments label : clear implicits.
