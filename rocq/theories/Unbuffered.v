(** Model: unbuffered_channel<T> (unbuffered_channel.hpp). One channel, any number of fibers calling it.

    Every access to slot_ and closed_ is a step of its own. The loop load + compare-exchange in
    try_push_ / try_pop_ (72-95) is one step: an iteration whose compare-exchange fails has no effect.
    The spinlocks splk_producers_ and splk_consumers_ are explicit where they are held over more than one
    access. Copying and moving values is assumed not to throw (UnbufThrow.v adds this). *)
From Coq Require Import List Arith Bool.
From Verif Require Import Base Kernel.
Import ListNotations.

(** channel_op_status.hpp:19-26 enum class channel_op_status (empty and full are not used here). *)
Inductive status := Success | Closed | Timeout.

Section Channel.
Context {V : Type}.   (* value_type, unbuffered_channel.hpp:40 *)

(** Public member functions. push(value const&) and push(value&&) (128-160, 162-193) differ in copying or
    moving the argument only; likewise push_wait_until (209-253, 255-298). push_wait_for / pop_wait_for
    add now() and call push_wait_until / pop_wait_until (195-207, 355-360). *)
Inductive op :=
| Push (v : V) | PushUntil (v : V) (tp : nat)
| Pop | ValuePop | PopUntil (tp : nat)
| Close | IsClosed.

(** What a call returns: a status; a value with status success (pop, pop_wait_until) or a returned value
    (value_pop) -- None stands for a moved-from object; fiber_error(operation_not_permitted) (343-345);
    void; a bool; the exception thrown while a value was moved (does not occur here, see UnbufThrow.v). *)
Inductive res := RStatus (st : status) | RValue (x : option V) | RThrow | RVoid | RBool (b : bool) | RExc.

(** A slot* : the slot lives in the frame of a push call; it is named by the fiber and the number of
    that fiber's push call (1, 2, ...), so that slots of different calls have different names. *)
Definition sptr := (fid * nat)%type.

(** The third event is a ghost: fiber [c] has executed "std::move( s->value)" (309, 336, 375). *)
Inductive event :=
| ECall (f : fid) (o : op)
| ERet (f : fid) (o : op) (r : res) (at_ : nat)
| EXfer (c : fid) (p : sptr) (x : option V).

(** 43-56 struct slot, in the frame of push call number [call]; s.w = { f, we }. *)
Record slotrec := mkSlot { call : nat; sval : option V; we : nat }.

(** Where a fiber is. Producers (lines of push / push_wait_until): *)
Inductive pc :=
| Idle                              (* in user code *)
| IsC                               (* 108 *)
| PTop (o : op)                     (* 132, 216: is_closed() *)
| PTry (o : op)                     (* 135-136, 219-220: create_waker, try_push_ *)
| PNotify (o : op) (e : nat)        (* 137-140, 221-224: the slot is published *)
| PSusp (o : op) (e : nat)          (* 140: in suspend; then 142 is_closed() *)
| PSuspT (o : op) (tp e : nat)      (* 224: in wait_until *)
| PDone (o : op)                    (* 232: is_closed() *)
| PClear (o : op)                   (* 226-229: timed out *)
| PLock (o : op)                    (* 149-150, 239-240: spinlock, is_closed() *)
| PHold (o : op)                    (* 153, 243: is_empty_(), spinlock held *)
| PWait (o : op) (e : nat)          (* 157: in suspend_and_wait *)
| PWaitT (o : op) (tp e : nat)      (* 247: in suspend_and_wait_until *)
| PRelock (o : op) (tp e : nat)     (* waker.cpp:34-38: timed out, taking the spinlock again *)
(* consumers (lines of pop / value_pop / pop_wait_until): *)
| CTop (o : op)                     (* 304, 330, 369: try_pop_ *)
| CNotify (o : op) (p : sptr)       (* 306-307, 332-333, 371-372 *)
| CRead (o : op) (p : sptr)         (* 309, 336, 375 *)
| CWake (o : op) (p : sptr) (x : option V)  (* 311-312, 338-339, 377-378 *)
| CLock (o : op)                    (* 314-315, 341-342, 380-381: spinlock, is_closed() *)
| CHold (o : op)                    (* 318, 347, 384: is_empty_(), spinlock held *)
| CWait (o : op) (e : nat)          (* 321, 350: in suspend_and_wait *)
| CWaitT (o : op) (tp e : nat)      (* 387: in suspend_and_wait_until *)
| CRelock (o : op) (tp e : nat)     (* waker.cpp:34-38 *)
(* close(): *)
| X0 | X1 | X2 (p : sptr) | X3 | X4. (* 113, 115, 118, 120-121, 123-124 *)

(** 58-66 the members: waiting_producers_ is queue 0, waiting_consumers_ queue 1. [frames]: the slots of
    the push calls in progress. [ub]: the program has read a slot whose frame is gone; it ends there.
    [asrt]: the assertion "! ctx->remote_ready_is_linked()" of scheduler::wait_until (scheduler.cpp:290)
    was violated (no effect if NDEBUG is defined). *)
Record state := mkState {
  kn : kern;
  slot : option sptr;
  closed : bool;
  lkP : option fid;
  lkC : option fid;
  queues : nat -> wq;
  frames : fid -> option slotrec;
  calls : fid -> nat;
  pcs : fid -> pc;
  ub : bool;
  asrt : bool;
  log : list event      (* newest first *)
}.

(** 98 unbuffered_channel() = default *)
Definition init : state :=
  mkState kinit None false None None (fun _ => []) (fun _ => None) (fun _ => 0) (fun _ => Idle) false false [].

Definition goto (s : state) (f : fid) (p : pc) : state :=
  mkState (kn s) (slot s) (closed s) (lkP s) (lkC s) (queues s) (frames s) (calls s) (upd (pcs s) f p) (ub s) (asrt s) (log s).
(** Returning ends the life of the slot in the frame. *)
Definition ret (s : state) (f : fid) (o : op) (r : res) : state :=
  mkState (kn s) (slot s) (closed s) (lkP s) (lkC s) (queues s) (upd (frames s) f None) (calls s) (upd (pcs s) f Idle)
          (ub s) (asrt s) (ERet f o r (now (kn s)) :: log s).
Definition set_kn (s : state) (k : kern) : state :=
  mkState k (slot s) (closed s) (lkP s) (lkC s) (queues s) (frames s) (calls s) (pcs s) (ub s) (asrt s) (log s).
Definition set_slot (s : state) (p : option sptr) : state :=
  mkState (kn s) p (closed s) (lkP s) (lkC s) (queues s) (frames s) (calls s) (pcs s) (ub s) (asrt s) (log s).
Definition set_closed (s : state) : state :=
  mkState (kn s) (slot s) true (lkP s) (lkC s) (queues s) (frames s) (calls s) (pcs s) (ub s) (asrt s) (log s).
Definition set_lkP (s : state) (x : option fid) : state :=
  mkState (kn s) (slot s) (closed s) x (lkC s) (queues s) (frames s) (calls s) (pcs s) (ub s) (asrt s) (log s).
Definition set_lkC (s : state) (x : option fid) : state :=
  mkState (kn s) (slot s) (closed s) (lkP s) x (queues s) (frames s) (calls s) (pcs s) (ub s) (asrt s) (log s).
Definition set_queue (s : state) (i : nat) (q : wq) : state :=
  mkState (kn s) (slot s) (closed s) (lkP s) (lkC s) (upd (queues s) i q) (frames s) (calls s) (pcs s) (ub s) (asrt s) (log s).
Definition set_frame (s : state) (f : fid) (r : option slotrec) : state :=
  mkState (kn s) (slot s) (closed s) (lkP s) (lkC s) (queues s) (upd (frames s) f r) (calls s) (pcs s) (ub s) (asrt s) (log s).
Definition set_asrt (s : state) (b : bool) : state :=
  mkState (kn s) (slot s) (closed s) (lkP s) (lkC s) (queues s) (frames s) (calls s) (pcs s) (ub s) (asrt s || negb b) (log s).
Definition set_ub (s : state) : state :=
  mkState (kn s) (slot s) (closed s) (lkP s) (lkC s) (queues s) (frames s) (calls s) (pcs s) true (asrt s) (log s).
Definition add_log (s : state) (e : event) : state :=
  mkState (kn s) (slot s) (closed s) (lkP s) (lkC s) (queues s) (frames s) (calls s) (pcs s) (ub s) (asrt s) (e :: log s).

(** Reading *p; None: the frame is gone. *)
Definition deref (s : state) (p : sptr) : option slotrec :=
  match frames s (fst p) with
  | Some r => if Nat.eqb (call r) (snd p) then Some r else None
  | None => None
  end.

(** waiting_xxx_.notify_one() (waker.cpp:49-58) *)
Definition notify1 (s : state) (i : nat) : state :=
  let '(k, q) := notify_one (kn s) (queues s i) in set_queue (set_kn s k) i q.
(** waiting_xxx_.notify_all() (waker.cpp:60-67) *)
Definition notifyA (s : state) (i : nat) : state :=
  let '(k, q) := notify_all (kn s) (queues s i) in set_queue (set_kn s k) i q.

(** The deadline of a timed operation (214, 260, 367). *)
Definition deadline (o : op) : option nat :=
  match o with PushUntil _ tp | PopUntil tp => Some tp | _ => None end.
Definition value_of (o : op) : option V :=
  match o with Push v | PushUntil v _ => Some v | _ => None end.

(** waiting_producers_.suspend_and_wait(_until) up to the context switch (157, 190, 247, 292); switching
    out releases the spinlock (context.cpp:184-202). *)
Definition blockP (s : state) (f : fid) (o : op) : state :=
  match deadline o with
  | None => let '(k, q, e) := suspend_and_wait (kn s) f (queues s 0) in
            goto (set_lkP (set_queue (set_kn s k) 0 q) None) f (PWait o e)
  | Some tp => let '(k, q, e) := suspend_and_wait_until (kn s) f (queues s 0) tp in
            goto (set_lkP (set_queue (set_kn s k) 0 q) None) f (PWaitT o tp e)
  end.
(** waiting_consumers_.suspend_and_wait(_until) (321, 350, 387) *)
Definition blockC (s : state) (f : fid) (o : op) : state :=
  match deadline o with
  | None => let '(k, q, e) := suspend_and_wait (kn s) f (queues s 1) in
            goto (set_lkC (set_queue (set_kn s k) 1 q) None) f (CWait o e)
  | Some tp => let '(k, q, e) := suspend_and_wait_until (kn s) f (queues s 1) tp in
            goto (set_lkC (set_queue (set_kn s k) 1 q) None) f (CWaitT o tp e)
  end.

(** 135-136, 169-170, 219-220, 265-266: s.w = create_waker(); try_push_( & s) *)
Definition try_push (s : state) (f : fid) (o : op) (r : slotrec) : state :=
  let '(k, e) := create_waker (kn s) f in
  let s1 := set_frame (set_kn s k) f (Some (mkSlot (call r) (sval r) e)) in
  match slot s with
  | None => goto (set_slot s1 (Some (f, call r))) f (PNotify o e)
  | Some _ => goto s1 f (PLock o)
  end.

(** What a consumer returns when the channel is closed (316, 343-345, 382). *)
Definition closed_res (o : op) : res := match o with ValuePop => RThrow | _ => RStatus Closed end.

Definition run_step (s : state) (f : fid) : option state :=
  match pcs s f with
  | Idle => None
  | IsC => Some (ret s f IsClosed (RBool (closed s)))
  | PTop o => Some (if closed s then ret s f o (RStatus Closed) else goto s f (PTry o))
  | PTry o => match frames s f with Some r => Some (try_push s f o r) | None => None end
  | PNotify o e =>                                   (* notify_one and switching out, both under splk_consumers_ *)
      match lkC s with
      | Some _ => None
      | None =>
          let s1 := notify1 s 1 in
          match deadline o with
          | None => Some (goto (set_kn s1 (suspend (kn s1) f)) f (PSusp o e))
          | Some tp => let s2 := set_asrt s1 (negb (queued (fib (kn s1) f))) in
                       Some (goto (set_kn s2 (wait_until_begin (kn s2) f tp e)) f (PSuspT o tp e))
          end
      end
  | PSusp o e => Some (ret s f o (RStatus (if closed s then Closed else Success)))       (* 142-147 *)
  | PSuspT o tp e => Some (goto s f (if wait_until_result (kn s) tp then PDone o else PClear o))
  | PDone o => Some (ret s f o (RStatus (if closed s then Closed else Success)))         (* 232-237 *)
  | PClear o =>                                                                          (* 227-229 *)
      let s1 := match slot s, frames s f with
                | Some p, Some r => if waker_eqb p (f, call r) then set_slot s None else s
                | _, _ => s
                end in
      Some (ret s1 f o (RStatus Timeout))
  | PLock o =>
      match lkP s with
      | Some _ => None
      | None => Some (if closed s then ret s f o (RStatus Closed) else goto (set_lkP s (Some f)) f (PHold o))
      end
  | PHold o =>
      Some (match slot s with
            | None => goto (set_lkP s None) f (PTop o)                                   (* 154 continue *)
            | Some _ => blockP s f o
            end)
  | PWait o e =>                                                                         (* waker.cpp:22 *)
      Some (goto (set_kn s (suspend_and_wait_end (kn s) (queues s 0) (f, e))) f (PTop o))
  | PWaitT o tp e => Some (goto s f (if wait_until_result (kn s) tp then PTop o else PRelock o tp e))
  | PRelock o tp e =>                                                                    (* waker.cpp:39-44, 249 *)
      match lkP s with
      | Some _ => None
      | None => let q := queues s 0 in
                Some (ret (set_queue s 0 (if is_linked q (f, e) then wq_remove q (f, e) else q)) f o (RStatus Timeout))
      end
  | CTop o =>
      Some (match slot s with
            | Some p => goto (set_slot s None) f (CNotify o p)
            | None => goto s f (CLock o)
            end)
  | CNotify o p =>
      match lkP s with
      | Some _ => None
      | None => Some (goto (notify1 s 0) f (CRead o p))
      end
  | CRead o p =>
      Some (match deref s p with
            | None => set_ub s
            | Some r => goto (add_log (set_frame s (fst p) (Some (mkSlot (call r) None (we r)))) (EXfer f p (sval r)))
                             f (CWake o p (sval r))
            end)
  | CWake o p x =>
      Some (match deref s p with
            | None => set_ub s
            | Some r => ret (set_kn s (fst (wake (kn s) (fst p, we r)))) f o (RValue x)
            end)
  | CLock o =>
      match lkC s with
      | Some _ => None
      | None => Some (if closed s then ret s f o (closed_res o) else goto (set_lkC s (Some f)) f (CHold o))
      end
  | CHold o =>
      Some (match slot s with
            | Some _ => goto (set_lkC s None) f (CTop o)                                 (* 319 continue *)
            | None => blockC s f o
            end)
  | CWait o e =>
      Some (goto (set_kn s (suspend_and_wait_end (kn s) (queues s 1) (f, e))) f (CTop o))
  | CWaitT o tp e => Some (goto s f (if wait_until_result (kn s) tp then CTop o else CRelock o tp e))
  | CRelock o tp e =>                                                                    (* waker.cpp:39-44, 388 *)
      match lkC s with
      | Some _ => None
      | None => let q := queues s 1 in
                Some (ret (set_queue s 1 (if is_linked q (f, e) then wq_remove q (f, e) else q)) f o (RStatus Timeout))
      end
  | X0 => Some (if closed s then ret s f Close RVoid else goto (set_closed s) f X1)      (* 113 *)
  | X1 => Some (goto s f (match slot s with Some p => X2 p | None => X3 end))            (* 115-116 *)
  | X2 p =>                                                                              (* 118 *)
      Some (match deref s p with
            | None => set_ub s
            | Some r => goto (set_kn s (fst (wake (kn s) (fst p, we r)))) f X3
            end)
  | X3 =>                                                                                (* 120-121; lk1 stays locked *)
      match lkP s with
      | Some _ => None
      | None => Some (goto (set_lkP (notifyA s 0) (Some f)) f X4)
      end
  | X4 =>                                                                                (* 123-126 *)
      match lkC s with
      | Some _ => None
      | None => Some (ret (set_lkP (notifyA s 1) None) f Close RVoid)
      end
  end.

(** The first pc of each member function; a push call creates its slot (130, 164, 213, 259). *)
Definition entry (o : op) : pc :=
  match o with
  | Push _ | PushUntil _ _ => PTop o
  | Pop | ValuePop | PopUntil _ => CTop o
  | Close => X0
  | IsClosed => IsC
  end.
Definition call_op (s : state) (f : fid) (o : op) : state :=
  let s1 := goto (add_log s (ECall f o)) f (entry o) in
  match value_of o with
  | Some v =>
      let n := S (calls s f) in
      mkState (kn s1) (slot s1) (closed s1) (lkP s1) (lkC s1) (queues s1) (upd (frames s1) f (Some (mkSlot n (Some v) 0)))
              (upd (calls s1) f n) (pcs s1) (ub s1) (asrt s1) (log s1)
  | None => s1
  end.

Inductive label :=
| LK (l : klabel)
| LCall (f : fid) (o : op)
| LRun (f : fid)
| LYield (f : fid)              (* user code between two calls *)
| LContend (f : fid).           (* waker.cpp:35-37: try_lock() fails: yield and retry *)

Definition step (s : state) (l : label) : option state :=
  if ub s then None else
  match l with
  | LK kl => match kstep (kn s) kl with Some k => Some (set_kn s k) | None => None end
  | LCall f o =>
      match pcs s f with
      | Idle => if running (fib (kn s) f) then Some (call_op s f o) else None
      | _ => None
      end
  | LRun f => if running (fib (kn s) f) then run_step s f else None
  | LYield f =>
      match pcs s f with
      | Idle => if running (fib (kn s) f) then Some (set_kn s (yield (kn s) f)) else None
      | _ => None
      end
  | LContend f =>
      match pcs s f with
      | PRelock _ _ _ | CRelock _ _ _ => if running (fib (kn s) f) then Some (set_kn s (yield (kn s) f)) else None
      | _ => None
      end
  end.
End Channel.
Arguments op : clear implicits.
Arguments res : clear implicits.
Arguments event : clear implicits.
Arguments pc : clear implicits.
Arguments slotrec : clear implicits.
Arguments state : clear implicits.
Arguments label : clear implicits.
