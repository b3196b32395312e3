(** Model: waiting for an asynchronous operation of Boost.Asio in a fiber (examples/asio/detail/yield.hpp, examples/asio/yield.hpp). Any number of fibers and operations; handlers run on any thread at any time.
    Each operation has a yield_completion (heap, counted references), an async_result on the stack of the calling fiber, and handler objects, which asio copies and moves.
    Assumptions about asio: the handler of an operation is invoked at most once; handler objects may be copied and destroyed at any time.
    Simplified: a critical section under mtx_ is one step. T and error_code are numbers, error code 0 is success. Fibers are on any thread and may run at any time when they are not suspended. The variable bound by yield[ ec] outlives the operation. *)
From Coq Require Import List Arith Bool.
From Verif Require Import Base.
Import ListNotations.

(** state_t, lines 36-40 *)
Inductive state_t := Init | Waiting | Complete.
(** The invocation of the handler. [HValue]: about to store the value (line 162). [HLock]: about to enter the critical section of operator() (107-115). [HWake w]: about to wake the fiber if the state was Waiting (120-123). [HDone]: has returned. *)
Inductive hpc := HNone | HValue | HLock | HWake (w : bool) | HDone.
(** The fiber. [FStarted]: the asynchronous operation has been started, get() not yet called. [FBlocked]: suspended in wait() (line 60). [FResumed]: wait() has returned. [FGone]: get() has returned. *)
Inductive fpc := FNone | FStarted | FBlocked | FResumed | FGone.
(** What get() gives to the caller, lines 227-229 and 267. *)
Inductive result := RValue (v ec : nat) | RThrow (ec : nat).
(** Newest first. *)
Inductive event :=
  | EStart (f n : nat) (b : bool)     (* fiber f starts operation n with yield (false) or yield[ ec] (true) *)
  | EInvoke (n ec v : nat)            (* asio calls the handler *)
  | EWake (n : nat)                   (* context::schedule() of the fiber *)
  | ESuspend (f n : nat)
  | EReturn (f n : nat) (r : result)  (* get() returns or throws *)
  | EDelete (n : nat)                 (* the yield_completion is deleted *)
  | EDangling (n : nat)               (* a destroyed async_result or yield_completion is accessed *)
  | EBadWake (n : nat).               (* a fiber that is not suspended is scheduled *)
(** One operation: yield_handler_base (lines 127-131, 170), yield_completion (46-48), async_result (234-235, 271). *)
Record op_t := mkOp {
  fib : nat; bound : bool;            (* ctx_; yield[ ec] was used *)
  stt : state_t; refs : nat; deleted : bool;    (* yield_completion: state_, use_count_ *)
  copies : nat; h : hpc; hec : nat; hval : nat; (* handler objects; the invocation and its arguments *)
  alive : bool; value : nat; ecv : nat;         (* async_result exists; value_; what yt_.ec_ points to *)
  fp : fpc
}.
(** All operations started so far are those below count. *)
Record st := mkSt { ops : nat -> op_t; count : nat; busy : nat -> bool (* fiber is in an operation *); log : list event }.
(** No operation yet. *)
Definition no_op : op_t := mkOp 0 false Init 0 false 0 HNone 0 0 false 0 0 FNone.
(** Nothing has been started (model only). *)
Definition init_state : st := mkSt (fun _ => no_op) 0 (fun _ => false) [].

(** Steps of the fibers (lines 50-62, 206-268), of asio and of the handlers (98-124, 156-165). *)
Inductive label :=
  | Start (f : nat) (b : bool)    (* an async function is called with yield or yield[ ec] *)
  | Copy (n : nat) | Drop (n : nat)
  | Invoke (n ec v : nat)
  | Hnd (n : nat)                 (* next step of the handler *)
  | Fib (n : nat).                (* next step of the fiber *)

(** Replace operation n, append events (model only). *)
Definition put (s : st) (n : nat) (o : op_t) (e : list event) : st := mkSt (upd (ops s) n o) (count s) (busy s) (e ++ log s).
(** intrusive_ptr_release, lines 69-75: the reference count after one reference has gone, and whether the object is deleted. *)
Definition release (o : op_t) (n : nat) : nat * bool * list event := match refs o with 1 => (0, true, [EDelete n]) | r => (r - 1, deleted o, []) end.

(** yield_handler_base (lines 90-95) captures the fiber; async_result_base (206-218) and async_result (257-262) create the completion and inject the pointers; then the operation is initiated with the handler. *)
Definition start (s : st) (f : nat) (b : bool) : st :=
  let n := count s in
  mkSt (upd (ops s) n (mkOp f b Init 2 false 1 HNone 0 0 true 0 0 FStarted)) (S n) (upd (busy s) f true) (EStart f n b :: log s).
(** Destructor of a handler object: its ycomp_ (line 131) is released. *)
Definition drop (s : st) (n : nat) : st :=
  let o := ops s n in let '(r, d, e) := release o n in
  put s n (mkOp (fib o) (bound o) (stt o) r d (copies o - 1) (h o) (hec o) (hval o) (alive o) (value o) (ecv o) (fp o)) e.
(** Lines 156-165 (operator()( ec, t)) and 98-124 (operator()( ec)). *)
Definition hstep (s : st) (n : nat) : option st :=
  let o := ops s n in
  match h o with
  | HValue => Some (put s n (mkOp (fib o) (bound o) (stt o) (refs o) (deleted o) (copies o) HLock (hec o) (hval o) (alive o) (hval o) (ecv o) (fp o)) (if alive o then [] else [EDangling n]))
  | HLock => Some (put s n (mkOp (fib o) (bound o) Complete (refs o) (deleted o) (copies o) (HWake (match stt o with Waiting => true | _ => false end)) (hec o) (hval o) (alive o) (value o) (hec o) (fp o))
                     (if alive o && negb (deleted o) then [] else [EDangling n]))
  | HWake w =>
      let o' p := mkOp (fib o) (bound o) (stt o) (refs o) (deleted o) (copies o) HDone (hec o) (hval o) (alive o) (value o) (ecv o) p in
      if w then match fp o with FBlocked => Some (put s n (o' FResumed) [EWake n]) | p => Some (put s n (o' p) [EBadWake n]) end
      else Some (put s n (o' (fp o)) [])
  | HNone | HDone => None
  end.
(** async_result::get() (lines 265-268), async_result_base::get() (220-230), wait() (50-62), then the destructors. *)
Definition fstep (s : st) (n : nat) : option st :=
  let o := ops s n in
  match fp o with
  | FStarted =>
      match stt o with
      | Complete => Some (put s n (mkOp (fib o) (bound o) (stt o) (refs o) (deleted o) (copies o) (h o) (hec o) (hval o) (alive o) (value o) (ecv o) FResumed) (if deleted o then [EDangling n] else []))
      | _ => Some (put s n (mkOp (fib o) (bound o) Waiting (refs o) (deleted o) (copies o) (h o) (hec o) (hval o) (alive o) (value o) (ecv o) FBlocked) (ESuspend (fib o) n :: if deleted o then [EDangling n] else []))
      end
  | FResumed =>
      let r := if bound o then RValue (value o) (ecv o) else match ecv o with 0 => RValue (value o) 0 | e => RThrow e end in
      let '(c, d, e) := release o n in
      let s1 := put s n (mkOp (fib o) (bound o) (stt o) c d (copies o) (h o) (hec o) (hval o) false (value o) (ecv o) FGone) (e ++ [EReturn (fib o) n r]) in
      Some (mkSt (ops s1) (count s1) (upd (busy s1) (fib o) false) (log s1))
  | FNone | FBlocked | FGone => None
  end.
(** Handler objects are copied and destroyed by asio at any time (comment in lines 83-87); while the handler runs, its object exists. *)
Definition step (s : st) (l : label) : option st :=
  match l with
  | Start f b => if busy s f then None else Some (start s f b)
  | Copy n => let o := ops s n in
      match copies o with 0 => None | _ => Some (put s n (mkOp (fib o) (bound o) (stt o) (S (refs o)) (deleted o) (S (copies o)) (h o) (hec o) (hval o) (alive o) (value o) (ecv o) (fp o)) []) end
  | Drop n => let o := ops s n in
      match copies o, h o with 0, _ => None | 1, (HValue | HLock | HWake _) => None | _, _ => Some (drop s n) end
  | Invoke n ec v => let o := ops s n in
      match copies o, h o with
      | S _, HNone => Some (put s n (mkOp (fib o) (bound o) (stt o) (refs o) (deleted o) (copies o) HValue ec v (alive o) (value o) (ecv o) (fp o)) [EInvoke n ec v])
      | _, _ => None end
  | Hnd n => hstep s n
  | Fib n => fstep s n
  end.
