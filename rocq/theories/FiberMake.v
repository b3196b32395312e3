(** Model: what a fiber owns, from its creation to the release of its last reference (context.hpp:412-516, fiber.hpp:161-172, context.cpp:159-170, 374-378). One fiber; its function object, any number of arguments, its property object and its stack.
    Every copy or move of the function object or of an argument may throw; allocating the stack may throw.
    Simplified: the copies of the arguments that the constructors of class fiber pass on by value are temporaries of the caller and left out. Arguments are numbered in the order in which std::tuple constructs them. Creating the boost::context::fiber (471-472) does not throw. The wait of join() is left out: the step [Join] is possible as soon as the fiber has terminated. *)
From Coq Require Import List Arith Bool.
From Verif Require Import Base.
Import ListNotations.

(** Objects: the stack (sctx, 494), the members fn_ and arg_ (434-435), the local variables fn and arg of run_() (442-443), property objects. *)
Inductive res := Stack | MemFn | MemArg (i : nat) | LocFn | LocArg (i : nat) | Props (p : nat).
(** Newest first. *)
Inductive event :=
  | Made (r : res) | Gone (r : res)
  | Threw                 (* the constructor of class fiber exits with an exception *)
  | Created               (* the constructor returns *)
  | Invoked               (* the function is called (449-451) *)
  | Terminated            (* terminated_ is set by terminate() (455, context.cpp:269) *)
  | Joined | Detached     (* fiber::join(), fiber::detach() *)
  | StdTerminate.         (* std::terminate() *)
(** Where the creation or the execution is. [Fresh]: before 494. [AtFn], [AtArg k]: about to construct fn_ (465), the k-th element of arg_ (466). [Failed None]: the allocation has failed; [Failed (Some k)]: the k-th copy has thrown (0: fn_). [Ready]: created. [RunFn], [RunArg k]: about to move fn_ (442), the k-th element of arg_ (443). [Body]: the function runs. [Ended]: terminate() has been called. [Dead k]: std::terminate(), with fn (not None) and k elements of arg moved. *)
Inductive pc := Fresh | AtFn | AtArg (k : nat) | Failed (k : option nat) | Ready | RunFn | RunArg (k : nat) | Body | Ended | Dead (k : option nat).
(** [props]: properties_ of the context. [next]: property objects made so far are those below next. [handle], [self]: the two references (context.hpp:464 and intrusive_ptr, 504; the second one is given up by the dispatcher, scheduler.cpp:25-46). [freed]: intrusive_ptr_release has destroyed the context. *)
Record st := mkSt { at_ : pc; props : option nat; next : nat; handle : bool; self : bool; freed : bool; log : list event }.
(** The fiber is about to be created; the caller may have made a property object (fiber.hpp:112-172). *)
Definition init_state (given : bool) : st :=
  if given then mkSt Fresh None 1 false false false [Made (Props 0)] else mkSt Fresh None 0 false false false [].
(** [Copy b]: the next allocation, copy or move; b: it succeeds. [Ctor]: the body of the constructor. [Call]: the function is called. [Return b]: it returns (b) or throws. [Start]: the fiber is resumed for the first time. [Replace]: context::set_properties() with a new object. [Reap]: the dispatcher releases the terminated fiber. *)
Inductive label := Copy (b : bool) | Ctor | Start | Call | Return (b : bool) | Replace | Join | Detach | Reap.

(** The elements k-1, ..., 0 of a tuple are destroyed. *)
Fixpoint gone_args (f : nat -> res) (k : nat) : list event :=
  match k with 0 => [] | S k' => Gone (f k') :: gone_args f k' end.
(** Events in the order of time, added to the log. *)
Definition emit (s : st) (p : pc) (es : list event) : st := mkSt p (props s) (next s) (handle s) (self s) (freed s) (rev es ++ log s).
(** delete of a property object (context.cpp:169, 376); nothing to do for nullptr. *)
Definition del (p : option nat) : list event := match p with Some q => [Gone (Props q)] | None => [] end.
(** intrusive_ptr_release, context.hpp:412-422, for the last reference: ~worker_context() destroys arg_ and fn_, ~context() deletes properties_ (context.cpp:169), then the stack is deallocated (420-421). *)
Definition destroy (n : nat) (s : st) : st :=
  mkSt (at_ s) None (next s) (handle s) (self s) true
    (rev (gone_args MemArg n ++ [Gone MemFn] ++ del (props s) ++ [Gone Stack]) ++ log s).
(** Give up a reference and destroy the context if it was the last one (context.hpp:414). *)
Definition settle (n : nat) (s : st) : st := if handle s || self s then s else destroy n s.

(** One step; n: number of arguments, given: the caller passes a property object. *)
Definition step (n : nat) (given : bool) (s : st) (l : label) : option st :=
  match l, at_ s with
  (* auto sctx = salloc.allocate(), 494 *)
  | Copy true, Fresh => Some (emit s AtFn [Made Stack])
  | Copy false, Fresh => Some (emit s (Failed None) [Threw])
  (* fn_( std::forward< Fn >( fn) ), 465. If it throws, ~context() runs with properties_ == nullptr; the placement new (504-511) frees nothing, and nothing else owns sctx *)
  | Copy true, AtFn => Some (emit s (AtArg 0) [Made MemFn])
  | Copy false, AtFn => Some (emit s (Failed (Some 0)) [Threw])
  (* arg_( std::forward< Arg >( arg) ... ), 466 *)
  | Copy b, AtArg k =>
      if Nat.ltb k n then
        if b then Some (emit s (AtArg (S k)) [Made (MemArg k)])
        else Some (emit s (Failed (Some (S k))) (gone_args MemArg k ++ [Gone MemFn; Threw]))
      else None
  (* body of the constructor, 467-476; then the handle owns the context and start_() (fiber.cpp:24-41) makes it ready *)
  | Ctor, AtArg k =>
      if Nat.eqb k n then Some (mkSt Ready (if given then Some 0 else None) (next s) true true false (Created :: log s)) else None
  (* run_(), 438-456 *)
  | Start, Ready => Some (emit s RunFn [])
  | Copy true, RunFn => Some (emit s (RunArg 0) [Made LocFn])
  | Copy false, RunFn => Some (emit s (Dead None) [StdTerminate])
  | Copy b, RunArg k =>
      if Nat.ltb k n then
        if b then Some (emit s (RunArg (S k)) [Made (LocArg k)]) else Some (emit s (Dead (Some k)) [StdTerminate])
      else None
  | Call, RunArg k => if Nat.eqb k n then Some (emit s Body [Invoked]) else None
  (* the block is left (453), then terminate() *)
  | Return true, Body => Some (emit s Ended (gone_args LocArg n ++ [Gone LocFn; Terminated]))
  | Return false, Body => Some (emit s (Dead (Some n)) [StdTerminate])
  (* context::set_properties(), context.cpp:374-378: delete the old object, keep the new one (made by new_properties(), algorithm.hpp:150) *)
  | Replace, (Ready | RunFn | RunArg _ | Body | Ended) =>
      if freed s then None
      else Some (mkSt (at_ s) (Some (next s)) (S (next s)) (handle s) (self s) false
                   (del (props s) ++ Made (Props (next s)) :: log s))
  (* fiber::join() has found the fiber terminated, fiber.cpp:54-55 *)
  | Join, Ended => if handle s then Some (settle n (mkSt Ended (props s) (next s) false (self s) (freed s) (Joined :: log s))) else None
  (* fiber::detach(), fiber.cpp:63 *)
  | Detach, (Ready | RunFn | RunArg _ | Body | Ended) =>
      if handle s then Some (settle n (mkSt (at_ s) (props s) (next s) false (self s) (freed s) (Detached :: log s))) else None
  (* scheduler::release_terminated_(), scheduler.cpp:25-46 *)
  | Reap, Ended => if self s then Some (settle n (mkSt Ended (props s) (next s) (handle s) false (freed s) (log s))) else None
  | _, _ => None
  end.
