(** Model: what a synchronization object sees of the scheduler.

    Fibers with their waker epoch, the ready/running/suspended distinction,
    the sleep entry, threads, the clock, and wait_queue.  The scheduling
    algorithm is an adversary: any queued fiber may be picked by any idle thread. *)
From Coq Require Import List Arith Bool.
From Verif Require Import Base.
Import ListNotations.

Definition fid := nat.   (* a context* *)
Definition tid := nat.   (* an OS thread, i.e. a scheduler *)

(** waker.hpp:23-39 class waker {ctx_, epoch_}. A waker_with_hook (42-59) lives on the
    stack of the waiting fiber; its identity (operator== compares addresses,
    waker.hpp:52-55) is the pair, because epochs of one fiber are never reused
    (context.hpp:288-291). The size_t epoch is modelled as an unbounded number. *)
Definition waker := (fid * nat)%type.

Definition waker_eqb (a b : waker) : bool :=
  Nat.eqb (fst a) (fst b) && Nat.eqb (snd a) (snd b).

(** context.hpp: the part of class context relevant for blocking:
    waker_epoch_ (context.hpp:288-291), whether it is executing on a thread, whether it is linked
    in a ready or remote-ready queue, scheduler_ ([home]), and the sleep entry
    (tp_ and epoch of sleep_waker_, scheduler.cpp:294-296). *)
Record fiber := mkFiber {
  epoch : nat;
  running : bool;
  queued : bool;
  home : tid;
  sleep : option (nat * nat)
}.

(** All fibers, the fiber executing on each thread (context_initializer::active_,
    context.cpp:71-145; None = the dispatcher runs), the steady clock, and a flag
    recording a violated assertion "! ready_is_linked()" (scheduler.cpp:179-182, 201-202). *)
Record kern := mkKern {
  fib : fid -> fiber;
  thr : tid -> option fid;
  now : nat;
  err : bool
}.

Definition set_fib (k : kern) (f : fid) (x : fiber) : kern :=
  mkKern (upd (fib k) f x) (thr k) (now k) (err k).

(** Initially every fiber has been started (fiber.cpp:24-41) and is in a ready queue. *)
Definition kinit : kern :=
  mkKern (fun _ => mkFiber 0 false true 0 None) (fun _ => None) 0 false.

(** context.hpp:288-291 create_waker: returns { this, ++waker_epoch_ }. *)
Definition create_waker (k : kern) (f : fid) : kern * nat :=
  let x := fib k f in
  let e := S (epoch x) in
  (set_fib k f (mkFiber e (running x) (queued x) (home x) (sleep x)), e).

(** context.cpp:299-316 context::wake (via waker::wake, waker.cpp:8-14): compare-exchange of the
    epoch; on success the fiber is linked into the ready queue of its scheduler
    (scheduler.cpp:177-192) or its remote-ready queue (scheduler.cpp:196-214).
    Linking a fiber that is already linked violates the assertions there. *)
Definition wake (k : kern) (w : waker) : kern * bool :=
  let (f, e) := w in
  let x := fib k f in
  if Nat.eqb (epoch x) e then
    (mkKern (upd (fib k) f (mkFiber (S e) (running x) true (home x) (sleep x)))
            (thr k) (now k) (err k || queued x), true)
  else (k, false).

(** scheduler.cpp:305-314 suspend: the running fiber is switched out, its thread
    continues with something else. *)
Definition suspend (k : kern) (f : fid) : kern :=
  let x := fib k f in
  mkKern (upd (fib k) f (mkFiber (epoch x) false (queued x) (home x) (sleep x)))
         (upd (thr k) (home x) None) (now k) (err k).

(** scheduler.cpp:243-255 yield: switched out and linked into the ready queue
    (context.cpp:204-216 resume(ready_ctx) -> schedule). *)
Definition yield (k : kern) (f : fid) : kern :=
  let x := fib k f in
  mkKern (upd (fib k) f (mkFiber (epoch x) false true (home x) (sleep x)))
         (upd (thr k) (home x) None) (now k) (err k || queued x).

(** scheduler.cpp:279-298 wait_until(ctx, tp, lk, w), first half: link into the sleep queue
    with deadline [tp] and waker epoch [e], then switch out. *)
Definition wait_until_begin (k : kern) (f : fid) (tp e : nat) : kern :=
  let x := fib k f in
  suspend (set_fib k f (mkFiber (epoch x) (running x) (queued x) (home x) (Some (tp, e)))) f.

(** scheduler.cpp:299-301 wait_until, second half: the value returned after resumption. *)
Definition wait_until_result (k : kern) (tp : nat) : bool := Nat.ltb (now k) tp.

(** wait_queue (waker.hpp:71-84): the list slist_, front first. *)
Definition wq := list waker.

(** waker.cpp:16-23 suspend_and_wait up to the context switch (push_back then suspend(lk)). *)
Definition suspend_and_wait (k : kern) (f : fid) (q : wq) : kern * wq * nat :=
  let (k1, e) := create_waker k f in
  (suspend k1 f, q ++ [(f, e)], e).

(** waker.cpp:25-32 suspend_and_wait_until up to the context switch. *)
Definition suspend_and_wait_until (k : kern) (f : fid) (q : wq) (tp : nat) : kern * wq * nat :=
  let (k1, e) := create_waker k f in
  (wait_until_begin k1 f tp e, q ++ [(f, e)], e).

(** waker.cpp:39-42 removal of a waker that is still linked. *)
Definition wq_remove (q : wq) (w : waker) : wq :=
  filter (fun x => negb (waker_eqb x w)) q.

(** waker.hpp:48-50 is_linked. *)
Definition is_linked (q : wq) (w : waker) : bool := existsb (waker_eqb w) q.

(** A BOOST_ASSERT at run time: a false condition sets the error flag. *)
Definition kassert (k : kern) (b : bool) : kern :=
  mkKern (fib k) (thr k) (now k) (err k || negb b).

(** waker.cpp:22 second half of suspend_and_wait: BOOST_ASSERT( ! w.is_linked() ). *)
Definition suspend_and_wait_end (k : kern) (q : wq) (w : waker) : kern :=
  kassert k (negb (is_linked q w)).

(** waker.cpp:49-58 notify_one: pop from the front until one wake() succeeds. *)
Fixpoint notify_one (k : kern) (q : wq) : kern * wq :=
  match q with
  | [] => (k, [])
  | w :: q' => let (k', b) := wake k w in
               if b then (k', q') else notify_one k' q'
  end.

(** waker.cpp:60-67 notify_all: pop and wake every entry. *)
Fixpoint notify_all (k : kern) (q : wq) : kern * wq :=
  match q with
  | [] => (k, [])
  | w :: q' => let (k', _) := wake k w in notify_all k' q'
  end.

(** Steps that are not the program's own: scheduling, timers, the clock. *)
Inductive klabel :=
| Pick (f : fid) (t : tid)
| Timer (f : fid)
| Tick (d : nat).

(** Pick: thread [t] that is not executing a fiber resumes a fiber taken from a ready queue
    (scheduler.cpp:143-154 and pick_next in 254, 273, 298, 307, 313); the fiber may have
    migrated (algo pick_next, attach), so [t] is arbitrary. schedule() has unlinked the
    sleep entry before the fiber entered the ready queue (scheduler.cpp:186-189).
    Timer: the dispatcher of the home thread finds an expired sleep entry
    (sleep2ready_, scheduler.cpp:84-89): erase it and call sleep_waker_.wake().
    Tick: the steady clock advances. *)
Definition kstep (k : kern) (l : klabel) : option kern :=
  match l with
  | Pick f t =>
      let x := fib k f in
      match thr k t with
      | Some _ => None
      | None =>
          if queued x && negb (running x) then
            Some (mkKern (upd (fib k) f (mkFiber (epoch x) true false t None))
                         (upd (thr k) t (Some f)) (now k) (err k))
          else None
      end
  | Timer f =>
      let x := fib k f in
      match thr k (home x), sleep x with
      | None, Some (tp, e) =>
          if Nat.leb tp (now k) then
            Some (fst (wake (set_fib k f (mkFiber (epoch x) (running x) (queued x) (home x) None))
                            (f, e)))
          else None
      | _, _ => None
      end
  | Tick d => Some (mkKern (fib k) (thr k) (now k + S d) (err k))
  end.

(** Observable status of a fiber: it can make progress by itself once the scheduler
    gives it the processor, or it is blocked until somebody wakes it. *)
Definition runnable (k : kern) (f : fid) : Prop :=
  running (fib k f) = true \/ queued (fib k f) = true.
Definition blocked (k : kern) (f : fid) : Prop :=
  running (fib k f) = false /\ queued (fib k f) = false.

(** Observation: those of the fibers in [fs] that are in a ready queue in [k'] and were not in [k]
    (what a notification did, read off the kernel and not off the wakers). *)
Definition flips (k k' : kern) (fs : list fid) : list fid :=
  filter (fun f => negb (queued (fib k f)) && queued (fib k' f)) fs.
