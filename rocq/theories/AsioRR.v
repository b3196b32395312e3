(** Model: the scheduling algorithm that embeds Boost.Asio (examples/asio/round_robin.hpp:36-184) in one thread with its dispatcher fiber (src/scheduler.cpp:49-94, 123-174), the fiber that runs the service lambda (round_robin.hpp:81-96) and any number of worker fibers. Other threads post handlers and wake fibers.
    Simplified: the io_context keeps running (stopped() is false, line 81; the work object keeps run_one() from returning 0). poll() executes handlers until none is ready. mtx_ is used by the service fiber only, so cnd_.wait() (lines 87-88) is one step that suspends and a notification resumes it. A fiber in a timed wait is not woken by other threads (other fibers of this thread do wake it). A context switch is one step. Times are numbers. Of a handler only its effects on fibers matter: it wakes fibers, yields, or blocks. *)
From Coq Require Import List Arith Bool.
From Verif Require Import Base.
Import ListNotations.

(** Dispatcher fiber, fiber executing the lambda (usually the main fiber), worker fibers (type.hpp:44-50). *)
Inductive ctx := Disp | Svc | Wk (i : nat).
(** Handlers in the io_context: that of suspend_timer_ (round_robin.hpp:153-155, 178-180), those of the application. *)
Inductive hnd := HTimer | HUser.
(** Where the service fiber is: line 82; line 84; line 92; executing a handler called from poll() (true) or run_one() (false); suspended in line 88; suspended inside a handler of the application. *)
Inductive spc := LTop | LPoll | LRunOne | LHnd (h : hnd) (k : bool) | LWaiting | LBlocked (k : bool).
(** Workers: not created, ready, running, suspended without and with a deadline (scheduler.cpp:258-314), woken by another thread (195-214), terminated (218-240). *)
Inductive wst := WNone | WReady | WRun | WBlocked | WSleep | WRemote | WDead.
(** Observable events, newest first: suspend_until() called; has_ready_fibers() was true in line 82; run_one() called. *)
Inductive event := ESuspend | EPoll | ERunOne.
(** The members of round_robin (lines 39-45), of scheduler (scheduler.hpp: sleep_queue_, remote_ready_queue_) and of the io_context. *)
Record st := mkSt {
  rq : list ctx; counter : nat;     (* rqueue_, counter_ *)
  run : ctx;                        (* context::active() *)
  dsus : bool;                      (* the dispatcher found no ready fiber and is about to call suspend_until() *)
  lpc : spc;
  ws : nat -> wst;
  sleeps : list (nat * nat);        (* sleep_queue_: deadline, worker; ascending *)
  remote : list nat;                (* remote_ready_queue_ *)
  owed : nat;                       (* schedule_from_remote() between unlock (line 211) and notify() (line 213) *)
  hq : list hnd;                    (* ready handlers of the io_context *)
  pend : nat; expiry : nat;         (* suspend_timer_: outstanding async_wait(), expiry time *)
  now : nat;
  log : list event
}.
(** The service fiber runs the lambda, the dispatcher (scheduler.cpp:341-356: attach_dispatcher_context) and n workers are ready. *)
Definition init_state (n : nat) : st := mkSt (Disp :: map Wk (seq 0 n)) n Svc false LTop (fun i => if i <? n then WReady else WNone) [] [] 0 [] 0 0 0 [].

(** What a worker does: scheduler.cpp:243-255, 258-302, 305-314, 218-240, 177-192, fiber.cpp:34-52. *)
Inductive act := AYield | ASleep (d : nat) | ABlock | AExit | AWake (j : nat) | ASpawn (j : nat).
(** Steps of the fibers, of the io_context and of other threads (lines 81-182, scheduler.cpp:123-214). *)
Inductive label :=
  | W (a : act)            (* the running worker *)
  | S_step                 (* the service fiber: next step of the lambda or of the timer handler *)
  | SWake (j : nat) | SYield | SBlock | SEnd  (* inside a handler of the application *)
  | D_step                 (* the dispatcher *)
  | Post                   (* a handler of the application becomes ready *)
  | Expire                 (* suspend_timer_ expires *)
  | Tick                   (* time passes *)
  | Push (i : nat) | Notify  (* another thread: schedule_from_remote(), lines 205-211 and 213 *)
  | Unblock.               (* a worker or handler wakes the service fiber blocked in a handler *)

(** Field updates, no counterpart in the code. *)
Definition set_q (s : st) (q : list ctx) (c : nat) (r : ctx) := mkSt q c r (dsus s) (lpc s) (ws s) (sleeps s) (remote s) (owed s) (hq s) (pend s) (expiry s) (now s) (log s).
Definition set_l (s : st) (p : spc) := mkSt (rq s) (counter s) (run s) (dsus s) p (ws s) (sleeps s) (remote s) (owed s) (hq s) (pend s) (expiry s) (now s) (log s).
Definition set_w (s : st) (w : nat -> wst) := mkSt (rq s) (counter s) (run s) (dsus s) (lpc s) w (sleeps s) (remote s) (owed s) (hq s) (pend s) (expiry s) (now s) (log s).
Definition set_s (s : st) (l : list (nat * nat)) := mkSt (rq s) (counter s) (run s) (dsus s) (lpc s) (ws s) l (remote s) (owed s) (hq s) (pend s) (expiry s) (now s) (log s).
Definition set_r (s : st) (l : list nat) (o : nat) := mkSt (rq s) (counter s) (run s) (dsus s) (lpc s) (ws s) (sleeps s) l o (hq s) (pend s) (expiry s) (now s) (log s).
Definition set_t (s : st) (h : list hnd) (p e : nat) := mkSt (rq s) (counter s) (run s) (dsus s) (lpc s) (ws s) (sleeps s) (remote s) (owed s) h p e (now s) (log s).
Definition set_d (s : st) (b : bool) := mkSt (rq s) (counter s) (run s) b (lpc s) (ws s) (sleeps s) (remote s) (owed s) (hq s) (pend s) (expiry s) (now s) (log s).
Definition set_n (s : st) (t : nat) := mkSt (rq s) (counter s) (run s) (dsus s) (lpc s) (ws s) (sleeps s) (remote s) (owed s) (hq s) (pend s) (expiry s) t (log s).
Definition emit (s : st) (e : event) := mkSt (rq s) (counter s) (run s) (dsus s) (lpc s) (ws s) (sleeps s) (remote s) (owed s) (hq s) (pend s) (expiry s) (now s) (e :: log s).

(** awakened(), round_robin.hpp:101-108. *)
Definition awakened (s : st) (c : ctx) : st := set_q s (rq s ++ [c]) (match c with Disp => counter s | _ => S (counter s) end) (run s).
(** pick_next() (lines 110-124) and the switch to the context found; None if there is none. *)
Definition switch (s : st) : option st :=
  match rq s with
  | [] => None
  | c :: q => let s1 := set_q s q (match c with Disp => counter s | _ => counter s - 1 end) c in
              Some (match c with Wk i => set_w s1 (upd (ws s1) i WRun) | _ => s1 end)
  end.
(** pick_next()->resume( ctx): the next context runs and puts ctx into the ready queue (context.cpp:205-216). *)
Definition switch_ready (s : st) (c : ctx) : option st := match switch s with Some s' => Some (awakened s' c) | None => None end.
(** scheduler::schedule() (scheduler.cpp:177-192) of a worker: out of the sleep queue, into the ready queue. *)
Definition schedule (s : st) (i : nat) : st := awakened (set_w (set_s s (filter (fun p => negb (snd p =? i)) (sleeps s))) (upd (ws s) i WReady)) (Wk i).
(** sleep_link() into the queue ordered by deadline (context.hpp:349-353). *)
Fixpoint insert (d i : nat) (l : list (nat * nat)) : list (nat * nat) :=
  match l with [] => [(d, i)] | (e, j) :: t => if d <? e then (d, i) :: l else (e, j) :: insert d i t end.
(** remote_ready2ready_(), scheduler.cpp:50-62. *)
Fixpoint drain (s : st) (l : list nat) : st := match l with [] => s | i :: t => drain (schedule s i) t end.
(** sleep2ready_(), scheduler.cpp:66-94. *)
Fixpoint wake_due (s : st) (l : list (nat * nat)) : st := match l with [] => s | (d, i) :: t => if d <=? now s then wake_due (schedule s i) t else s end.
(** expires_at( t), lines 152 and 181: cancels the outstanding waits, whose handlers are called with operation_aborted. *)
Definition expires_at (s : st) (t : nat) : st := set_t s (hq s ++ repeat HTimer (pend s)) 0 t.
(** async_wait(), lines 153 and 178: one more outstanding wait. *)
Definition async_wait (s : st) : st := set_t s (hq s) (S (pend s)) (expiry s).
(** cnd_.notify_one(), line 157: resumes the service fiber if it waits; it then continues with line 82. *)
Definition notify_one (s : st) : st := match lpc s with LWaiting => awakened (set_l s LTop) Svc | _ => s end.
(** suspend_until(), round_robin.hpp:131-158; time_point::max() if no fiber sleeps. *)
Definition suspend_until (s : st) : st :=
  notify_one (match sleeps s with [] => s | (d, _) :: _ => async_wait (expires_at s d) end).
(** notify(), round_robin.hpp:162-182. *)
Definition notify (s : st) : st := let s1 := async_wait s in expires_at s1 (now s1).

(** One round of dispatch(), scheduler.cpp:125-169. *)
Definition dstep (s : st) : option st :=
  match run s with
  | Disp =>
      if dsus s then Some (set_d (emit (suspend_until s) ESuspend) false)
      else
        let s1 := drain (set_r s [] (owed s)) (remote s) in
        let s2 := wake_due s1 (sleeps s1) in
        match rq s2 with [] => Some (set_d s2 true) | _ => switch_ready s2 Disp end
  | _ => None
  end.
(** Where the lambda continues after a handler: line 84 or line 81. *)
Definition after (k : bool) : spc := if k then LPoll else LTop.
(** The lambda (lines 81-96) and the handler of the timer (153-155, 178-180). *)
Definition sstep (s : st) : option st :=
  match run s with
  | Svc =>
      match lpc s with
      | LTop => Some (if 0 <? counter s then set_l (emit s EPoll) LPoll else set_l (emit s ERunOne) LRunOne)
      | LPoll => match hq s with
                 | [] => switch (set_l s LWaiting)
                 | h :: t => Some (set_l (set_t s t (pend s) (expiry s)) (LHnd h true)) end
      | LRunOne => match hq s with
                   | [] => None (* the thread blocks *)
                   | h :: t => Some (set_l (set_t s t (pend s) (expiry s)) (LHnd h false)) end
      | LHnd HTimer k => switch_ready (set_l s (after k)) Svc
      | LHnd HUser _ | LWaiting | LBlocked _ => None
      end
  | _ => None
  end.
(** Waking a worker that is suspended, possibly with a deadline (context.cpp:320-337, scheduler.cpp:177-192). *)
Definition wake (s : st) (j : nat) : option st := match ws s j with WBlocked | WSleep => Some (schedule s j) | _ => None end.
(** The running worker: scheduler.cpp:243-255 (yield), 258-277 (sleep), 305-308 (suspend), 218-240 (terminate), 177-192 (schedule). *)
Definition wstep (s : st) (a : act) : option st :=
  match run s with
  | Wk i =>
      match a with
      | AYield => switch_ready (set_w s (upd (ws s) i WReady)) (Wk i)
      | ASleep d => switch (set_s (set_w s (upd (ws s) i WSleep)) (insert d i (sleeps s)))
      | ABlock => switch (set_w s (upd (ws s) i WBlocked))
      | AExit => switch (set_w s (upd (ws s) i WDead))
      | AWake j => wake s j
      | ASpawn j => match ws s j with WNone => Some (schedule s j) | _ => None end
      end
  | _ => None
  end.
(** Inside a handler of the application, called by poll() or run_one() (lines 84, 92). *)
Definition ustep (s : st) (l : label) : option st :=
  match run s, lpc s with
  | Svc, LHnd HUser k =>
      match l with
      | SWake j => match ws s j with WNone => Some (schedule s j) | _ => wake s j end
      | SYield => switch_ready s Svc
      | SBlock => switch (set_l s (LBlocked k))
      | SEnd => Some (set_l s (after k))
      | _ => None
      end
  | _, _ => None
  end.
(** All steps; environment: handlers arrive, the timer (line 40) expires, other threads call schedule_from_remote() (scheduler.cpp:195-214). *)
Definition step (s : st) (l : label) : option st :=
  match l with
  | W a => wstep s a
  | S_step => sstep s
  | SWake _ | SYield | SBlock | SEnd => ustep s l
  | D_step => dstep s
  | Post => Some (set_t s (hq s ++ [HUser]) (pend s) (expiry s))
  | Expire => match pend s with 0 => None | _ => if expiry s <=? now s then Some (set_t s (hq s ++ repeat HTimer (pend s)) 0 (expiry s)) else None end
  | Tick => Some (set_n s (S (now s)))
  | Push i => match ws s i with WBlocked => Some (set_r (set_w s (upd (ws s) i WRemote)) (remote s ++ [i]) (S (owed s))) | _ => None end
  | Notify => match owed s with 0 => None | S o => Some (set_r (notify s) (remote s) o) end
  | Unblock => match run s, lpc s with Wk _, LBlocked k => Some (awakened (set_l s (LHnd HUser k)) Svc) | _, _ => None end
  end.
