(** Model: the handover of a fiber from thread to thread under the C++ memory model: fibers are created, yield, sleep, wait in a wait queue with or without deadline, are woken from their own or another thread, migrate with shared_work or work_stealing, end and are joined (src/context.cpp:177-316, src/scheduler.cpp:50-94, 177-315, 360-393, src/waker.cpp:17-67, src/fiber.cpp start_(), src/algo/shared_work.cpp:22-66, src/algo/work_stealing.cpp:50-90).
    Actions are numbered; [tv T] are the actions that happen before the next action of thread T. A mutex or spinlock carries the view of its last holder (C71). Members of a context are plain memory: an access that is not ordered after all earlier accesses to the same members is a data race ([ERace]).
    Simplified: ready queues are sets (any ready fiber may be picked). waker_epoch_ does not carry views, algo_->notify() and suspend_until() are left out (less happens-before than in the code). Shutdown, reference counts and fiber-local storage are not modelled here (Sched.v, RefCount.v, JoinFss.v). Assertions, and accesses to the hooks of neighbours in an intrusive list, are left out. *)
From Coq Require Import List Arith Bool.
From Verif Require Import Base MutexHb.
Import ListNotations.

(** Contexts (context.hpp): dispatcher and main context of a thread, worker contexts. *)
Inductive ctx := Dis (t : nat) | Main (t : nat) | Wk (n : nat).
(** Objects with a spinlock and a wait queue: splk_ and wait_queue_ of a context (context.hpp:146-148); those of mutexes, condition variables and channels. *)
Inductive obj := OJ (c : ctx) | OU (n : nat).
Definition ctx_dec (c d : ctx) : {c = d} + {c <> d}. Proof. decide equality; apply Nat.eq_dec. Defined.
Definition obj_dec (o p : obj) : {o = p} + {o <> p}. Proof. decide equality; [apply ctx_dec | apply Nat.eq_dec]. Defined.
(** Model only: update of maps. *)
Definition cupd {A} (m : ctx -> A) (c : ctx) (v : A) : ctx -> A := fun d => if ctx_dec d c then v else m d.
Definition oupd {A} (m : obj -> A) (o : obj) (v : A) : obj -> A := fun p => if obj_dec p o then v else m p.
(** Where a context is: not created; running; in the queue of thread T for pinned contexts or of a scheduler without migration (lqueue_); in a queue other threads can take it from (rqueue_); in remote_ready_queue_ of T; about to be scheduled by T (in tmp, scheduler.cpp:51, or switched away from); being woken by T (in wake(), context.cpp:302-313); suspended; terminated. *)
Inductive pl := No | Run (t : nat) | Loc (t : nat) | Que | Rem (t : nat) | Tmp (t : nat) | Hand (t : nat) | Wait | Dead.
(** Why a context is switched away from: suspend( lk) with the spinlock of o, yield() or dispatch(), wait_until() without lock, terminate(). *)
Inductive why := KLock (o : obj) | KYield | KSleep | KTerm.
(** The thread runs its context; it holds the spinlock of o in order to notify (b: in terminate()); in algo_->pick_next(); after the switch, in the function passed to resume_with() (context.cpp:184-187, 197-201, 211-215, 258-261). *)
Inductive tpc := PRun | PNote (o : obj) (b : bool) | PSw (k : why) | PAft (k : why) (prev : ctx).
(** What a context does when it is resumed: return from join(), return from suspend_and_wait_until(). *)
Inductive pend_t := PNone | PJoin (g : ctx) | PTimed (o : obj).
(** Newest first. w: the actions that happen before the event or are the event. [EAct c n w]: action n of c; [ECreate c g w]: c creates g; [EEnd c w]: terminate(); [EWake c d w]: c wakes d; [EJoined c g w]: join() of c for g returns; [ERace]: data race; [EBad]: scheduler_ is nullptr in wake(). *)
Inductive event := EAct (c : ctx) (n : nat) (w : list nat) | ECreate (c g : ctx) (w : list nat) | EEnd (c : ctx) (w : list nat) | EWake (c d : ctx) (w : list nat) | EJoined (c g : ctx) (w : list nat) | ERace (t : nat) (c : ctx) | EBad (c : ctx).
(** [tv]: views of the threads; [act]: active_; [place]; [sched]: scheduler_; [sleepq]: the thread in whose sleep_queue_ the context is; [swk]: epoch_ of sleep_waker_; [ep]: waker_epoch_; [term]: terminated_; [pend]; [accA]: accesses to c_, scheduler_, ready_hook_, remote_ready_hook_, worker_hook_, terminated_hook_; [accB]: accesses to sleep_hook_, sleep_waker_, tp_; [seen] (model only, not used by the steps): the view at the last event or access of the first kind; [wq], [slk], [sv]: wait queue, holder and view of the spinlock of an object; [rv]: view of remote_ready_splk_; [qv]: view of the thread that has put the context into a shared queue. *)
Record st := mkS { tv : nat -> list nat; act : nat -> ctx; pcs : nat -> tpc; place : ctx -> pl; sched : ctx -> option nat; sleepq : ctx -> option nat; swk : ctx -> nat; ep : ctx -> nat; term : ctx -> bool; pend : ctx -> pend_t; accA : ctx -> list nat; accB : ctx -> list nat; seen : ctx -> list nat; wq : obj -> list (ctx * nat); slk : obj -> option nat; sv : obj -> list nat; rv : nat -> list nat; qv : ctx -> list nat; next : nat; log : list event }.
(** [LAct t]: an action of the active fiber of t; [LCreate t g d]: it creates g (d: launch::dispatch); [LYield t]; [LSleep t]; [LJoin t g]; [LWait t o b]: suspend_and_wait() or (b) suspend_and_wait_until(); [LRet t b]: the resumed fiber returns (b: after a timeout); [LLock t o]: a fiber locks o in order to notify; [LTerm t]; [LPop t]: notification of the first fiber of the queue; [LUnlock t]; [LPick t c]: pick_next() returns c; [LAft t]: the function of resume_with(); the dispatcher: [LSwap t]: scheduler.cpp:52-54, [LDrain t c]: scheduler.cpp:56-61, [LTimer t c]: scheduler.cpp:84-88. *)
Inductive label := LAct (t : nat) | LCreate (t : nat) (g : ctx) (d : bool) | LYield (t : nat) | LSleep (t : nat) | LJoin (t : nat) (g : ctx) | LWait (t n : nat) (b : bool) | LRet (t : nat) (b : bool) | LLock (t n : nat) | LTerm (t : nat) | LPop (t : nat) | LUnlock (t : nat) | LPick (t : nat) (c : ctx) | LAft (t : nat) | LSwap (t : nat) | LDrain (t : nat) (c : ctx) | LTimer (t : nat) (c : ctx).
(** Every thread runs its main context; the dispatcher context is ready (scheduler.cpp:331-358). *)
Definition init_state : st := mkS (fun _ => []) (fun t => Main t) (fun _ => PRun) (fun c => match c with Dis t => Loc t | Main t => Run t | Wk _ => No end) (fun c => match c with Dis t | Main t => Some t | Wk _ => None end)
  (fun _ => None) (fun _ => 0) (fun _ => 0) (fun _ => false) (fun _ => PNone) (fun _ => []) (fun _ => []) (fun _ => []) (fun _ => []) (fun _ => None) (fun _ => []) (fun _ => []) (fun _ => []) 0 [].

(** Model only: assignments to single members of the state. *)
Definition set_tv s t v := mkS (upd (tv s) t v) (act s) (pcs s) (place s) (sched s) (sleepq s) (swk s) (ep s) (term s) (pend s) (accA s) (accB s) (seen s) (wq s) (slk s) (sv s) (rv s) (qv s) (next s) (log s).
Definition set_act s t v := mkS (tv s) (upd (act s) t v) (pcs s) (place s) (sched s) (sleepq s) (swk s) (ep s) (term s) (pend s) (accA s) (accB s) (seen s) (wq s) (slk s) (sv s) (rv s) (qv s) (next s) (log s).
Definition set_pc s t v := mkS (tv s) (act s) (upd (pcs s) t v) (place s) (sched s) (sleepq s) (swk s) (ep s) (term s) (pend s) (accA s) (accB s) (seen s) (wq s) (slk s) (sv s) (rv s) (qv s) (next s) (log s).
Definition set_place s c v := mkS (tv s) (act s) (pcs s) (cupd (place s) c v) (sched s) (sleepq s) (swk s) (ep s) (term s) (pend s) (accA s) (accB s) (seen s) (wq s) (slk s) (sv s) (rv s) (qv s) (next s) (log s).
Definition set_sched s c v := mkS (tv s) (act s) (pcs s) (place s) (cupd (sched s) c v) (sleepq s) (swk s) (ep s) (term s) (pend s) (accA s) (accB s) (seen s) (wq s) (slk s) (sv s) (rv s) (qv s) (next s) (log s).
Definition set_sleep s c v e := mkS (tv s) (act s) (pcs s) (place s) (sched s) (cupd (sleepq s) c v) (cupd (swk s) c e) (ep s) (term s) (pend s) (accA s) (accB s) (seen s) (wq s) (slk s) (sv s) (rv s) (qv s) (next s) (log s).
Definition set_ep s c v := mkS (tv s) (act s) (pcs s) (place s) (sched s) (sleepq s) (swk s) (cupd (ep s) c v) (term s) (pend s) (accA s) (accB s) (seen s) (wq s) (slk s) (sv s) (rv s) (qv s) (next s) (log s).
Definition set_term s c := mkS (tv s) (act s) (pcs s) (place s) (sched s) (sleepq s) (swk s) (ep s) (cupd (term s) c true) (pend s) (accA s) (accB s) (seen s) (wq s) (slk s) (sv s) (rv s) (qv s) (next s) (log s).
Definition set_pend s c v := mkS (tv s) (act s) (pcs s) (place s) (sched s) (sleepq s) (swk s) (ep s) (term s) (cupd (pend s) c v) (accA s) (accB s) (seen s) (wq s) (slk s) (sv s) (rv s) (qv s) (next s) (log s).
Definition set_wq s o v := mkS (tv s) (act s) (pcs s) (place s) (sched s) (sleepq s) (swk s) (ep s) (term s) (pend s) (accA s) (accB s) (seen s) (oupd (wq s) o v) (slk s) (sv s) (rv s) (qv s) (next s) (log s).
Definition set_slk s o v w := mkS (tv s) (act s) (pcs s) (place s) (sched s) (sleepq s) (swk s) (ep s) (term s) (pend s) (accA s) (accB s) (seen s) (wq s) (oupd (slk s) o v) (oupd (sv s) o w) (rv s) (qv s) (next s) (log s).
Definition set_rv s t v := mkS (tv s) (act s) (pcs s) (place s) (sched s) (sleepq s) (swk s) (ep s) (term s) (pend s) (accA s) (accB s) (seen s) (wq s) (slk s) (sv s) (upd (rv s) t v) (qv s) (next s) (log s).
Definition set_qv s c v := mkS (tv s) (act s) (pcs s) (place s) (sched s) (sleepq s) (swk s) (ep s) (term s) (pend s) (accA s) (accB s) (seen s) (wq s) (slk s) (sv s) (rv s) (cupd (qv s) c v) (next s) (log s).
Definition add_log s e := mkS (tv s) (act s) (pcs s) (place s) (sched s) (sleepq s) (swk s) (ep s) (term s) (pend s) (accA s) (accB s) (seen s) (wq s) (slk s) (sv s) (rv s) (qv s) (next s) (e :: log s).
(** Model only: an event e of the active context of thread t and of c. *)
Definition emit s t c e := mkS (tv s) (act s) (pcs s) (place s) (sched s) (sleepq s) (swk s) (ep s) (term s) (pend s) (accA s) (accB s) (cupd (cupd (seen s) c (tv s t)) (act s t) (tv s t)) (wq s) (slk s) (sv s) (rv s) (qv s) (next s) (e :: log s).
(** Model only: thread t accesses members of c of the first or the second kind. *)
Definition touchA s t c := if ordered (accA s c) (tv s t)
  then mkS (upd (tv s) t (next s :: tv s t)) (act s) (pcs s) (place s) (sched s) (sleepq s) (swk s) (ep s) (term s) (pend s) (cupd (accA s) c (next s :: accA s c)) (accB s) (cupd (seen s) c (next s :: tv s t)) (wq s) (slk s) (sv s) (rv s) (qv s) (S (next s)) (log s)
  else add_log s (ERace t c).
Definition touchB s t c := if ordered (accB s c) (tv s t)
  then mkS (upd (tv s) t (next s :: tv s t)) (act s) (pcs s) (place s) (sched s) (sleepq s) (swk s) (ep s) (term s) (pend s) (accA s) (cupd (accB s) c (next s :: accB s c)) (seen s) (wq s) (slk s) (sv s) (rv s) (qv s) (S (next s)) (log s)
  else add_log s (ERace t c).
(** Model only: an action of c in thread t. *)
Definition action s t c := let w := next s :: tv s t in
  mkS (upd (tv s) t w) (act s) (pcs s) (place s) (sched s) (sleepq s) (swk s) (ep s) (term s) (pend s) (accA s) (accB s) (cupd (seen s) c w) (wq s) (slk s) (sv s) (rv s) (qv s) (S (next s)) (EAct c (next s) w :: log s).
(** Model only: thread t locks or unlocks the spinlock of o. *)
Definition lock s t o := set_slk (set_tv s t (sv s o ++ tv s t)) o (Some t) (sv s o).
Definition unlock s t o := set_slk s o None (tv s t).

(** awakened(): pinned contexts, and all contexts with algorithms that do not migrate, are put into a queue of the thread; other contexts are detached (scheduler.cpp:376-393) and put into a queue from which any thread may take them (shared_work.cpp:22-36, work_stealing.cpp:50-55); only the thread that takes a context out synchronizes with the one that has put it in (rqueue_mtx_; for work_stealing this is C98, SpmcWeak.v, with the exceptions found there). *)
Definition pinned (pin : nat -> bool) (c : ctx) : bool := match c with Wk n => pin n | _ => true end.
Definition awakened pin s t c :=
  if pinned pin c then set_place s c (Loc t)
  else set_place (set_sched (set_qv s c (tv s t)) c None) c Que.
(** schedule() in the thread of the scheduler (scheduler.cpp:177-193). *)
Definition schedule pin s t c :=
  let s := touchA s t c in
  awakened pin (match sleepq s c with Some _ => set_sleep (touchB s t c) c None (swk s c) | None => s end) t c.
(** wake() in thread t (context.cpp:299-316), schedule_from_remote() (scheduler.cpp:196-213). *)
Definition wake pin s t c e :=
  if ep s c =? e then
    match sched s c with
    | Some u => let s := touchA (set_place (set_ep s c (S e)) c (Hand t)) t c in
        let s := emit s t c (EWake (act s t) c (tv s t)) in
        if u =? t then schedule pin s t c
        else let w := rv s u ++ tv s t in set_place (set_rv (set_tv s t w) u w) c (Rem u)
    | None => add_log s (EBad c) end
  else s.
(** create_waker() (context.hpp:288-291) and push_back() (waker.cpp:18-19, 29-30). *)
Definition enqueue s c o := let e := S (ep s c) in set_wq (set_ep (set_place s c Wait) c e) o (wq s o ++ [(c, e)]).
(** sleep_waker_, tp_ and sleep_link() (scheduler.cpp:269-271, 294-296). *)
Definition to_sleep s t c := set_sleep (touchB s t c) c (Some t) (ep s c).
(** Model only: the thread runs a fiber that is not in the middle of join() or of a wait. *)
Definition free (s : st) (t : nat) : bool := match pcs s t, act s t with PRun, Dis _ => false | PRun, c => match pend s c with PNone => true | _ => false end | _, _ => false end.
Definition dispatching (s : st) (t : nat) : bool := match pcs s t, act s t with PRun, Dis _ => true | _, _ => false end.
Definition is_wk (c : ctx) : bool := match c with Wk _ => true | _ => false end.
(** suspend_and_wait_until() after a timeout (waker.cpp:33-44). *)
Definition unlink s t c o := let s := lock s t o in unlock (set_wq s o (filter (fun p => if ctx_dec (fst p) c then false else true) (wq s o))) t o.
(** terminated_link(), worker_unlink(), lk.unlock() (scheduler.cpp:232-238). *)
Definition finish s t c := set_pc (set_place (unlock (touchA s t c) t (OJ c)) c Dead) t (PSw KTerm).
(** resume() of c (context.cpp:178-216) in thread t for reason k; line 182: active_. *)
Definition resume s t c k := let p := act s t in
  let s := set_act (set_place (touchA s t c) c (Run t)) t c in
  set_pc (match k with KYield => set_place s p (Tmp t) | _ => s end) t (PAft k p).
(** pick_next() with attach() (shared_work.cpp:40-66, work_stealing.cpp:58-90; scheduler.cpp:360-374). *)
Definition pick s t c : option st := match place s c with
  | Loc u => if u =? t then Some s else None
  | Que => Some (touchA (set_place (set_sched (set_tv s t (qv s c ++ tv s t)) c (Some t)) c (Tmp t)) t c)
  | _ => None end.
(** One step. *)
Definition step (pin : nat -> bool) (s : st) (l : label) : option st :=
  match l with
  | LAct t => if free s t then Some (action s t (act s t)) else None
  | LCreate t g d => if free s t && is_wk g then
      match place s g with
      | No => let s := touchA (set_place (set_sched s g (Some t)) g (Tmp t)) t g in
          let s := emit s t g (ECreate (act s t) g (tv s t)) in
          Some (if d then resume s t g KYield else schedule pin s t g)
      | _ => None end else None
  | LYield t => match pcs s t with PRun => Some (set_pc s t (PSw KYield)) | _ => None end
  | LSleep t => if free s t then let c := act s t in
      Some (set_pc (to_sleep (set_ep (set_place s c Wait) c (S (ep s c))) t c) t (PSw KSleep)) else None
  | LJoin t g => if free s t && is_wk g then
      match place s g, slk s (OJ g) with
      | No, _ => None
      | _, None => let c := act s t in
          if ctx_dec c g then None
          else let s := lock s t (OJ g) in
            if term s g then Some (emit (unlock s t (OJ g)) t c (EJoined c g (tv s t)))
            else Some (set_pc (set_pend (enqueue s c (OJ g)) c (PJoin g)) t (PSw (KLock (OJ g))))
      | _, _ => None end else None
  | LWait t n b => if free s t then
      match slk s (OU n) with
      | None => let c := act s t in
          let s := enqueue (lock s t (OU n)) c (OU n) in
          let s := if b then set_pend (to_sleep s t c) c (PTimed (OU n)) else s in
          Some (set_pc s t (PSw (KLock (OU n))))
      | _ => None end else None
  | LRet t b => let c := act s t in
      match pcs s t, pend s c with
      | PRun, PJoin g => Some (set_pend (emit s t c (EJoined c g (tv s t))) c PNone)
      | PRun, PTimed o => if b then match slk s o with None => Some (set_pend (unlink s t c o) c PNone) | _ => None end else Some (set_pend s c PNone)
      | _, _ => None end
  | LLock t n => if free s t then match slk s (OU n) with None => Some (set_pc (lock s t (OU n)) t (PNote (OU n) false)) | _ => None end else None
  | LTerm t => let c := act s t in
      if free s t && is_wk c then match slk s (OJ c) with
        | None => let s := lock s t (OJ c) in Some (set_pc (set_term (emit s t c (EEnd c (tv s t))) c) t (PNote (OJ c) true))
        | _ => None end else None
  | LPop t => match pcs s t with
      | PNote o _ => match wq s o with (c, e) :: q => Some (wake pin (set_wq s o q) t c e) | [] => None end
      | _ => None end
  | LUnlock t => match pcs s t with
      | PNote o true => match wq s o with [] => Some (finish s t (act s t)) | _ => None end
      | PNote o false => Some (set_pc (unlock s t o) t PRun)
      | _ => None end
  | LPick t c => match pcs s t with PSw k => option_map (fun s => resume s t c k) (pick s t c) | _ => None end
  | LAft t => match pcs s t with
      | PAft k p => let s := set_pc (touchA s t p) t PRun in
          Some (match k with KLock o => unlock s t o | KYield => schedule pin s t p | _ => s end)
      | _ => None end
  | LSwap t => if dispatching s t then
      let w := rv s t ++ tv s t in let s := set_rv (set_tv s t w) t w in
      Some (mkS (tv s) (act s) (pcs s) (fun c => match place s c with Rem u => if u =? t then Tmp t else Rem u | p => p end) (sched s) (sleepq s) (swk s) (ep s) (term s) (pend s) (accA s) (accB s) (seen s) (wq s) (slk s) (sv s) (rv s) (qv s) (next s) (log s))
      else None
  | LDrain t c => if dispatching s t then match place s c with Tmp u => if u =? t then Some (schedule pin s t c) else None | _ => None end else None
  | LTimer t c => if dispatching s t then match sleepq s c with
      | Some u => if u =? t then Some (wake pin (set_sleep (touchB s t c) c None (swk s c)) t c (swk s c)) else None
      | None => None end else None
  end.
