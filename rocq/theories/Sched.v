(** Model: the scheduler of every thread with the round_robin algorithm, the fibers it runs, their handles, launch, join, detach,
    termination, sleep, wake-up from the own and from other threads, and the shutdown of a thread.

    One label is one atomic step of the context that is active on a thread. A step touches data that only this thread uses
    (ready, sleep, worker and terminated queue, everything of the dispatcher), or data under one spinlock, or one atomic. *)
From Coq Require Import List Arith Bool.
From Verif Require Import Base.
Import ListNotations.

Definition tid := nat.   (* an OS thread with its scheduler *)

(** context.hpp / context.cpp:24-53: a context is the main context of a thread, the dispatcher context of a thread or a worker
    (fiber). *)
Inductive ctx := Mn (t : tid) | Dp (t : tid) | Wk (n : nat).

(** Comparison of context pointers, and a map from contexts changed in one place. *)
Definition ctx_eqb (a b : ctx) : bool :=
  match a, b with
  | Mn x, Mn y | Dp x, Dp y | Wk x, Wk y => Nat.eqb x y
  | _, _ => false
  end.

Definition cupd {A : Type} (m : ctx -> A) (i : ctx) (v : A) : ctx -> A :=
  fun j => if ctx_eqb j i then v else m j.

(** What a suspended context does when it is resumed: return to a synchronization object (waker.cpp:20-23, unbuffered_channel.hpp), return from a
    timed wait (scheduler.cpp:299-301), from a sleep (scheduler.cpp:274-276), or go on in fiber::join (context.cpp:239-241). *)
Inductive why := WBlock | WTimed (tp : nat) | WSleep (tp : nat) | WJoin (h : nat) (c : ctx).

(** Where context::wake (context.cpp:299-316) returns to: user code (through notify_one/notify_all), the loop of
    context::terminate (context.cpp:271), or sleep2ready_ (scheduler.cpp:89). *)
Inductive kont := KUser | KTerm | KDisp (nw : nat).

(** Program counter of a context.
    PNone: does not exist yet. PNew: started, function not entered (fiber.cpp:24-41). PIdle: user code.
    PArmed e: has created a waker with epoch e (context.hpp:288-291) and is about to suspend. PSusp: in scheduler::suspend / wait_until.
    PYield: in scheduler::yield (scheduler.cpp:243-255) or the launching fiber in start_ (fiber.cpp:36).
    PPush g: in wake, epoch exchanged, before remote_ready_link (scheduler.cpp:205-211). PNote u: before algo_->notify() (213).
    PJoin, PRel: context::join (context.cpp:229-243) and impl_.reset() (fiber.cpp:55).
    PExit: the function has returned, context::terminate is called (context.hpp:456). PTerm: in its notify loop, splk_ held
    (context.cpp:267-271). PLeave: scheduler.cpp:239. PDead: switched away for ever.
    PShut: ~scheduler (scheduler.cpp:100-108), PShut2: suspended there, PGone: scheduler and main context deleted.
    DTop.. : scheduler::dispatch, see [dstep]. *)
Inductive pc :=
| PNone | PNew | PIdle | PArmed (e : nat) | PSusp (e : nat) (w : why) | PYield
| PPush (g : ctx) (k : kont) | PNote (u : tid) (k : kont)
| PJoin (h : nat) (c : ctx) | PRel (h : nat) (c : ctx)
| PExit | PTerm | PLeave | PDead
| PShut | PShut2 | PGone
| DTop | DRel | DSwap | DDrain | DSleep (nw : nat) | DPick | DRes | DIdle (o : option nat) | DFin | DGone.

(** class context (context.hpp:136-169): waker_epoch_; the epochs handed out to synchronization objects (history, not a member); terminated_;
    splk_; wait_queue_ (the joining fibers); use_count_; scheduler_; and whether it has been destroyed. *)
Record cst := mkC {
  ep : nat;
  iss : list nat;
  pcc : pc;
  term : bool;
  lkd : bool;
  wtq : list (ctx * nat);
  cnt : nat;
  home : tid;
  freed : bool
}.

(** class scheduler (scheduler.hpp:83-101) and round_robin (round_robin.hpp: rqueue_, flag_) of one thread, with
    context_initializer::active_ (context.cpp:72), the local variable tmp of remote_ready2ready_ (scheduler.cpp:51), and whether
    the scheduler has been deleted. Members of slp: deadline tp_, context, epoch of sleep_waker_. *)
Record tst := mkT {
  act : ctx;
  rq : list ctx;
  rrq : list ctx;
  tmp : list ctx;
  slp : list (nat * ctx * nat);
  wkr : list ctx;
  trm : list ctx;
  shut : bool;
  flg : bool;
  gone : bool
}.

(** What ends an execution: pick_next() returned nullptr and is dereferenced (scheduler.cpp:239, 254, 273, 298, 307, 313); access to a context that
    has been destroyed; access to a scheduler that has been deleted; a BOOST_ASSERT fails. *)
Inductive err := ENull | EFreed (c : ctx) | EGone (t : tid) | EAssert.

(** policy.hpp:23-26 launch; the outcome of join() and detach() (fiber.cpp:44-65). *)
Inductive policy := Post | Dispatch.
Inductive jres := JOk | JDeadlock | JInvalid.

(** What is recorded. ELaunch: fiber constructor. EStart/EFin: the function of a fiber begins/has returned.
    EJoin/EJoinRet/EDetach: fiber::join/detach with its result. EMove: a fiber object is moved. EAwake/EPick: awakened() and pick_next() of the algorithm. ERun: a context is resumed.
    ESleep/ESleepRet: sleep_until with the clock at its return. EWait/EWaitRet: timed wait with the result of wait_until.
    ETimer: sleep2ready_ wakes a context whose deadline has passed. EWake: a wake-up that succeeded. EFree: a context is destroyed.
    EDown: the scheduler of a thread is deleted. EShutAssert: BOOST_ASSERT( ! shutdown_) of schedule_from_remote (scheduler.cpp:206) fails. *)
Inductive event :=
| ELaunch (a : ctx) (p : policy) (h : nat) (c : ctx)
| EStart (c : ctx) | EFin (c : ctx) | ELeft (c : ctx)
| EJoin (a : ctx) (h : nat) | EJoinRet (a : ctx) (h : nat) (c : option ctx) (r : jres)
| EDetach (a : ctx) (h : nat) (c : option ctx) (r : jres) | EMove (h1 h2 : nat)
| EAwake (t : tid) (c : ctx) | EPick (t : tid) (c : ctx) | ERun (t : tid) (c : ctx)
| ESleep (c : ctx) (tp : nat) | ESleepRet (c : ctx) (tp now : nat)
| EWait (c : ctx) (tp : nat) | EWaitRet (c : ctx) (tp now : nat) (r : bool)
| ETimer (t : tid) (c : ctx) (tp now : nat)
| EWake (g : ctx) (e : nat)
| EFree (c : ctx) | EDown (t : tid) | EShutAssert (t : tid).

(** Contexts, threads, the fiber objects (impl_ of fiber.hpp:46) and which of them are inside an operation, the steady clock. *)
Record state := mkS {
  cx : ctx -> cst;
  th : tid -> tst;
  hn : nat -> option ctx;
  hb : nat -> bool;
  clk : nat;
  errs : list err;
  log : list event
}.

(** Updates of single members: assignments of the C++ code; the lines are cited where they are used. [adde] ends the execution, [logg] records. *)
Definition set_cx (s : state) (m : ctx -> cst) := mkS m (th s) (hn s) (hb s) (clk s) (errs s) (log s).
Definition set_th (s : state) (m : tid -> tst) := mkS (cx s) m (hn s) (hb s) (clk s) (errs s) (log s).
Definition setc (s : state) (c : ctx) (x : cst) : state := set_cx s (cupd (cx s) c x).
Definition sett (s : state) (t : tid) (x : tst) : state := set_th s (upd (th s) t x).
Definition seth (s : state) (h : nat) (c : option ctx) (b : bool) : state :=
  mkS (cx s) (th s) (upd (hn s) h c) (upd (hb s) h b) (clk s) (errs s) (log s).
Definition adde (s : state) (e : err) : state := mkS (cx s) (th s) (hn s) (hb s) (clk s) (e :: errs s) (log s).
Definition logg (s : state) (e : event) : state := mkS (cx s) (th s) (hn s) (hb s) (clk s) (errs s) (e :: log s).

Definition c_pc (x : cst) (p : pc) := mkC (ep x) (iss x) p (term x) (lkd x) (wtq x) (cnt x) (home x) (freed x).
Definition c_ep (x : cst) (e : nat) := mkC e (iss x) (pcc x) (term x) (lkd x) (wtq x) (cnt x) (home x) (freed x).
Definition c_iss (x : cst) (l : list nat) := mkC (ep x) l (pcc x) (term x) (lkd x) (wtq x) (cnt x) (home x) (freed x).
Definition c_term (x : cst) (b l : bool) := mkC (ep x) (iss x) (pcc x) b l (wtq x) (cnt x) (home x) (freed x).
Definition c_wtq (x : cst) (q : list (ctx * nat)) := mkC (ep x) (iss x) (pcc x) (term x) (lkd x) q (cnt x) (home x) (freed x).
Definition c_cnt (x : cst) (n : nat) (f : bool) := mkC (ep x) (iss x) (pcc x) (term x) (lkd x) (wtq x) n (home x) f.

Definition t_run (x : tst) (a : ctx) (q : list ctx) := mkT a q (rrq x) (tmp x) (slp x) (wkr x) (trm x) (shut x) (flg x) (gone x).
Definition t_rq (x : tst) (q : list ctx) (sl : list (nat * ctx * nat)) := mkT (act x) q (rrq x) (tmp x) sl (wkr x) (trm x) (shut x) (flg x) (gone x).
Definition t_rem (x : tst) (q p : list ctx) := mkT (act x) (rq x) q p (slp x) (wkr x) (trm x) (shut x) (flg x) (gone x).
Definition t_slp (x : tst) (q : list (nat * ctx * nat)) := mkT (act x) (rq x) (rrq x) (tmp x) q (wkr x) (trm x) (shut x) (flg x) (gone x).
Definition t_wk (x : tst) (q p : list ctx) := mkT (act x) (rq x) (rrq x) (tmp x) (slp x) q p (shut x) (flg x) (gone x).
Definition t_fl (x : tst) (sh fl gn : bool) := mkT (act x) (rq x) (rrq x) (tmp x) (slp x) (wkr x) (trm x) sh fl gn.

(** A context goes on at another point of its code. *)
Definition setpc (s : state) (c : ctx) (p : pc) : state := setc s c (c_pc (cx s c) p).

(** The is_linked() tests and unlink() of the intrusive hooks (context.cpp:380-421): membership in and removal from a queue. *)
Definition mem (c : ctx) (l : list ctx) : bool := existsb (ctx_eqb c) l.
Definition smem (c : ctx) (l : list (nat * ctx * nat)) : bool := existsb (fun x => ctx_eqb c (snd (fst x))) l.
Definition remove (c : ctx) (l : list ctx) : list ctx := filter (fun x => negb (ctx_eqb c x)) l.
Definition sremove (c : ctx) (l : list (nat * ctx * nat)) : list (nat * ctx * nat) := filter (fun x => negb (ctx_eqb c (snd (fst x)))) l.

(** scheduler.hpp:42-46, 55-61 the sleep queue is an intrusive::multiset ordered by tp_; insertion goes behind equal keys. *)
Fixpoint sinsert (x : nat * ctx * nat) (l : list (nat * ctx * nat)) : list (nat * ctx * nat) :=
  match l with
  | [] => [x]
  | y :: l' => if Nat.ltb (fst (fst x)) (fst (fst y)) then x :: l else y :: sinsert x l'
  end.

(** BOOST_ASSERT (used throughout scheduler.cpp). *)
Definition check (b : bool) (s : state) : state := if b then s else adde s EAssert.

(** The hooks of a context: is it linked in the ready queue, the remote-ready queue (or tmp) of its scheduler, its terminated queue
    (context.cpp:380-403). *)
Definition ready_linked (s : state) (c : ctx) : bool := mem c (rq (th s (home (cx s c)))).
Definition remote_linked (s : state) (c : ctx) : bool := let x := th s (home (cx s c)) in mem c (rrq x) || mem c (tmp x).
Definition term_linked (s : state) (c : ctx) : bool := mem c (trm (th s (home (cx s c)))).
Definition sleep_linked (s : state) (c : ctx) : bool := smem c (slp (th s (home (cx s c)))).
Definition worker_linked (s : state) (c : ctx) : bool := mem c (wkr (th s (home (cx s c)))).
Definition unlinked (s : state) (c : ctx) : bool :=
  negb (ready_linked s c) && negb (remote_linked s c) && negb (sleep_linked s c) && negb (term_linked s c).

(** scheduler.cpp:177-192 schedule, with round_robin::awakened (round_robin.cpp:20-26). *)
Definition schedule (s : state) (t : tid) (c : ctx) : state :=
  let x := th s t in
  logg (sett (check (negb (ready_linked s c) && negb (remote_linked s c) && negb (term_linked s c)) s)
             t (t_rq x (rq x ++ [c]) (sremove c (slp x)))) (EAwake t c).

(** The active context [a] of thread [t] is switched out, [p] is its new program counter, and the next context is taken from round_robin::pick_next
    (round_robin.cpp:28-40) and resumed: scheduler.cpp:305-314 suspend with context.cpp:178-202 resume.
    With [rdy] (resume(ready_ctx), context.cpp:204-216) the context that was switched out is scheduled. *)
Definition switch (s : state) (t : tid) (a : ctx) (p : pc) (rdy : bool) : state :=
  let x := th s t in
  match rq x with
  | [] => adde s ENull
  | c :: r =>
      let s1 := logg (logg (setpc (sett s t (t_run x c r)) a p) (EPick t c)) (ERun t c) in
      let s2 := if freed (cx s c) then adde s1 (EFreed c) else s1 in
      if rdy then schedule s2 t a else s2
  end.

(** kont to program counter. *)
Definition kpc (k : kont) : pc := match k with KUser => PIdle | KTerm => PTerm | KDisp nw => DSleep nw end.

(** context.cpp:299-316 context::wake of [g] with epoch [e], called by [a], the active context of [t]. *)
Definition do_wake (s : state) (t : tid) (a g : ctx) (e : nat) (k : kont) : state :=
  let y := cx s g in
  if Nat.eqb (ep y) e then
    let s1 := logg (setc (check (negb (ctx_eqb a g)) s) g (c_ep y (S e))) (EWake g e) in
    if Nat.eqb (home y) t then setpc (schedule s1 t g) a (kpc k)
    else setpc s1 a (PPush g k)
  else setpc s a (kpc k).

(** context.hpp:379-389 intrusive_ptr_release, with ~context (context.cpp:159-170). *)
Definition release (s : state) (c : ctx) : state :=
  let x := cx s c in
  if freed x then adde s (EFreed c)
  else match cnt x with
       | 0 => adde s (EFreed c)
       | 1 => logg (check (unlinked s c && match wtq x with [] => true | _ => false end) (setc s c (c_cnt x 0 true))) (EFree c)
       | S n => setc s c (c_cnt x n false)
       end.

(** Operations that user code can start.
    OLaunch: the fiber constructor (fiber.hpp:161-172). OArm: a synchronization object creates a waker for the active fiber and publishes it.
    OWait: timed wait of a synchronization object (waker.cpp:25-32), the lock of the object is held until the fiber is switched out.
    OWake: a synchronization object uses a waker (waker.cpp:49-67). OExit: the function of the fiber returns. OShut: the
    thread ends (context.cpp:109-116). *)
Inductive op :=
| OLaunch (p : policy) (n h : nat) | OYield | OArm | OWait (tp : nat) | OSleep (tp : nat)
| OWake (g : ctx) (e : nat) | OJoin (h : nat) | ODetach (h : nat) | OMove (h1 h2 : nat) | OExit | OShut.

(** context.hpp:464 use_count_ 1 and the reference of the fiber object (context.hpp:505); attach_worker_context (scheduler.cpp:360-373). *)
Definition new_worker (t : tid) : cst := mkC 0 [] PNew false false [] 2 t false.

(** Start of an operation by [a], the active context of [t] ([pcc] is PIdle). *)
Definition start (s : state) (t : tid) (a : ctx) (o : op) : option state :=
  let x := cx s a in
  let y := th s t in
  match o with
  | OLaunch p n h =>   (* fiber.cpp:24-41 start_ *)
      match pcc (cx s (Wk n)), hn s h, hb s h with
      | PNone, None, false =>
          let c := Wk n in
          let s1 := logg (seth (sett (setc s c (new_worker t)) t (t_wk y (wkr y ++ [c]) (trm y))) h (Some c) false) (ELaunch a p h c) in
          Some match p with
               | Post => schedule s1 t c
               | Dispatch => schedule (logg (setpc (sett s1 t (t_run (th s1 t) c (rq (th s1 t)))) a PYield) (ERun t c)) t a
               end
      | _, _, _ => None
      end
  | OYield => Some (switch (check (unlinked s a) s) t a PYield true)
  | OArm => Some (setc s a (c_pc (c_iss (c_ep x (S (ep x))) (S (ep x) :: iss x)) (PArmed (S (ep x)))))
  | OWait tp =>   (* scheduler.cpp:280-298 *)
      let e := S (ep x) in
      let s1 := logg (setc (check (unlinked s a) s) a (c_iss (c_ep x e) (e :: iss x))) (EWait a tp) in
      Some (switch (sett s1 t (t_slp y (sinsert (tp, a, e) (slp y)))) t a (PSusp e (WTimed tp)) false)
  | OSleep tp =>   (* scheduler.cpp:258-273 *)
      let e := S (ep x) in
      let s1 := logg (setc (check (unlinked s a) s) a (c_ep x e)) (ESleep a tp) in
      Some (switch (sett s1 t (t_slp y (sinsert (tp, a, e) (slp y)))) t a (PSusp e (WSleep tp)) false)
  | OWake g e =>
      if existsb (Nat.eqb e) (iss (cx s g)) && negb (freed (cx s g)) then Some (do_wake s t a g e KUser) else None
  | OJoin h =>   (* fiber.cpp:44-54 *)
      if hb s h then None
      else let s1 := logg s (EJoin a h) in
           Some match hn s h with
                | None => logg s1 (EJoinRet a h None JInvalid)
                | Some c => if ctx_eqb c a then logg s1 (EJoinRet a h (Some c) JDeadlock)
                            else setpc (seth s1 h (Some c) true) a (PJoin h c)
                end
  | ODetach h =>   (* fiber.cpp:59-65 *)
      if hb s h then None
      else Some match hn s h with
                | None => logg s (EDetach a h None JInvalid)
                | Some c => release (seth (logg s (EDetach a h (Some c) JOk)) h None false) c
                end
  | OMove h1 h2 =>   (* fiber.hpp:183-201: moving to an empty fiber object is a swap *)
      if hb s h1 || hb s h2 || Nat.eqb h1 h2 then None
      else match hn s h2 with
           | None => Some (logg (seth (seth s h2 (hn s h1) false) h1 None false) (EMove h1 h2))
           | Some _ => None
           end
  | OExit => match a with Wk _ => Some (logg (setpc s a PExit) (EFin a)) | _ => None end
  | OShut => match a with Mn _ => Some (setpc (sett s t (t_fl y true (flg y) (gone y))) a PShut) | _ => None end
  end.

(** scheduler.cpp:25-46 one round of release_terminated_. *)
Definition release_front (s : state) (t : tid) (c : ctx) (r : list ctx) : state :=
  let y := th s t in
  let x := cx s c in
  let s1 := sett s t (t_wk y (wkr y) r) in
  release (check (negb (worker_linked s1 c) && unlinked s1 c && term x && match wtq x with [] => true | _ => false end) s1) c.

(** scheduler.cpp:123-174 dispatch, executed by the dispatcher context of [t]. DTop: 126-132; DRel: 134; DSwap: 51-54; DDrain: 56-61; DSleep: 66-94,
    with [nw] the time read at 70; DPick: 143-155 (DRes: waiting to be resumed at 154) and 159-167; DIdle: in round_robin::suspend_until
    (round_robin.cpp:47-58); DFin: 171-173. *)
Definition dstep (s : state) (t : tid) : option state :=
  let a := Dp t in
  let y := th s t in
  match pcc (cx s a) with
  | DRes => Some (setpc s a DTop)
  | DTop =>
      if shut y then
        let s1 := sett s t (t_fl y (shut y) true (gone y)) in
        Some (setpc s1 a (match wkr y with [] => DFin | _ => DRel end))
      else Some (setpc s a DRel)
  | DRel => match trm y with [] => Some (setpc s a DSwap) | c :: r => Some (release_front s t c r) end
  | DSwap => Some (setpc (sett s t (t_rem y [] (rrq y))) a DDrain)
  | DDrain => match tmp y with
              | [] => Some (setpc s a (DSleep (clk s)))
              | c :: r => Some (schedule (sett s t (t_rem y (rrq y) r)) t c)
              end
  | DSleep nw =>
      match slp y with
      | (tp, c, e) :: r =>
          if Nat.leb tp nw then Some (do_wake (logg (sett s t (t_slp y r)) (ETimer t c tp nw)) t a c e (KDisp nw))
          else Some (setpc s a DPick)
      | [] => Some (setpc s a DPick)
      end
  | DPick =>
      match rq y with
      | [] => Some (setpc s a (DIdle (match slp y with [] => None | (tp, _, _) :: _ => Some tp end)))
      | _ :: _ => Some (switch s t a DRes true)
      end
  | DIdle o =>
      if flg y || match o with Some tp => Nat.leb tp (clk s) | None => false end
      then Some (setpc (sett s t (t_fl y (shut y) false (gone y))) a DTop) else None
  | DFin =>
      match trm y with
      | c :: r => Some (release_front s t c r)
      | [] => Some (logg (setpc (sett s t (t_run y (Mn t) (rq y))) a DGone) (ERun t (Mn t)))
      end
  | _ => None
  end.

(** The next step of [a], the active context of [t]. *)
Definition run (s : state) (t : tid) (a : ctx) : option state :=
  let x := cx s a in
  let y := th s t in
  match pcc x with
  | PNew => Some (logg (setpc s a PIdle) (EStart a))
  | PYield => Some (setpc s a PIdle)
  | PArmed e => Some (switch s t a (PSusp e WBlock) false)
  | PSusp e WBlock => Some (setpc s a PIdle)
  | PSusp e (WTimed tp) => Some (logg (setpc s a PIdle) (EWaitRet a tp (clk s) (Nat.ltb (clk s) tp)))
  | PSusp e (WSleep tp) => Some (logg (setpc s a PIdle) (ESleepRet a tp (clk s)))
  | PSusp e (WJoin h c) =>   (* waker.cpp:22 BOOST_ASSERT( ! w.is_linked() ) *)
      Some (setpc (check (negb (existsb (fun w => ctx_eqb (fst w) a && Nat.eqb (snd w) e) (wtq (cx s c)))) s) a (PRel h c))
  | PPush g k =>   (* scheduler.cpp:196-211 *)
      let u := home (cx s g) in
      let z := th s u in
      if gone z then Some (adde s (EGone u))
      else let s1 := check (negb (ready_linked s g) && negb (remote_linked s g) && negb (term_linked s g)
                            && match g with Dp _ => false | _ => true end) s in
           let s2 := if shut z then logg s1 (EShutAssert u) else s1 in
           Some (setpc (sett s2 u (t_rem z (rrq z ++ [g]) (tmp z))) a (PNote u k))
  | PNote u k =>   (* scheduler.cpp:213; round_robin.cpp:60-66 *)
      let z := th s u in
      if gone z then Some (adde s (EGone u))
      else Some (setpc (sett s u (t_fl z (shut z) true (gone z))) a (kpc k))
  | PJoin h c =>   (* context.cpp:229-243 *)
      let z := cx s c in
      if freed z then Some (adde s (EFreed c))
      else if lkd z then None
      else if term z then Some (setpc s a (PRel h c))
      else let e := S (ep x) in
           let s1 := setc s c (c_wtq z (wtq z ++ [(a, e)])) in
           let s2 := setc s1 a (c_ep (cx s1 a) e) in
           Some (switch s2 t a (PSusp e (WJoin h c)) false)
  | PRel h c => Some (release (logg (setpc (seth s h None false) a PIdle) (EJoinRet a h (Some c) JOk)) c)   (* fiber.cpp:55 *)
  | PExit => if lkd x then None else Some (setc s a (c_pc (c_term x true true) PTerm))
  | PTerm =>
      match wtq x with
      | (g, e) :: q =>   (* waker.cpp:60-67 *)
          let s1 := setc s a (c_wtq x q) in
          if freed (cx s g) then Some (adde s1 (EFreed g)) else Some (do_wake s1 t a g e KTerm)
      | [] =>   (* scheduler.cpp:218-237 *)
          let s1 := check (unlinked s a && worker_linked s a) s in
          Some (logg (setc (sett s1 t (t_wk y (remove a (wkr y)) (trm y ++ [a]))) a (c_pc (c_term x true false) PLeave)) (ELeft a))
      end
  | PLeave => Some (switch s t a PDead false)
  | PShut => Some (switch s t a PShut2 false)
  | PShut2 =>   (* scheduler.cpp:109-119, context.cpp:115 *)
      let d := Dp t in
      let s1 := check (match wkr y, trm y, slp y with [], [], [] => negb (ready_linked s d) | _, _, _ => false end) s in
      let s2 := release (sett s1 t (t_fl y (shut y) (flg y) true)) d in
      Some (logg (setc s2 a (c_cnt (c_pc (cx s2 a) PGone) 0 true)) (EDown t))
  | _ => if ctx_eqb a (Dp t) then dstep s t else None
  end.

(** The environment chooses: a thread starts an operation, a thread takes its next step, the clock advances. *)
Inductive label := LOp (t : tid) (o : op) | LRun (t : tid) | LTick (d : nat).

(** An execution ends at the first error. *)
Definition step (s : state) (l : label) : option state :=
  match errs s with
  | _ :: _ => None
  | [] =>
    match l with
    | LTick d => Some (mkS (cx s) (th s) (hn s) (hb s) (clk s + S d) (errs s) (log s))
    | LOp t o => let a := act (th s t) in match pcc (cx s a) with PIdle => start s t a o | _ => None end
    | LRun t => run s t (act (th s t))
    end
  end.

(** Every thread has called context_initializer::initialize (context.cpp:95-107): main context active (use_count_ 1), dispatcher context (use_count_ 1:
    0 at construction and the intrusive_ptr) in the ready queue, not yet entered: modelled as at the top of its loop when resumed. *)
Definition init : state := mkS
  (fun c => match c with
            | Mn t => mkC 0 [] PIdle false false [] 1 t false
            | Dp t => mkC 0 [] DRes false false [] 1 t false
            | Wk _ => mkC 0 [] PNone false false [] 0 0 false
            end)
  (fun t => mkT (Mn t) [Dp t] [] [] [] [] [] false false false)
  (fun _ => None) (fun _ => false) 0 [] [].
