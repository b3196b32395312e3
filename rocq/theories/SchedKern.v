(** The scheduler (Sched.v) and what the models of the synchronization objects assume about it (Kernel.v): actions of the latter, and the translation
    of the steps of the former into them. No new code is modelled here; the lines cited are those of the step that is translated. *)
From Coq Require Import List Arith Bool.
From Verif Require Import Base Sched SchedSpec.
From Verif Require Kernel.
Import ListNotations.

(** The number of a fiber (type.hpp:42-49): main contexts and workers are the fibers of Kernel.v; there is no fiber for a dispatcher (there: no fiber runs on the thread). *)
Definition code (c : ctx) : Kernel.fid := match c with Mn t => 2 * t | Wk n => S (2 * n) | Dp _ => 0 end.

(** What a running fiber can do in Kernel.v (context.hpp:288-291 create_waker, scheduler.cpp:305-314 suspend, scheduler.cpp:243-255 yield, scheduler.cpp:258-302
    wait_until with a new waker, context.cpp:299-316 wake), and what the environment does (picks a fiber, fires a timer, advances the clock). *)
Inductive kact :=
| AArm (f : Kernel.fid) | ASusp (f : Kernel.fid) | AYield (f : Kernel.fid) | AWait (f : Kernel.fid) (tp : nat)
| AWake (f g : Kernel.fid) (e : nat)
| ASys (l : Kernel.klabel).

(** Its effect; a fiber acts only while it runs. *)
Definition kdo (k : Kernel.kern) (x : kact) : option Kernel.kern :=
  let on f k' := if Kernel.running (Kernel.fib k f) then Some k' else None in
  match x with
  | AArm f => on f (fst (Kernel.create_waker k f))
  | ASusp f => on f (Kernel.suspend k f)
  | AYield f => on f (Kernel.yield k f)
  | AWait f tp => on f (let (k1, e) := Kernel.create_waker k f in Kernel.wait_until_begin k1 f tp e)
  | AWake f g e => on f (fst (Kernel.wake k (g, e)))
  | ASys l => Kernel.kstep k l
  end.

(** pick_next() of thread [t] takes the first of the ready queue (round_robin.cpp:28-40); the dispatcher is not a fiber. *)
Definition next (s : state) (t : tid) : list kact :=
  match rq (th s t) with
  | (Mn _ | Wk _) as c :: _ => [ASys (Kernel.Pick (code c) t)]
  | _ => []
  end.

(** Every operation and step of the scheduler (Sched.v) as a sequence of actions.
    launch::dispatch (fiber.cpp:36): the launching fiber yields to the new one. Join (context.cpp:229-243): a waker and suspension. Termination: a wake-up for
    each joining fiber (context.cpp:271), then suspension for ever (scheduler.cpp:239). ~scheduler (scheduler.cpp:107): the main fiber yields; the dispatcher
    resumes it at the end (scheduler.cpp:173). An expired timer (scheduler.cpp:84-89) whose fiber has been woken before does nothing. *)
Definition acts (s : state) (l : label) : list kact :=
  match l with
  | LTick d => [ASys (Kernel.Tick d)]
  | LOp t o =>
      let a := code (act (th s t)) in
      match o with
      | OYield => AYield a :: next s t
      | OArm => [AArm a]
      | OWait tp | OSleep tp => AWait a tp :: next s t
      | OWake g e => [AWake a (code g) e]
      | OLaunch Dispatch n _ => [AYield a; ASys (Kernel.Pick (code (Wk n)) t)]
      | _ => []
      end
  | LRun t =>
      let c := act (th s t) in
      let a := code c in
      match pcc (cx s c) with
      | PArmed _ => ASusp a :: next s t
      | PJoin _ d => if term (cx s d) then [] else AArm a :: ASusp a :: next s t
      | PTerm => match wtq (cx s c) with (g, e) :: _ => [AWake a (code g) e] | [] => [] end
      | PLeave => ASusp a :: next s t
      | PShut => AYield a :: next s t
      | DSleep nw =>
          match slp (th s t) with
          | (tp, g, e) :: _ => if Nat.leb tp nw && Nat.eqb (ep (cx s g)) e then [ASys (Kernel.Timer (code g))] else []
          | [] => []
          end
      | DPick => next s t
      | DFin => match trm (th s t) with [] => [ASys (Kernel.Pick (code (Mn t)) t)] | _ => [] end
      | _ => []
      end
  end.

(** The actions of a whole execution. *)
Fixpoint all_acts (s : state) (ls : list label) : list kact :=
  match ls with
  | [] => []
  | l :: ls' => acts s l ++ match step s l with Some s' => all_acts s' ls' | None => [] end
  end.

(** The main fibers of the threads [T] are running at the beginning (context.cpp:95-107); in Kernel.v no fiber is. *)
Definition mains (T : list tid) : list kact := map (fun t => ASys (Kernel.Pick (code (Mn t)) t)) T.

(** The thread that a step belongs to. *)
Definition thread_of (l : label) : option tid := match l with LOp t _ | LRun t => Some t | LTick _ => None end.

(** A fiber, if [T] are the threads of the program. *)
Definition fiber_of (T : list tid) (c : ctx) : Prop := match c with Mn t => In t T | Wk _ => True | Dp _ => False end.

(** On its way to run: in the ready queue, in a remote-ready queue, about to be put into one. *)
Definition on_its_way (s : state) (c : ctx) : Prop := ready s (home (cx s c)) c \/ remote s (home (cx s c)) c \/ being_pushed s c.

(** A state of Kernel.v and a state of the scheduler agree. The two special cases of [queued]: a fiber that has not been launched yet, and the main fiber that waits
    in ~scheduler. *)
Record agree (T : list tid) (s : state) (k : Kernel.kern) : Prop := {
  ag_now : Kernel.now k = clk s;
  ag_err : Kernel.err k = false;
  ag_thr : forall t, In t T -> Kernel.thr k t = match act (th s t) with Dp _ => None | c => Some (code c) end;
  ag_epoch : forall c, fiber_of T c -> Kernel.epoch (Kernel.fib k (code c)) = ep (cx s c);
  ag_running : forall c, fiber_of T c -> (Kernel.running (Kernel.fib k (code c)) = true <-> running s (home (cx s c)) c);
  ag_queued : forall c, fiber_of T c -> (Kernel.queued (Kernel.fib k (code c)) = true <->
    on_its_way s c \/ pcc (cx s c) = PNone \/ (pcc (cx s c) = PShut2 /\ ~ running s (home (cx s c)) c));
  ag_home : forall c, fiber_of T c -> running s (home (cx s c)) c \/ waiting s c -> Kernel.home (Kernel.fib k (code c)) = home (cx s c);
  ag_sleep : forall c tp, fiber_of T c -> sleeping s c tp -> Kernel.sleep (Kernel.fib k (code c)) = Some (tp, ep (cx s c))
}.

(** The execution [ls] of the scheduler on the threads [T] ends in [s] without error, and its translation ends in [k]. *)
Record paired (T : list tid) (ls : list label) (s : state) (k : Kernel.kern) : Prop := {
  pr_nd : NoDup T;
  pr_thr : forall l t, In l ls -> thread_of l = Some t -> In t T;
  pr_run : exec step init ls = Some s;
  pr_ok : errs s = [];
  pr_kern : exec kdo Kernel.kinit (mains T ++ all_acts init ls) = Some k
}.
