(** Model: the lifetime of the scheduler of a thread against wake-ups by other threads: scheduler::schedule_from_remote() (src/scheduler.cpp:195-214), called by context::wake() of a waking thread (src/context.cpp:299-316), against the dispatcher (src/scheduler.cpp:123-174) and the destructor of the scheduler (100-120) in the thread of the woken fiber.
    Simplified: one thread with its fibers, 0 is the main fiber; any number of waking threads. After a fiber has suspended, the dispatcher runs next (in the code possibly another ready fiber first). A push into remote_ready_queue_ and its transfer to the ready queue are single steps (both hold remote_ready_splk_). The algorithm is round_robin (src/algo/round_robin.cpp:47-66); the others do the same in suspend_until() and notify(). *)
From Coq Require Import List Arith Bool.
From Verif Require Import Base.
Import ListNotations.

(** Fibers: suspended; suspended, but a waking thread has incremented the epoch (context.cpp:301-302); in remote_ready_queue_; in the ready queue; running; terminated (main fiber: in the destructor of the scheduler). *)
Inductive fst := FBlocked | FClaimed | FRemote | FReady | FRun | FEnd.
(** The thread: running a fiber; dispatcher before remote_ready2ready_() (scheduler.cpp:137); before pick_next() (143); in suspend_until() (167); scheduler destroyed (120). *)
Inductive dpc := DFiber | DFetch | DPick | DSleep | DGone.
(** A waking thread: outside; before scheduler.cpp:205; before line 213. *)
Inductive wpc := WOut | WPush (f : nat) | WNotify.
(** Observable events, newest first: waking thread i accesses the scheduler to enqueue fiber f (scheduler.cpp:200-211); it accesses the algorithm (213) and returns; the scheduler is destroyed (120). *)
Inductive event := EPush (i f : nat) | ENotify (i : nat) | EDestroyed.
(** flag is round_robin::flag_ (round_robin.hpp). *)
Record st := mkSt { fs : nat -> fst; dsp : dpc; flag : bool; ws : nat -> wpc; log : list event }.
(** The main fiber is running, fibers 1 to n are ready. *)
Definition init (n : nat) : st :=
  mkSt (fun f => if f =? 0 then FRun else if f <=? n then FReady else FEnd) DFiber false (fun _ => WOut) [].

(** Steps of the thread: the running fiber suspends, yields, ends, wakes a fiber of the same thread (also a deadline passes: sleep2ready_()); the dispatcher fetches, picks, suspends, continues after a notification or at a deadline; the scheduler is destroyed. Steps of the waking threads: context::wake() succeeds; next step of schedule_from_remote(). *)
Inductive label := LBlock (f : nat) | LYield (f : nat) | LEnd (f : nat) | LLocal (f : nat)
  | LFetch | LPick (f : nat) | LSleep | LAwake | LTimeout | LDestroy
  | LClaim (i f : nat) | LRun (i : nat).

(** Is this fiber waiting in the ready queue, has it terminated? *)
Definition is_ready (x : fst) : bool := match x with FReady => true | _ => false end.
Definition is_end (x : fst) : bool := match x with FEnd => true | _ => false end.

(** All steps (scheduler.cpp:123-174 dispatcher, 195-214 schedule_from_remote, 100-120 destructor, context.cpp:299-316 wake). *)
Definition step (n : nat) (s : st) (l : label) : option st :=
  match l with
  | LBlock f => match dsp s, fs s f with
      | DFiber, FRun => Some (mkSt (upd (fs s) f FBlocked) DFetch (flag s) (ws s) (log s)) | _, _ => None end
  | LYield f => match dsp s, fs s f with
      | DFiber, FRun => Some (mkSt (upd (fs s) f FReady) DFetch (flag s) (ws s) (log s)) | _, _ => None end
  | LEnd f => match dsp s, fs s f with
      | DFiber, FRun => Some (mkSt (upd (fs s) f FEnd) DFetch (flag s) (ws s) (log s)) | _, _ => None end
  | LLocal f => match dsp s, fs s f with
      | (DFiber | DFetch), FBlocked => Some (mkSt (upd (fs s) f FReady) (dsp s) (flag s) (ws s) (log s)) | _, _ => None end
  | LFetch => match dsp s with       (* line 137 *)
      | DFetch => Some (mkSt (fun f => match fs s f with FRemote => FReady | x => x end) DPick (flag s) (ws s) (log s)) | _ => None end
  | LPick f => match dsp s, fs s f with   (* lines 143-154 *)
      | DPick, FReady => Some (mkSt (upd (fs s) f FRun) DFiber (flag s) (ws s) (log s)) | _, _ => None end
  | LSleep => match dsp s with       (* lines 156-167 *)
      | DPick => if existsb (fun f => is_ready (fs s f)) (seq 0 (S n)) then None else Some (mkSt (fs s) DSleep (flag s) (ws s) (log s))
      | _ => None end
  | LAwake => match dsp s with       (* round_robin.cpp:51-52 *)
      | DSleep => if flag s then Some (mkSt (fs s) DFetch false (ws s) (log s)) else None | _ => None end
  | LTimeout => match dsp s with     (* round_robin.cpp:55-56 *)
      | DSleep => Some (mkSt (fs s) DFetch false (ws s) (log s)) | _ => None end
  | LDestroy => match dsp s with     (* lines 126-131, 100-120: no worker is left *)
      | DFetch => if forallb (fun f => is_end (fs s f)) (seq 0 (S n)) then Some (mkSt (fs s) DGone (flag s) (ws s) (EDestroyed :: log s)) else None
      | _ => None end
  | LClaim i f => match ws s i, fs s f with   (* context.cpp:301-303 *)
      | WOut, FBlocked => Some (mkSt (upd (fs s) f FClaimed) (dsp s) (flag s) (upd (ws s) i (WPush f)) (log s)) | _, _ => None end
  | LRun i => match ws s i with
      | WOut => None
      | WPush f => Some (mkSt (upd (fs s) f FRemote) (dsp s) (flag s) (upd (ws s) i WNotify) (EPush i f :: log s))  (* 205-211 *)
      | WNotify => Some (mkSt (fs s) (dsp s) true (upd (ws s) i WOut) (ENotify i :: log s))                         (* 213 *)
      end
  end.
