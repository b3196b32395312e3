(** Model: the schedulers of any number of threads (scheduler.cpp, context.cpp) on top of the scheduling algorithms (Algo.v), thread t with algorithm object t of any kind. Each step of a thread calls awakened() and pick_next() of its algorithm in the way the code does. Sched.v models the scheduler in more detail, but for round_robin only.
    Simplified: wake-ups (waker, timers, sleep queue) are: any running context, or the dispatcher, may wake any blocked context. A thread that suspends in suspend_until() may go on at any time. The assertion on shutdown_ in schedule_from_remote is C65, here it is not checked. No set_algo() (that is C57). A joined fiber is a blocked one that is woken. *)
From Coq Require Import List Arith Bool.
From Verif Require Import Base Algo.
Import ListNotations.

(** Context numbers: main and dispatcher context of thread t, worker context number k. *)
Definition mainc (t : nat) : nat := 3 * t.
Definition disp (t : nat) : nat := 3 * t + 1.
Definition fiber (k : nat) : nat := 3 * k + 2.
(** type::pinned_context: main and dispatcher contexts (type.hpp:49), and their thread. *)
Definition pinned (c : nat) : bool := negb (c mod 3 =? 2).
Definition home (c : nat) : nat := c / 3.

(** Who called pick_next(). [KYield c]: yield() of c (scheduler.cpp:243-257). [KBlock]: suspend(), wait_until(), terminate() (216-240, 259-309). [KDisp]: dispatch() (142). *)
Inductive kont := KYield (c : nat) | KBlock | KDisp.
(** Where a thread is. [Off]: has no scheduler yet. [Run c]: context c runs; if c is the dispatcher, at the head of its loop (scheduler.cpp:123). [Drain l]: dispatcher, in remote_ready2ready_() with the contexts l still to be made ready (scheduler.cpp:49-62). [Picking k]: in pick_next(). [Post n p]: has switched to n, about to make p ready (context.cpp:205-216). [Null]: nullptr returned by pick_next() has been dereferenced. [Gone]: the destructor of the scheduler has returned. *)
Inductive mode_t := Off | Run (c : nat) | Drain (l : list nat) | Picking (k : kont) | Post (n p : nat) | Null | Gone.

Record dst := mkD {
  al : st;                      (* the algorithms *)
  mode : nat -> mode_t;
  bl : nat -> bool;             (* context is blocked and can be woken *)
  rem : nat -> list nat;        (* remote_ready_queue_ of each scheduler *)
  down : nat -> bool;           (* shutdown_ of each scheduler *)
  started : list nat;           (* worker contexts created so far *)
  born : nat -> nat;            (* ghost: the thread that created them *)
  dead : nat -> bool            (* terminated_ of each context *)
}.

Inductive label :=
  | Begin (t : nat)          (* context_initializer::initialize: context.cpp:95-107, scheduler.cpp:340-357 *)
  | Spawn (t k : nat)        (* launch::post: fiber.cpp:23-41 *)
  | Launch (t k : nat)       (* launch::dispatch: fiber.cpp:23-41 *)
  | Yield (t : nat)          (* context.cpp:245-249 *)
  | Block (t : nat)          (* scheduler.cpp:259-309 *)
  | Term (t : nat)           (* scheduler.cpp:216-240 *)
  | Wake (t c : nat)         (* context.cpp:319-340, or sleep2ready_() in the dispatcher: scheduler.cpp:65-95 *)
  | Exit (t : nat)           (* main context: ~scheduler, scheduler.cpp:100-108 *)
  | Break (t : nat)          (* scheduler.cpp:124-130, 171-175, 109-119 *)
  | Loop (t : nat)           (* scheduler.cpp:124-137 *)
  | Next (t : nat)           (* next step inside Drain, Post *)
  | Choose (t d : nat).      (* one round of the search for a victim *)

Section Drive.
Variable kind : nat -> akind.
Variable sched : nat -> nat -> option nat.
Notation astep := (Algo.step pinned kind sched).

(** worker_queue_.empty(): no worker context is attached to t; a terminated one has been unlinked (scheduler.cpp:237). *)
Definition attached_to (a : st) (t c : nat) : bool := match att a c with Some t' => t' =? t | None => false end.
Definition no_workers (s : dst) (t : nat) : bool := forallb (fun k => dead s (fiber k) || negb (attached_to (al s) t (fiber k))) (started s).

(** Record updates; no code of their own. *)
Definition with_al (s : dst) (a : st) : dst := mkD a (mode s) (bl s) (rem s) (down s) (started s) (born s) (dead s).
Definition with_mode (s : dst) (t : nat) (m : mode_t) : dst := mkD (al s) (upd (mode s) t m) (bl s) (rem s) (down s) (started s) (born s) (dead s).

(** What happens with the result of pick_next(): scheduler.cpp:256, 274, 299, 306, 312 (resume), 239 (suspend_with_cc), 142-168 (dispatch). *)
Definition picked (s : dst) (t : nat) (k : kont) : dst :=
  match pc (al s) t with
  | Idle =>
      match log (al s) with
      | EPick _ (Some n) :: _ =>
          match k with KYield c => with_mode s t (Post n c) | KBlock => with_mode s t (Run n) | KDisp => with_mode s t (Post n (disp t)) end
      | _ => match k with KDisp => with_mode s t (Run (disp t)) | _ => with_mode s t Null end
      end
  | _ => with_mode s t (Picking k)
  end.
(** algo_->pick_next() *)
Definition call_pick (s : dst) (t : nat) (k : kont) : option dst :=
  match astep (al s) (Pick t) with Some a => Some (picked (with_al s a) t k) | None => None end.
(** algo_->awakened( c) *)
Definition call_awake (s : dst) (t c : nat) : option dst :=
  match astep (al s) (Awake t c) with Some a => Some (with_al s a) | None => None end.

(** One step of one thread; see the lines cited at [label] and [kont]. *)
Definition dstep (s : dst) (l : label) : option dst :=
  match l with
  | Begin t =>
      match mode s t with
      | Off => call_awake (with_mode s t (Run (mainc t))) t (disp t)
      | _ => None
      end
  | Spawn t k =>
      match mode s t with
      | Run c =>
          if (c =? disp t) || existsb (Nat.eqb k) (started s) then None
          else match astep (al s) (Start t (fiber k)) with
               | Some a => call_awake (mkD a (mode s) (bl s) (rem s) (down s) (k :: started s) (upd (born s) k t) (dead s)) t (fiber k)
               | None => None
               end
      | _ => None
      end
  | Launch t k =>
      match mode s t with
      | Run c =>
          if (c =? disp t) || existsb (Nat.eqb k) (started s) then None
          else match astep (al s) (Start t (fiber k)) with
               | Some a => Some (with_mode (mkD a (mode s) (bl s) (rem s) (down s) (k :: started s) (upd (born s) k t) (dead s)) t (Post (fiber k) c))
               | None => None
               end
      | _ => None
      end
  | Yield t =>
      match mode s t with
      | Run c => if c =? disp t then None else call_pick s t (KYield c)
      | _ => None
      end
  | Block t =>
      match mode s t with
      | Run c => if c =? disp t then None else call_pick (mkD (al s) (mode s) (upd (bl s) c true) (rem s) (down s) (started s) (born s) (dead s)) t KBlock
      | _ => None
      end
  | Term t =>
      match mode s t with
      | Run c => if pinned c then None else call_pick (mkD (al s) (mode s) (bl s) (rem s) (down s) (started s) (born s) (upd (dead s) c true)) t KBlock
      | _ => None
      end
  | Wake t c =>
      match mode s t, bl s c, att (al s) c with
      | Run _, true, Some t' =>
          let s1 := mkD (al s) (mode s) (upd (bl s) c false) (rem s) (down s) (started s) (born s) (dead s) in
          if t' =? t then call_awake s1 t c
          else Some (mkD (al s1) (mode s1) (bl s1) (upd (rem s1) t' (rem s1 t' ++ [c])) (down s1) (started s1) (born s1) (dead s1))
      | _, _, _ => None
      end
  | Exit t =>
      match mode s t with
      | Run c => if c =? mainc t then call_pick (mkD (al s) (mode s) (bl s) (rem s) (upd (down s) t true) (started s) (born s) (dead s)) t KBlock else None
      | _ => None
      end
  | Break t =>
      match mode s t with
      | Run c => if (c =? disp t) && down s t && no_workers s t then Some (with_mode s t Gone) else None
      | _ => None
      end
  | Loop t =>
      match mode s t with
      | Run c => if (c =? disp t) && negb (down s t && no_workers s t)
                 then Some (with_mode (mkD (al s) (mode s) (bl s) (upd (rem s) t []) (down s) (started s) (born s) (dead s)) t (Drain (rem s t)))
                 else None
      | _ => None
      end
  | Next t =>
      match mode s t with
      | Drain (c :: l) => call_awake (with_mode s t (Drain l)) t c
      | Drain [] => call_pick s t KDisp
      | Post n p => call_awake (with_mode s t (Run n)) t p
      | _ => None
      end
  | Choose t d =>
      match mode s t with
      | Picking k => match astep (al s) (Draw t d) with Some a => Some (picked (with_al s a) t k) | None => None end
      | _ => None
      end
  end.

(** No thread has a scheduler yet; the main and dispatcher contexts are the pinned contexts of Algo.v (context.cpp:95-107). *)
Definition dinit : dst := mkD (init_state pinned home (fun t => t) (fun a => Some a)) (fun _ => Off) (fun _ => false) (fun _ => []) (fun _ => false) [] (fun _ => 0) (fun _ => false).
End Drive.
