(** Model: the scheduling algorithms round_robin, shared_work, work_stealing and numa::algo::work_stealing, any number of threads and algorithm objects in any mixture, and the replacement of the algorithm of a thread (scheduler::set_algo).
    A label is one step of one thread. awakened() and the part of pick_next() before the search for a victim touch, besides data of the calling thread, one queue under its lock, so each is one step; so is each round of the search (one random draw and, if another scheduler was drawn, one steal()). The ready queue of work_stealing is a list here; SpinQueue proves that context_spinlock_queue is one.
    Simplified: a random number is an arbitrary choice of the label. All work_stealing objects have been constructed before (their constructor waits for all of them at a barrier, work_stealing.cpp:46). What the scheduler does with a context between pick_next() and awakened() is not modelled: it may call awakened() for any context that is attached to it and not ready; that no context is ready twice is C39. *)
From Coq Require Import List Arith Bool.
From Verif Require Import Base.
Import ListNotations.

(** The kind of an algorithm object. [Stealing own local remote]: numa/algo/work_stealing.hpp: cpu_id_, local_cpus_, remote_cpus_; algo/work_stealing.hpp:42-43 is the case own = id_, local = 0 .. thread_count_ - 1, remote = none ([plain]). *)
Inductive akind := RoundRobin | SharedWork | Stealing (own : nat) (local remote : list nat).
(** work_stealing.cpp:66-82: draws from 0 .. thread_count_ - 1, size = schedulers_.size(), which is thread_count (work_stealing.cpp:33). *)
Definition plain (id thread_count : nat) : akind := Stealing id (seq 0 thread_count) [].

(** What goes wrong. *)
Inductive err :=
  | NullAwakened   (* awakened( nullptr) *)
  | BadLink        (* pushed onto an intrusive queue while linked: round_robin.cpp:23 *)
  | BadAttach      (* scheduler.cpp:362-369 *)
  | BadDetach      (* scheduler.cpp:378-385, or get_scheduler() is another thread's or nullptr (context.cpp:426) *)
  | BadIndex       (* local_cpus_[..] or schedulers_[..] out of bounds or nullptr (numa work_stealing.cpp:120, 125, 144) *)
  | BadVictim.     (* victim is pinned (work_stealing.cpp:84), or a remote CPU is the own one (numa work_stealing.cpp:142) *)

(** Where a thread is. [Steal rem n k]: in the loop work_stealing.cpp:71-81 ([rem] = false) or numa work_stealing.cpp:136-147 ([rem] = true), [n] = count; [k] = None: pick_next() was called by the scheduler, Some b: by set_algo(b). [SetTest], [SetPick], [SetPush]: scheduler.cpp:324, 325 (pick_next), 325 (awakened). *)
Inductive pc_t := Idle | Steal (rem : bool) (n : nat) (k : option nat) | SetTest (b : nat) | SetPick (b : nat) | SetPush (b c : nat) | Crashed.

(** Newest first. *)
Inductive event :=
  | EAwake (t c : nat)             (* the scheduler of t calls awakened( c) *)
  | EPick (t : nat) (o : option nat) (* pick_next() returns to the scheduler of t *)
  | ESet (t b : nat)               (* set_algo( b) is called *)
  | ESetDone (t b : nat).          (* ... returns *)

Record st := mkSt {
  q : nat -> list nat;          (* per object: round_robin rqueue_, shared_work lqueue_, work_stealing rqueue_ *)
  shq : list nat;               (* shared_work.cpp:94 *)
  cur : nat -> nat;             (* scheduler::algo_ of each thread *)
  owner : nat -> option nat;    (* the thread an algorithm object was given to *)
  att : nat -> option nat;      (* context::scheduler_ / worker hook: the thread the context is attached to *)
  linked : nat -> bool;         (* context::ready_hook_ *)
  ready : nat -> bool;          (* ghost: awakened and not yet picked *)
  pc : nat -> pc_t;
  errs : list err;
  log : list event
}.

Section Algo.
Variable pinned : nat -> bool.                 (* context::is_context( type::pinned_context) *)
Variable home : nat -> nat.                    (* the thread of a pinned context *)
Variable kind : nat -> akind.                  (* kind of each algorithm object *)
Variable sched : nat -> nat -> option nat.     (* schedulers_[i] as seen by an object; None: out of bounds or nullptr *)

Definition with_err (s : st) (t : nat) (e : err) : st :=
  mkSt (q s) (shq s) (cur s) (owner s) (att s) (linked s) (ready s) (upd (pc s) t Crashed) (e :: errs s) (log s).
Definition with_pc (s : st) (t : nat) (p : pc_t) : st :=
  mkSt (q s) (shq s) (cur s) (owner s) (att s) (linked s) (ready s) (upd (pc s) t p) (errs s) (log s).
Definition with_log (s : st) (e : event) : st :=
  mkSt (q s) (shq s) (cur s) (owner s) (att s) (linked s) (ready s) (pc s) (errs s) (e :: log s).
Definition with_ready (s : st) (c : nat) (b : bool) : st :=
  mkSt (q s) (shq s) (cur s) (owner s) (att s) (linked s) (upd (ready s) c b) (pc s) (errs s) (log s).

(** context.cpp:423-427, scheduler.cpp:375-390 *)
Definition can_detach (s : st) (t c : nat) : bool :=
  match att s c with Some t' => (t =? t') && negb (linked s c) && negb (pinned c) | None => false end.
(** context.cpp:429-433, scheduler.cpp:359-373 *)
Definition can_attach (s : st) (c : nat) : bool := match att s c with Some _ => false | None => negb (linked s c) end.

(** awakened() of object [a], called by thread [t]: round_robin.cpp:20-26, shared_work.cpp:22-37, work_stealing.cpp:49-55, numa work_stealing.cpp:91-97. *)
Definition awakened (s : st) (t a c : nat) : st :=
  match kind a with
  | RoundRobin =>
      if linked s c then with_err s t BadLink
      else mkSt (upd (q s) a (q s a ++ [c])) (shq s) (cur s) (owner s) (att s) (upd (linked s) c true) (ready s) (pc s) (errs s) (log s)
  | SharedWork =>
      if pinned c then
        if linked s c then with_err s t BadLink
        else mkSt (upd (q s) a (q s a ++ [c])) (shq s) (cur s) (owner s) (att s) (upd (linked s) c true) (ready s) (pc s) (errs s) (log s)
      else if can_detach s t c
        then mkSt (q s) (shq s ++ [c]) (cur s) (owner s) (upd (att s) c None) (linked s) (ready s) (pc s) (errs s) (log s)
        else with_err s t BadDetach
  | Stealing _ _ _ =>
      if pinned c then mkSt (upd (q s) a (q s a ++ [c])) (shq s) (cur s) (owner s) (att s) (linked s) (ready s) (pc s) (errs s) (log s)
      else if can_detach s t c
        then mkSt (upd (q s) a (q s a ++ [c])) (shq s) (cur s) (owner s) (upd (att s) c None) (linked s) (ready s) (pc s) (errs s) (log s)
        else with_err s t BadDetach
  end.

(** What pick_next() ends with: it returns to the scheduler, or to set_algo, which passes the result to awakened() of the new algorithm (scheduler.cpp:325). *)
Definition finish (s : st) (t : nat) (k : option nat) (o : option nat) : st :=
  match k, o with
  | None, Some c => with_log (with_pc (with_ready s c false) t Idle) (EPick t o)
  | None, None => with_log (with_pc s t Idle) (EPick t None)
  | Some b, Some c => with_pc s t (SetPush b c)
  | Some b, None => with_err s t NullAwakened
  end.
(** context::active()->attach( c) and the end of pick_next(): shared_work.cpp:52, work_stealing.cpp:63, 85, numa work_stealing.cpp:105, 131, 153. *)
Definition attach_finish (s : st) (t : nat) (k : option nat) (c : nat) : st :=
  if can_attach s c
  then finish (mkSt (q s) (shq s) (cur s) (owner s) (upd (att s) c (Some t)) (linked s) (ready s) (pc s) (errs s) (log s)) t k (Some c)
  else with_err s t BadAttach.

(** pick_next() of object [a] up to the search for a victim: round_robin.cpp:28-40, shared_work.cpp:41-66, work_stealing.cpp:57-67, numa work_stealing.cpp:99-109. *)
Definition pick_next (s : st) (t a : nat) (k : option nat) : st :=
  let pop_linked c l := mkSt (upd (q s) a l) (shq s) (cur s) (owner s) (att s) (upd (linked s) c false) (ready s) (pc s) (errs s) (log s) in
  match kind a with
  | RoundRobin => match q s a with c :: l => finish (pop_linked c l) t k (Some c) | [] => finish s t k None end
  | SharedWork =>
      match shq s with
      | c :: l => attach_finish (mkSt (q s) l (cur s) (owner s) (att s) (linked s) (ready s) (pc s) (errs s) (log s)) t k c
      | [] => match q s a with c :: l => finish (pop_linked c l) t k (Some c) | [] => finish s t k None end
      end
  | Stealing _ _ _ =>
      match q s a with
      | c :: l => let s1 := mkSt (upd (q s) a l) (shq s) (cur s) (owner s) (att s) (linked s) (ready s) (pc s) (errs s) (log s) in
                  if pinned c then finish s1 t k (Some c) else attach_finish s1 t k c
      | [] => with_pc s t (Steal false 0 k)
      end
  end.

(** steal() of object [v]: work_stealing.hpp:69-71, context_spinlock_queue.hpp:98-109. *)
Definition steal (s : st) (v : nat) : st * option nat :=
  match q s v with
  | c :: l => if pinned c then (s, None)
              else (mkSt (upd (q s) v l) (shq s) (cur s) (owner s) (att s) (linked s) (ready s) (pc s) (errs s) (log s), Some c)
  | [] => (s, None)
  end.

(** One round of the search, [d] = the random number: work_stealing.cpp:71-87, numa work_stealing.cpp:115-156. The distribution over an empty list of CPUs is 0 .. 2^32 - 1 (numa work_stealing.cpp:111-112), so any [d] may be drawn. *)
Definition draw (s : st) (t : nat) (rem : bool) (n : nat) (k : option nat) (d : nat) : option st :=
  match kind (cur s t) with
  | Stealing own loc remote =>
      let cpus := if rem then remote else loc in
      match nth_error cpus d with
      | None => match cpus with [] => Some (with_err s t BadIndex) | _ => None end
      | Some id =>
          if id =? own then if rem then Some (with_err s t BadVictim) else Some (with_pc s t (Steal rem (S n) k))
          else match sched (cur s t) id with
               | None => Some (with_err s t BadIndex)
               | Some v =>
                   match steal s v with
                   | (s1, Some c) => Some (if pinned c then with_err s1 t BadVictim else attach_finish s1 t k c)
                   | (s1, None) =>
                       if S n <? length cpus then Some (with_pc s1 t (Steal rem (S n) k))
                       else if negb rem && negb (length remote =? 0) then Some (with_pc s1 t (Steal true 0 k))
                       else Some (finish s1 t k None)
                   end
               end
      end
  | _ => None
  end.

(** shared_work.hpp:66-69, work_stealing.hpp:73-75, round_robin.cpp:42-45 *)
Definition has_ready (s : st) (a : nat) : bool :=
  match kind a with SharedWork => negb (length (shq s) =? 0) || negb (length (q s a) =? 0) | _ => negb (length (q s a) =? 0) end.

Inductive label :=
  | Start (t c : nat)    (* a new worker context is attached to thread t: fiber.cpp:26 *)
  | Awake (t c : nat)    (* the scheduler of t calls awakened( c) *)
  | Pick (t : nat)       (* the scheduler of t calls pick_next() *)
  | Draw (t d : nat)     (* round of the search *)
  | SetAlgo (t b : nat)  (* the scheduler of t calls set_algo( b), b not given to a scheduler before *)
  | Tick (t : nat).      (* next step of set_algo *)

Definition step (s : st) (l : label) : option st :=
  match l with
  | Start t c =>
      match pc s t, att s c with
      | Idle, None => if pinned c || ready s c then None
                      else Some (mkSt (q s) (shq s) (cur s) (owner s) (upd (att s) c (Some t)) (linked s) (ready s) (pc s) (errs s) (log s))
      | _, _ => None
      end
  | Awake t c =>
      match pc s t, att s c with
      | Idle, Some t' => if (t =? t') && negb (ready s c) then Some (awakened (with_log (with_ready s c true) (EAwake t c)) t (cur s t) c) else None
      | _, _ => None
      end
  | Pick t => match pc s t with Idle => Some (pick_next s t (cur s t) None) | _ => None end
  | Draw t d => match pc s t with Steal rem n k => draw s t rem n k d | _ => None end
  | SetAlgo t b =>
      match pc s t, owner s b with
      | Idle, None => Some (with_log (mkSt (q s) (shq s) (cur s) (upd (owner s) b (Some t)) (att s) (linked s) (ready s) (upd (pc s) t (SetTest b)) (errs s) (log s)) (ESet t b))
      | _, _ => None
      end
  | Tick t =>
      match pc s t with
      | SetTest b =>
          if has_ready s (cur s t) then Some (with_pc s t (SetPick b))
          else Some (with_log (mkSt (q s) (shq s) (upd (cur s) t b) (owner s) (att s) (linked s) (ready s) (upd (pc s) t Idle) (errs s) (log s)) (ESetDone t b))
      | SetPick b => Some (pick_next s t (cur s t) (Some b))
      | SetPush b c => Some (awakened (with_pc s t (SetTest b)) t b c)
      | _ => None
      end
  end.

(** At the beginning thread [t] runs the algorithm object [cur0 t], nothing is ready, and the pinned contexts belong to their threads. *)
Definition init_state (cur0 : nat -> nat) (owner0 : nat -> option nat) : st :=
  mkSt (fun _ => []) [] cur0 owner0 (fun c => if pinned c then Some (home c) else None) (fun _ => false) (fun _ => false) (fun _ => Idle) [] [].
End Algo.
Arguments pick_next : simpl never. Arguments awakened : simpl never.
