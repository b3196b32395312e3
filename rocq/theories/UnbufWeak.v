(** Model: unbuffered_channel under the C++ memory model: push(), pop() and value_pop() of an open channel (unbuffered_channel.hpp:68-95, 128-193, 300-353; src/waker.cpp:18-24, 49-58). Unbuffered.v is the whole class under sequential consistency.
    The actions that happen before the next action of a fiber are its [view]: numbers of actions of the user, of accesses to slots and of writes to slot_. slot_ has a history of messages: value, number and the view of the fiber that wrote it (acq_rel); an acquire load returns a message that is not older than one in the view (coherence) and adds its view; a compare_exchange_strong reads the newest message. A spinlock carries the view of the last fiber that has released it (C71). wake() passes the view of the waker to the fiber that is resumed (scheduler, C43).
    An access to a slot that is not ordered after all earlier ones is a data race ([ERace]).
    Simplified: neither close() nor timeouts (C24-C28), hence every waker is used at most once and epochs are left out; is_closed() is false; values are numbers and do not throw; a critical section with one load of slot_ is one step. All slots of a fiber are one location. *)
From Coq Require Import List Arith Bool.
From Verif Require Import Base.
Import ListNotations.

(** Newest first. [EAct t n]: action n of the user; [EPush t v w]: t calls push( v), w: the actions that happen before; [EGot c p v w]: pop() of c returns the value v of p; [EOk t w]: push() of t returns success (line 147); w: the actions that happen before; [ERace t p]: data race on the slot of p. *)
Inductive event := EAct (t n : nat) | EPush (t v : nat) (w : list nat) | EGot (c p v : nat) (w : list nat) | EOk (t : nat) (w : list nat) | ERace (t p : nat).
(** push(): [PTop]: line 135, [PLoad]: line 74, [PCas]: line 76, [PNote]: lines 137-140, [PSusp]: suspended in line 140, [PEnd]: line 147, [PLk]: lines 149-157, [PWait]: suspended in line 157.
    pop(): [CLoad]: line 88, [CCas]: line 90, [CNote]: lines 306-307, [CRead]: line 309, [CWake]: line 311, [CLk]: lines 314-321, [CWait]: suspended in line 321. value_pop() has the same steps (lines 326-353). *)
Inductive pc_t := Idle | PTop (v : nat) | PLoad (v : nat) | PCas (v : nat) | PNote (v : nat) | PSusp (v : nat) | PEnd (v : nat) | PLk (v : nat) | PWait (v : nat)
  | CLoad | CCas (p : nat) | CNote (p : nat) | CRead (p : nat) | CWake (p v : nat) | CLk | CWait.
(** A value of slot_ (whose slot), its number, the view that is attached to it. *)
Record msg := mkM { who : option nat; mid : nat; mvw : list nat }.
(** slot_: the newest and the older messages (line 59); the slots (lines 43-56) with the numbers of the accesses; splk_producers_, waiting_producers_, splk_consumers_, waiting_consumers_ (lines 62-65): the views attached to the spinlocks and the queues; [woke t]: t has been woken, with the view of the waker. *)
Record st := mkSt { top : msg; olds : list msg; slotv : nat -> option nat; acc : nat -> list nat; lvP : list nat; lvC : list nat; qP : list nat; qC : list nat; woke : nat -> option (list nat); view : nat -> list nat; next : nat; pc : nat -> pc_t; log : list event }.
(** [Run t k]: the next step of t; k: which message a load of slot_ returns. *)
Inductive label := Act (t : nat) | Push (t v : nat) | Pop (t : nat) | Run (t k : nat).
(** Line 98. *)
Definition init_state : st := mkSt (mkM None 0 []) [] (fun _ => None) (fun _ => []) [] [] [] [] (fun _ => None) (fun _ => []) 1 (fun _ => Idle) [].
(** Model only: membership; the access of a fiber with view w is ordered after the accesses l. *)
Definition mem (n : nat) (w : list nat) : bool := existsb (Nat.eqb n) w.
Definition ordered (l w : list nat) : bool := forallb (fun n => mem n w) l.
(** slot_.load( acquire) (lines 69, 74, 88) by a fiber with view w. *)
Definition load (s : st) (w : list nat) (k : nat) : option msg :=
  if forallb (fun m => negb (mem (mid m) w)) (firstn k (top s :: olds s)) then nth_error (top s :: olds s) k else None.

(** Model only: t goes on at p with view w. *)
Definition goto (s : st) (t : nat) (p : pc_t) (w : list nat) : st := mkSt (top s) (olds s) (slotv s) (acc s) (lvP s) (lvC s) (qP s) (qC s) (woke s) (upd (view s) t w) (next s) (upd (pc s) t p) (log s).
(** Model only: a data race. *)
Definition race (s : st) (t p : nat) : st := mkSt (top s) (olds s) (slotv s) (acc s) (lvP s) (lvC s) (qP s) (qC s) (woke s) (view s) (next s) (upd (pc s) t Idle) (ERace t p :: log s).
(** Model only: t accesses the slot of p, goes on at q, and the events e are recorded. *)
Definition touch (s : st) (t p : nat) (x : option nat) (q : pc_t) (wk : nat -> option (list nat)) (e : list event) : st :=
  if ordered (acc s p) (view s t) then
    mkSt (top s) (olds s) (upd (slotv s) p x) (upd (acc s) p (next s :: acc s p)) (lvP s) (lvC s) (qP s) (qC s) wk (upd (view s) t (next s :: view s t)) (S (next s)) (upd (pc s) t q) (e ++ log s)
  else race s t p.
(** compare_exchange_strong( acq_rel) that succeeds (lines 76, 90). *)
Definition cas (s : st) (t : nat) (x : option nat) (q : pc_t) : st :=
  let w := next s :: mvw (top s) ++ view s t in
  mkSt (mkM x (next s) w) (top s :: olds s) (slotv s) (acc s) (lvP s) (lvC s) (qP s) (qC s) (woke s) (upd (view s) t w) (S (next s)) (upd (pc s) t q) (log s).
(** wait_queue::notify_one() (src/waker.cpp:49-58) by a fiber with view w. *)
Definition wake1 (q : list nat) (w : list nat) (wk : nat -> option (list nat)) : nat -> option (list nat) := match q with [] => wk | u :: _ => upd wk u (Some w) end.

(** One step of an operation. *)
Definition run (s : st) (t k : nat) : option st :=
  match pc s t with
  | Idle => None
  | PTop v => Some (touch s t t (Some v) (PLoad v) (woke s) [])
  | PLoad v => match load s (view s t) k with
      | Some m => Some (goto s t (match who m with None => PCas v | Some _ => PLk v end) (mvw m ++ view s t))
      | None => None end
  | PCas v => Some (match who (top s) with None => cas s t (Some t) (PNote v) | Some _ => goto s t (PLoad v) (view s t) end)
  (* lines 137-140, under splk_consumers_ *)
  | PNote v => let w := lvC s ++ view s t in
      Some (mkSt (top s) (olds s) (slotv s) (acc s) (lvP s) w (qP s) (tl (qC s)) (wake1 (qC s) w (woke s)) (upd (view s) t w) (next s) (upd (pc s) t (PSusp v)) (log s))
  | PSusp v => match woke s t with
      | Some w => Some (mkSt (top s) (olds s) (slotv s) (acc s) (lvP s) (lvC s) (qP s) (qC s) (upd (woke s) t None) (upd (view s) t (w ++ view s t)) (next s) (upd (pc s) t (PEnd v)) (log s))
      | None => None end
  | PEnd v => Some (touch s t t None Idle (woke s) [EOk t (view s t)])
  (* lines 149-157, under splk_producers_ *)
  | PLk v => let w := lvP s ++ view s t in
      match load s w k with
      | Some m => let w' := mvw m ++ w in
          Some (match who m with
            | None => mkSt (top s) (olds s) (slotv s) (acc s) w' (lvC s) (qP s) (qC s) (woke s) (upd (view s) t w') (next s) (upd (pc s) t (PTop v)) (log s)
            | Some _ => mkSt (top s) (olds s) (slotv s) (acc s) w' (lvC s) (qP s ++ [t]) (qC s) (woke s) (upd (view s) t w') (next s) (upd (pc s) t (PWait v)) (log s) end)
      | None => None end
  | PWait v => match woke s t with
      | Some w => Some (mkSt (top s) (olds s) (slotv s) (acc s) (lvP s) (lvC s) (qP s) (qC s) (upd (woke s) t None) (upd (view s) t (w ++ view s t)) (next s) (upd (pc s) t (PTop v)) (log s))
      | None => None end
  | CLoad => match load s (view s t) k with
      | Some m => Some (goto s t (match who m with None => CLk | Some p => CCas p end) (mvw m ++ view s t))
      | None => None end
  | CCas p => Some (match who (top s) with Some q => if q =? p then cas s t None (CNote p) else goto s t CLoad (view s t) | None => goto s t CLoad (view s t) end)
  (* lines 306-307, under splk_producers_ *)
  | CNote p => let w := lvP s ++ view s t in
      Some (mkSt (top s) (olds s) (slotv s) (acc s) w (lvC s) (tl (qP s)) (qC s) (wake1 (qP s) w (woke s)) (upd (view s) t w) (next s) (upd (pc s) t (CRead p)) (log s))
  | CRead p => match slotv s p with
      | Some v => Some (touch s t p (Some v) (CWake p v) (woke s) [])
      | None => Some (race s t p) end
  | CWake p v => Some (touch s t p (slotv s p) Idle (upd (woke s) p (Some (next s :: view s t))) [EGot t p v (view s t)])
  (* lines 314-321, under splk_consumers_ *)
  | CLk => let w := lvC s ++ view s t in
      match load s w k with
      | Some m => let w' := mvw m ++ w in
          Some (match who m with
            | Some _ => mkSt (top s) (olds s) (slotv s) (acc s) (lvP s) w' (qP s) (qC s) (woke s) (upd (view s) t w') (next s) (upd (pc s) t CLoad) (log s)
            | None => mkSt (top s) (olds s) (slotv s) (acc s) (lvP s) w' (qP s) (qC s ++ [t]) (woke s) (upd (view s) t w') (next s) (upd (pc s) t CWait) (log s) end)
      | None => None end
  | CWait => match woke s t with
      | Some w => Some (mkSt (top s) (olds s) (slotv s) (acc s) (lvP s) (lvC s) (qP s) (qC s) (upd (woke s) t None) (upd (view s) t (w ++ view s t)) (next s) (upd (pc s) t CLoad) (log s))
      | None => None end
  end.
(** One step: an action of the user, a call (lines 128-130, 162-164; 300, 326) or a step of an operation. *)
Definition step (s : st) (l : label) : option st :=
  match l with
  | Act t => match pc s t with Idle => Some (mkSt (top s) (olds s) (slotv s) (acc s) (lvP s) (lvC s) (qP s) (qC s) (woke s) (upd (view s) t (next s :: view s t)) (S (next s)) (upd (pc s) t Idle) (EAct t (next s) :: log s)) | _ => None end
  | Push t v => match pc s t with Idle => Some (touch s t t (Some v) (PTop v) (woke s) [EPush t v (view s t)]) | _ => None end
  | Pop t => match pc s t with Idle => Some (goto s t CLoad (view s t)) | _ => None end
  | Run t k => run s t k
  end.
