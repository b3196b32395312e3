(** Model: try_push_() and try_value_pop_() of the channel for threads of the benchmarks (performance/thread/buffered_channel.hpp:75-118) with the memory orders written in the code; ThChan.v is the whole class under sequential consistency.
    The actions that happen before the next action of a thread are its [view] (numbers of actions of the user and of accesses to the storage of the slots). cycle of a slot has a history of messages: the value and the view of the thread that stored it (release); an acquire load returns any of them and adds its view. producer_idx_ and consumer_idx_ are accessed relaxed: a load returns any value they have had, which carries nothing; a compare_exchange_weak succeeds only with the last value, and may fail with any.
    An access to the storage that is not ordered after all earlier accesses to it is a data race ([ERace]).
    Coherence of the loads of one thread is left out, which only adds behaviours. Simplified: indices do not wrap around; values are numbers. A push() that finds the channel full and a value_pop() that finds it empty end here (they go on with mtx_, see ThChan.v). *)
From Coq Require Import List Arith Bool.
From Verif Require Import Base ThChan.
Import ListNotations.

(** Newest first. [EAct t n]: action n of the user; [EEnq t i v w]: t has got position i for its value v (line 84), w: the actions that happen before; [EClaim t i]: t has got position i in value_pop() (line 105); [EDeq t i v w]: it has read v there (line 205), w: the actions that happen before; [EFull], [EEmpty] (lines 88, 109); [ERace t i]: data race, or no object, at position i. *)
Inductive event := EAct (t n : nat) | EEnq (t i v : nat) (w : list nat) | EFull (t v : nat) | EClaim (t i : nat) | EDeq (t i v : nat) (w : list nat) | EEmpty (t : nat) | ERace (t i : nat).
(** Before line 78, 81, 84, 93, 94 of try_push_(); before line 99, 102, 105 of try_value_pop_() and lines 205, 206 of value_pop(). *)
Inductive pc_t := Idle | PLoad (v : nat) | PCyc (v i : nat) | PCas (v i : nat) | PWrite (v i : nat) | PPub (v i : nat) | CLoad | CCyc (i : nat) | CCas (i : nat) | CRead (i : nat) | CFree (i v : nat).
(** Members of lines 43-57: producer_idx_, consumer_idx_ (last values), the messages of each cycle (newest first), the storage, the accesses to the storage (position, whether it is a read, number); views, next number. *)
Record st := mkSt { pidx : nat; cidx : nat; msgs : nat -> list (nat * list nat); stor : nat -> option nat; acc : nat -> list (nat * bool * nat); view : nat -> list nat; next : nat; pc : nat -> pc_t; log : list event }.
(** [Run t k]: the next step of t; k chooses what a load returns and, at a compare_exchange_weak, 0: success. *)
Inductive label := Act (t : nat) | Push (t v : nat) | Pop (t : nat) | Run (t k : nat).
(** Lines 136-140; the constructor happens before everything else. *)
Definition init_state (cap : nat) : st := mkSt 0 0 (fun k => if k <? cap then [(k, [])] else []) (fun _ => None) (fun _ => []) (fun _ => []) 0 (fun _ => Idle) [].

Section Cap.
Variable cap : nat.
(** & slots_[idx & (capacity_ - 1)], lines 80, 101. *)
Definition slot (i : nat) : nat := ThChan.slot cap i.
(** The access of a thread with view w is ordered after the accesses l. *)
Definition ordered (l : list (nat * bool * nat)) (w : list nat) : bool := forallb (fun a => existsb (Nat.eqb (snd a)) w) l.
(** Another program counter, view and more events (model only). *)
Definition goto (s : st) (t : nat) (p : pc_t) (w : list nat) (e : list event) : st := mkSt (pidx s) (cidx s) (msgs s) (stor s) (acc s) (upd (view s) t w) (next s) (upd (pc s) t p) (e ++ log s).

(** Lines 75-118, 205-206. *)
Definition run (s : st) (t k : nat) : option st :=
  match pc s t with
  | Idle => None
  (* line 78 *)
  | PLoad v => if k <=? pidx s then Some (goto s t (PCyc v k) (view s t) []) else None
  (* lines 80-91 *)
  | PCyc v i => match nth_error (msgs s (slot i)) k with
      | Some (c, w) => Some (if c =? i then goto s t (PCas v i) (w ++ view s t) [] else if c <? i then goto s t Idle (w ++ view s t) [EFull t v] else goto s t (PLoad v) (w ++ view s t) [])
      | None => None end
  (* lines 84-86 *)
  | PCas v i => match k with
      | 0 => if pidx s =? i then Some (mkSt (S i) (cidx s) (msgs s) (stor s) (acc s) (view s) (next s) (upd (pc s) t (PWrite v i)) (EEnq t i v (view s t) :: log s)) else None
      | S k' => if k' <=? pidx s then Some (goto s t (PCyc v k') (view s t) []) else None end
  (* line 93 *)
  | PWrite v i => let k := slot i in
      if ordered (acc s k) (view s t) then Some (mkSt (pidx s) (cidx s) (msgs s) (upd (stor s) k (Some v)) (upd (acc s) k ((i, false, next s) :: acc s k)) (upd (view s) t (next s :: view s t)) (S (next s)) (upd (pc s) t (PPub v i)) (log s))
      else Some (goto s t Idle (view s t) [ERace t i])
  (* line 94 *)
  | PPub v i => let k := slot i in Some (mkSt (pidx s) (cidx s) (upd (msgs s) k ((S i, view s t) :: msgs s k)) (stor s) (acc s) (view s) (next s) (upd (pc s) t Idle) (log s))
  (* line 99 *)
  | CLoad => if k <=? cidx s then Some (goto s t (CCyc k) (view s t) []) else None
  (* lines 101-112 *)
  | CCyc i => match nth_error (msgs s (slot i)) k with
      | Some (c, w) => Some (if c =? S i then goto s t (CCas i) (w ++ view s t) [] else if c <? S i then goto s t Idle (w ++ view s t) [EEmpty t] else goto s t CLoad (w ++ view s t) [])
      | None => None end
  (* lines 105-107 *)
  | CCas i => match k with
      | 0 => if cidx s =? i then Some (mkSt (pidx s) (S i) (msgs s) (stor s) (acc s) (view s) (next s) (upd (pc s) t (CRead i)) (EClaim t i :: log s)) else None
      | S k' => if k' <=? cidx s then Some (goto s t (CCyc k') (view s t) []) else None end
  (* line 205 *)
  | CRead i => let k := slot i in
      match ordered (acc s k) (view s t), stor s k with
      | true, Some v => Some (mkSt (pidx s) (cidx s) (msgs s) (stor s) (upd (acc s) k ((i, true, next s) :: acc s k)) (upd (view s) t (next s :: view s t)) (S (next s)) (upd (pc s) t (CFree i v)) (EDeq t i v (view s t) :: log s))
      | _, _ => Some (goto s t Idle (view s t) [ERace t i]) end
  (* line 206 *)
  | CFree i v => let k := slot i in Some (mkSt (pidx s) (cidx s) (upd (msgs s) k ((i + cap, view s t) :: msgs s k)) (stor s) (acc s) (view s) (next s) (upd (pc s) t Idle) (log s))
  end.
(** One step: an action of the user, a call (lines 171, 199) or a step of the operations. *)
Definition step (s : st) (l : label) : option st :=
  match l with
  | Act t => match pc s t with Idle => Some (mkSt (pidx s) (cidx s) (msgs s) (stor s) (acc s) (upd (view s) t (next s :: view s t)) (S (next s)) (upd (pc s) t Idle) (EAct t (next s) :: log s)) | _ => None end
  | Push t v => match pc s t with Idle => Some (goto s t (PLoad v) (view s t) []) | _ => None end
  | Pop t => match pc s t with Idle => Some (goto s t CLoad (view s t) []) | _ => None end
  | Run t k => run s t k
  end.
End Cap.
