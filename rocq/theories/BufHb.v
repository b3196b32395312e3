(** Model: what happens before what when fibers pass values through a buffered channel (buffered_channel.hpp:36-355, src/waker.cpp:17-46), under the C++ memory model.
    The actions that happen before the next action of a fiber are its [view]; splk_ carries the view of the fibers that have released it (C71). The slots and the members of the channel are plain memory: an access that is not ordered after all earlier accesses to the same slot or member is a data race ([ERace]).
    Simplified: a critical section under splk_ is one step; pidx_, cidx_, closed_ and the wait queues count as one member that every section accesses. The wait queues are left out: a suspended fiber may be resumed at any time, and the wakeup adds nothing to its view. Hence the model has all executions of the code, and more, with less happens-before. *)
From Coq Require Import List Arith Bool.
From Verif Require Import Base MutexHb.
Import ListNotations.

(** try_push(), push(), push_wait_until(); try_pop(), pop() or value_pop(), pop_wait_until(); close(), is_closed(). *)
Inductive bop := OTryPush (v : nat) | OPush (v : nat) | OPushUntil (v : nat) | OTryPop | OPop | OPopUntil | OClose | OIsClosed.
(** [BGo o]: at the beginning of the loop of the operation; [BSusp o]: suspended in it; [BLate]: suspend_and_wait_until() has timed out (waker.cpp:32-44). *)
Inductive bpc := BIdle | BGo (o : bop) | BSusp (o : bop) | BLate.
(** Newest first. [BAct t n]: action n of t between operations; [BPush t v w], [BPop t v w]: success, w: the actions that happen before the return; [BClose t]: close(); [BClosed t w]: closed is returned or thrown, or is_closed() is true; [BFull t], [BEmpty t], [BTime t]: full, empty, timeout; [BOpen t]: is_closed() is false; [BRace t]: data race. *)
Inductive bevent := BAct (t n : nat) | BPush (t v : nat) (w : list nat) | BPop (t v : nat) (w : list nat) | BClose (t : nat) | BClosed (t : nat) (w : list nat) | BFull (t : nat) | BEmpty (t : nat) | BTime (t : nat) | BOpen (t : nat) | BRace (t : nat).
(** buffered_channel.hpp:43-50: slots_, pidx_, cidx_, closed_; the view attached to splk_; the accesses to the slots and to the members. *)
Record bst := mkB { slots : nat -> nat; pidx : nat; cidx : nat; closed : bool; bv : list nat; sacc : nat -> list nat; macc : list nat; bview : nat -> list nat; bnext : nat; bpcs : nat -> bpc; blog : list bevent }.
(** [LAct t]; [LCall t o]; [LRun t]: the critical section; [LWake t]: t is resumed; [LLate t]: t is resumed by the timeout. *)
Inductive blabel := LAct (t : nat) | LCall (t : nat) (o : bop) | LRun (t : nat) | LWake (t : nat) | LLate (t : nat).
(** buffered_channel.hpp:65-72; the slots are default-constructed. *)
Definition binit : bst := mkB (fun _ => 0) 0 0 false [] (fun _ => []) [] (fun _ => []) 0 (fun _ => BIdle) [].
(** buffered_channel.hpp:52-54, 56-58. *)
Definition is_full (cap : nat) (s : bst) : bool := cidx s =? (pidx s + 1) mod cap.
Definition is_empty (s : bst) : bool := cidx s =? pidx s.
(** Model only: a critical section of t that accesses the members; then t goes on at p. *)
Definition section (s : bst) (t : nat) (p : bpc) (e : list nat -> list bevent) : bst :=
  let w := bnext s :: bv s ++ bview s t in
  if ordered (macc s) w
  then mkB (slots s) (pidx s) (cidx s) (closed s) w (sacc s) (bnext s :: macc s) (upd (bview s) t w) (S (bnext s)) (upd (bpcs s) t p) (e w ++ blog s)
  else mkB (slots s) (pidx s) (cidx s) (closed s) w (sacc s) (macc s) (upd (bview s) t w) (S (bnext s)) (upd (bpcs s) t p) (BRace t :: e w ++ blog s).
(** Model only: t accesses slot i within the section. *)
Definition touch (s : bst) (t i : nat) : bst :=
  if ordered (sacc s i) (bview s t) then mkB (slots s) (pidx s) (cidx s) (closed s) (bv s) (upd (sacc s) i (pred (bnext s) :: sacc s i)) (macc s) (bview s) (bnext s) (bpcs s) (blog s)
  else mkB (slots s) (pidx s) (cidx s) (closed s) (bv s) (sacc s) (macc s) (bview s) (bnext s) (bpcs s) (BRace t :: blog s).
(** buffered_channel.hpp:119-121, 139-141, 159-161, 181-184, 223-225, 250-253. *)
Definition put (cap : nat) (s : bst) (v : nat) : bst := mkB (upd (slots s) (pidx s) v) ((pidx s + 1) mod cap) (cidx s) (closed s) (bv s) (sacc s) (macc s) (bview s) (bnext s) (bpcs s) (blog s).
(** buffered_channel.hpp:271-273, 291-293, 315-317, 349-351; a value that has been moved from may be anything, it is left unchanged. *)
Definition take (cap : nat) (s : bst) : bst := mkB (slots s) (pidx s) ((cidx s + 1) mod cap) (closed s) (bv s) (sacc s) (macc s) (bview s) (bnext s) (bpcs s) (blog s).
(** buffered_channel.hpp:100. *)
Definition set_closed (s : bst) : bst := mkB (slots s) (pidx s) (cidx s) true (bv s) (sacc s) (macc s) (bview s) (bnext s) (bpcs s) (blog s).
(** try_push() (buffered_channel.hpp:106-143), push() (145-188), push_wait_until() (204-257) after the spinlock has been taken; p, e: what to do if the channel is full. *)
Definition push_section (cap : nat) (s : bst) (t v : nat) (p : bpc) (e : list bevent) : bst :=
  if closed s then section s t BIdle (fun w => [BClosed t w])
  else if is_full cap s then section s t p (fun _ => e)
  else put cap (touch (section s t BIdle (fun w => [BPush t v w])) t (pidx s)) v.
(** try_pop() (buffered_channel.hpp:259-275), pop() (277-297), value_pop() (299-321), pop_wait_until() (330-355) after the spinlock has been taken; p, e: what to do if the channel is empty. *)
Definition pop_section (cap : nat) (s : bst) (t : nat) (p : bpc) (e : list bevent) : bst :=
  if is_empty s then if closed s then section s t BIdle (fun w => [BClosed t w]) else section s t p (fun _ => e)
  else take cap (touch (section s t BIdle (fun w => [BPop t (slots s (cidx s)) w])) t (cidx s)).
(** One step. close() (buffered_channel.hpp:92-104), is_closed() (82-90), suspend_and_wait_until() after a timeout (waker.cpp:32-44). *)
Definition bstep (cap : nat) (s : bst) (l : blabel) : option bst :=
  match l with
  | LAct t => match bpcs s t with BIdle => Some (mkB (slots s) (pidx s) (cidx s) (closed s) (bv s) (sacc s) (macc s) (upd (bview s) t (bnext s :: bview s t)) (S (bnext s)) (bpcs s) (BAct t (bnext s) :: blog s)) | _ => None end
  | LCall t o => match bpcs s t with BIdle => Some (mkB (slots s) (pidx s) (cidx s) (closed s) (bv s) (sacc s) (macc s) (bview s) (bnext s) (upd (bpcs s) t (BGo o)) (blog s)) | _ => None end
  | LRun t => match bpcs s t with
      | BGo (OTryPush v) => Some (push_section cap s t v BIdle [BFull t])
      | BGo (OPush v) => Some (push_section cap s t v (BSusp (OPush v)) [])
      | BGo (OPushUntil v) => Some (push_section cap s t v (BSusp (OPushUntil v)) [])
      | BGo OTryPop => Some (pop_section cap s t BIdle [BEmpty t])
      | BGo OPop => Some (pop_section cap s t (BSusp OPop) [])
      | BGo OPopUntil => Some (pop_section cap s t (BSusp OPopUntil) [])
      | BGo OClose => Some (set_closed (section s t BIdle (fun _ => [BClose t])))
      | BGo OIsClosed => Some (section s t BIdle (fun w => if closed s then [BClosed t w] else [BOpen t]))
      | BLate => Some (section s t BIdle (fun _ => [BTime t]))
      | _ => None end
  | LWake t => match bpcs s t with BSusp o => Some (mkB (slots s) (pidx s) (cidx s) (closed s) (bv s) (sacc s) (macc s) (bview s) (bnext s) (upd (bpcs s) t (BGo o)) (blog s)) | _ => None end
  | LLate t => match bpcs s t with
      | BSusp (OPushUntil _) | BSusp OPopUntil => Some (mkB (slots s) (pidx s) (cidx s) (closed s) (bv s) (sacc s) (macc s) (bview s) (bnext s) (upd (bpcs s) t BLate) (blog s))
      | _ => None end
  end.
