(** Model: what close() of a channel synchronizes with, under the C++ memory model: unbuffered_channel (unbuffered_channel.hpp:107-160, 300-324, memory orders of closed_) and buffered_channel (buffered_channel.hpp:82-106 and the tests of is_closed_() in its operations, all under splk_).
    The actions (writes of the user) that happen before the next action of a thread are its [view]; releasing a spinlock attaches the view to the spinlock, acquiring it adds what is attached; waking a fiber passes the view of the waker to it (scheduler, see C43). closed_.exchange( true, acquire) is a relaxed store: nothing is attached to the value true; closed_.load( acquire) adds what is attached to the value it reads. A load may read the old value false unless the exchange happens before it or the thread has read true.
    Simplified: values are left out: whether a push() finds the slot empty, and whose slot close() finds, is up to the labels; slots of dead producers are in C25; wait queues are sets; timed operations return closed at the same places. *)
From Coq Require Import List Arith Bool.
From Verif Require Import Base.
Import ListNotations.

(** Newest first. [EAct t n]: action n of the user in thread t; [EClose t]: t closes the channel; [EClosed t v w]: an operation of t returns closed, v are the actions that happen before, w: it has been waiting and close() has woken it. *)
Inductive event := EAct (t n : nat) | EClose (t : nat) | EClosed (t : nat) (v : list nat) (w : bool).

(** ** unbuffered_channel *)
(** [ClS]: in close() after the exchange (line 113); [ClP]: has looked at the slot (line 120); [ClC]: has splk_producers_ (line 123); [ClU]: has both spinlocks (line 124). [LkP], [LkC w]: has splk_producers_ in push() (line 149) or splk_consumers_ in pop() (line 314). [Wp], [Wc]: suspended in waiting_producers_ or waiting_consumers_ (lines 157, 321); [Ws]: its value is in the slot (line 140). [Woken w]: a producer that has been woken, by close() (w) or by a consumer: it tests closed_ next (lines 142, 132). [WokenC]: a consumer woken by close(): it tests closed_ after taking splk_consumers_ again ([LkC true]). *)
Inductive pc_t := Idle | ClS | ClP | ClC | ClU | LkP | LkC (w : bool) | Wp | Wc | Ws | Woken (w : bool) | WokenC.
(** [flag]: the number of the exchange if closed_ is true; [cview]: what is attached to the value true; [pl], [cl]: owners of the spinlocks; [pview], [cview2]: what is attached to them; [seen]: the thread has read true; [next]: number of the next action. *)
Record st := mkSt { flag : option nat; cview : list nat; pl : option nat; cl : option nat; pview : list nat; cview2 : list nat; seen : nat -> bool; view : nat -> list nat; pc : nat -> pc_t; next : nat; log : list event }.
(** A fresh channel. *)
Definition init_state : st := mkSt None [] None None [] [] (fun _ => false) (fun _ => []) (fun _ => Idle) 0 [].
(** [Top t b]: is_closed(), or the tests of push() without a spinlock (lines 107-109, 132-134, 142-145) reads b; [Put t]: try_push_() succeeds (lines 136-140); [Take t u]: a consumer takes the value of u and wakes it (lines 304-311); [Lock t p]: push() (p) or pop() takes its spinlock (lines 149, 314); [Test t b r]: the test under the spinlock (lines 150-157, 315-321) reads b; r: the operation starts anew instead of waiting (lines 153-155, 318-320); [Close t]: line 113; [Slot t u]: lines 115-119, the slot is that of u; [Run t]: the other steps of close(). *)
Inductive label := Act (t : nat) | Top (t : nat) (b : bool) | Put (t : nat) | Take (t u : nat) | Lock (t : nat) (p : bool) | Test (t : nat) (b r : bool) | Close (t : nat) | Slot (t u : nat) | Run (t : nat).
(** Whether t may read b from closed_ (is_closed(), lines 107-109): the old value false only if t does not know better. *)
Definition may_read (s : st) (t : nat) (b : bool) : bool := match flag s with None => negb b | Some x => b || negb (seen s t || existsb (Nat.eqb x) (view s t)) end.
(** The fibers that notify_all() wakes (lines 121, 124; wait_queue::notify_all(), src/waker.cpp:60-67). *)
Definition woken (s : st) (w : pc_t) (u : nat) : bool := match pc s u, w with Wp, Wp => true | Wc, Wc => true | _, _ => false end.
(** Where they go on. *)
Definition wake_pc (s : st) (w : pc_t) : nat -> pc_t := fun u => if woken s w u then match w with Wc => WokenC | _ => Woken true end else pc s u.
(** They get the view of the closing thread t. *)
Definition wake_view (s : st) (w : pc_t) (t : nat) : nat -> list nat := fun u => if woken s w u then view s u ++ view s t else view s u.
(** One step. *)
Definition step (s : st) (l : label) : option st :=
  match l with
  | Act t => match pc s t with Idle => Some (mkSt (flag s) (cview s) (pl s) (cl s) (pview s) (cview2 s) (seen s) (upd (view s) t (next s :: view s t)) (pc s) (S (next s)) (EAct t (next s) :: log s)) | _ => None end
  | Top t b =>
      if may_read s t b then
        match pc s t with
        | Idle | Woken _ =>
            if b then Some (mkSt (flag s) (cview s) (pl s) (cl s) (pview s) (cview2 s) (upd (seen s) t true) (upd (view s) t (view s t ++ cview s)) (upd (pc s) t Idle) (next s) (EClosed t (view s t ++ cview s) (match pc s t with Woken w => w | _ => false end) :: log s))
            else Some (mkSt (flag s) (cview s) (pl s) (cl s) (pview s) (cview2 s) (seen s) (view s) (upd (pc s) t Idle) (next s) (log s))
        | _ => None end
      else None
  | Put t =>
      match pc s t, cl s with
      | Idle, None => let v := view s t ++ cview2 s in Some (mkSt (flag s) (cview s) (pl s) (cl s) (pview s) v (seen s) (upd (view s) t v) (upd (pc s) t Ws) (next s) (log s))
      | _, _ => None end
  | Take t u =>
      match pc s t, pc s u with
      | Idle, Ws => Some (mkSt (flag s) (cview s) (pl s) (cl s) (pview s) (cview2 s) (seen s) (upd (view s) u (view s u ++ view s t)) (upd (pc s) u (Woken false)) (next s) (log s))
      | _, _ => None end
  | Lock t p =>
      match p, pc s t with
      | true, Idle => match pl s with None => Some (mkSt (flag s) (cview s) (Some t) (cl s) (pview s) (cview2 s) (seen s) (upd (view s) t (view s t ++ pview s)) (upd (pc s) t LkP) (next s) (log s)) | Some _ => None end
      | false, Idle | false, WokenC => match cl s with None => Some (mkSt (flag s) (cview s) (pl s) (Some t) (pview s) (cview2 s) (seen s) (upd (view s) t (view s t ++ cview2 s)) (upd (pc s) t (LkC (match pc s t with WokenC => true | _ => false end))) (next s) (log s)) | Some _ => None end
      | _, _ => None end
  | Test t b r =>
      if may_read s t b then
        match pc s t with
        | LkP => let v := if b then view s t ++ cview s else view s t in
            Some (mkSt (flag s) (cview s) None (cl s) v (cview2 s) (if b then upd (seen s) t true else seen s) (upd (view s) t v) (upd (pc s) t (if b then Idle else if r then Idle else Wp)) (next s) (if b then EClosed t v false :: log s else log s))
        | LkC w => let v := if b then view s t ++ cview s else view s t in
            Some (mkSt (flag s) (cview s) (pl s) None (pview s) v (if b then upd (seen s) t true else seen s) (upd (view s) t v) (upd (pc s) t (if b then Idle else if r then Idle else Wc)) (next s) (if b then EClosed t v w :: log s else log s))
        | _ => None end
      else None
  (* line 113: the store of the exchange is relaxed, its load acquire *)
  | Close t =>
      match pc s t with
      | Idle => match flag s with
          | None => Some (mkSt (Some (next s)) [] (pl s) (cl s) (pview s) (cview2 s) (upd (seen s) t true) (upd (view s) t (next s :: view s t)) (upd (pc s) t ClS) (S (next s)) (EClose t :: log s))
          | Some _ => Some (mkSt (flag s) (cview s) (pl s) (cl s) (pview s) (cview2 s) (upd (seen s) t true) (upd (view s) t (view s t ++ cview s)) (pc s) (next s) (log s)) end
      | _ => None end
  | Slot t u =>
      match pc s t, pc s u with
      | ClS, Ws => Some (mkSt (flag s) (cview s) (pl s) (cl s) (pview s) (cview2 s) (seen s) (upd (view s) u (view s u ++ view s t)) (upd (upd (pc s) u (Woken true)) t ClP) (next s) (log s))
      | _, _ => None end
  | Run t =>
      match pc s t with
      (* line 116: reads nullptr, which may be an old value *)
      | ClS => Some (mkSt (flag s) (cview s) (pl s) (cl s) (pview s) (cview2 s) (seen s) (view s) (upd (pc s) t ClP) (next s) (log s))
      (* lines 120-121 *)
      | ClP => match pl s with None => Some (mkSt (flag s) (cview s) (Some t) (cl s) (pview s) (cview2 s) (seen s) (upd (wake_view s Wp t) t (view s t ++ pview s)) (upd (wake_pc s Wp) t ClC) (next s) (log s)) | Some _ => None end
      (* lines 123-124 *)
      | ClC => match cl s with None => Some (mkSt (flag s) (cview s) (pl s) (Some t) (pview s) (cview2 s) (seen s) (upd (wake_view s Wc t) t (view s t ++ cview2 s)) (upd (wake_pc s Wc) t ClU) (next s) (log s)) | Some _ => None end
      (* lines 125-126: both spinlocks are released *)
      | ClU => Some (mkSt (flag s) (cview s) None None (view s t) (view s t) (seen s) (view s) (upd (pc s) t Idle) (next s) (log s))
      | _ => None end
  end.

(** ** buffered_channel *)
(** closed_ (a plain bool, buffered_channel.hpp:50), what is attached to splk_ (line 43), the views of the threads. *)
Record bst := mkB { bclosed : bool; bview : list nat; tview : nat -> list nat; bnext : nat; blog : list event }.
(** A fresh channel (buffered_channel.hpp:65-80). *)
Definition binit : bst := mkB false [] (fun _ => []) 0 [].
(** [BOp t]: an operation (buffered_channel.hpp:82-90, 113, 133, 153, 175, 215, 242, 267, 286, 308, 342) tests closed_ under splk_; [BClose t]: buffered_channel.hpp:92-104. *)
Inductive blabel := BAct (t : nat) | BOp (t : nat) | BClose (t : nat).
(** One step: a critical section under splk_. *)
Definition bstep (s : bst) (l : blabel) : option bst :=
  match l with
  | BAct t => Some (mkB (bclosed s) (bview s) (upd (tview s) t (bnext s :: tview s t)) (S (bnext s)) (EAct t (bnext s) :: blog s))
  | BOp t => let v := tview s t ++ bview s in Some (mkB (bclosed s) v (upd (tview s) t v) (bnext s) (if bclosed s then EClosed t v false :: blog s else blog s))
  | BClose t => let v := tview s t ++ bview s in Some (mkB true v (upd (tview s) t v) (bnext s) (if bclosed s then blog s else EClose t :: blog s))
  end.
