(** Model: the reference counts of contexts, shared states of futures, scheduling algorithms and cleanup functions under the C++ memory model: intrusive_ptr_add_ref() and intrusive_ptr_release() of context.hpp:374-392, future/detail/shared_state.hpp:143-154, algo/algorithm.hpp:52-64, 76-88 and detail/fss.hpp:39-50, which are the same code. One object, any number of threads.
    Memory orders: the actions on the object that happen before the next action of a thread are its [view]; [mview] are those that release operations have attached to the present value of use_count_. fetch_add( 1, relaxed) and fetch_sub( 1, release) are read-modify-write operations: they read the last value in the modification order and continue the release sequence, i.e. keep what is in [mview]; a release operation adds the view of the thread. What a thread has read becomes part of its view with an acquire fence only: until then it is in [pend].
    Simplified: a thread that gets a reference from another one gets it with a synchronization (a mutex, the start of a thread, a channel ...), which is the duty of the user; the count does not overflow. *)
From Coq Require Import List Arith Bool.
From Verif Require Import Base.
Import ListNotations.

(** Newest first. *)
Inductive event :=
  | EUse (t n : nat)                 (* thread t uses the object; n numbers the uses *)
  | EDestroy (t : nat) (v : list nat). (* thread t destroys the object; v are the uses that happen before *)
(** [Idle]: outside intrusive_ptr_release(). [AtFence]: fetch_sub() has returned 1. [AtDelete]: after the fence. *)
Inductive pc_t := Idle | AtFence | AtDelete.
(** [holders]: for every reference the thread that has it; [cnt]: use_count_; [next]: the number of the next use (model only). *)
Record st := mkSt { cnt : nat; mview : list nat; holders : list nat; view : nat -> list nat; pend : nat -> list nat; pc : nat -> pc_t; next : nat; log : list event }.
(** Thread 0 has made the object and has the first reference. *)
Definition init_state : st := mkSt 1 [] [0] (fun _ => []) (fun _ => []) (fun _ => Idle) 0 [].
(** [Use t]: a use through a reference. [Copy t]: copy of a reference. [Send t u]: a reference is given to thread u. [Release t], [Fence t], [Delete t]: intrusive_ptr_release(). *)
Inductive label := Use (t : nat) | Copy (t : nat) | Send (t u : nat) | Release (t : nat) | Fence (t : nat) | Delete (t : nat).
(** One reference of t less (model only). *)
Fixpoint drop (t : nat) (l : list nat) : list nat := match l with [] => [] | x :: r => if Nat.eqb x t then r else x :: drop t r end.
(** One step. *)
Definition step (s : st) (l : label) : option st :=
  match l with
  | Use t => if existsb (Nat.eqb t) (holders s) then Some (mkSt (cnt s) (mview s) (holders s) (upd (view s) t (next s :: view s t)) (pend s) (pc s) (S (next s)) (EUse t (next s) :: log s)) else None
  (* context.hpp:374-377 *)
  | Copy t => if existsb (Nat.eqb t) (holders s) then Some (mkSt (S (cnt s)) (mview s) (t :: holders s) (view s) (upd (pend s) t (pend s t ++ mview s)) (pc s) (next s) (log s)) else None
  | Send t u => if existsb (Nat.eqb t) (holders s) then Some (mkSt (cnt s) (mview s) (u :: drop t (holders s)) (upd (view s) u (view s u ++ view s t)) (pend s) (pc s) (next s) (log s)) else None
  (* context.hpp:381 *)
  | Release t => if existsb (Nat.eqb t) (holders s) then
      match pc s t with
      | Idle => Some (mkSt (pred (cnt s)) (mview s ++ view s t) (drop t (holders s)) (view s) (upd (pend s) t (pend s t ++ mview s)) (if Nat.eqb (cnt s) 1 then upd (pc s) t AtFence else pc s) (next s) (log s))
      | _ => None end else None
  (* context.hpp:382 *)
  | Fence t => match pc s t with AtFence => Some (mkSt (cnt s) (mview s) (holders s) (upd (view s) t (view s t ++ pend s t)) (upd (pend s) t []) (upd (pc s) t AtDelete) (next s) (log s)) | _ => None end
  (* context.hpp:383-387, shared_state.hpp:152, fss.hpp:48, algorithm.hpp:61 *)
  | Delete t => match pc s t with AtDelete => Some (mkSt (cnt s) (mview s) (holders s) (view s) (pend s) (upd (pc s) t Idle) (next s) (EDestroy t (view s t) :: log s)) | _ => None end
  end.
