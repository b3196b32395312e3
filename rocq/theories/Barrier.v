(** Model: boost::fibers::barrier (barrier.hpp, barrier.cpp). *)
From Coq Require Import List Arith Bool.
From Verif Require Import Base Kernel CondVar Client.
Import ListNotations.

(** barrier.hpp:25-29: initial_ is the parameter [n] of the functions below, mtx_ and cond_ are the machine of CondVar.v. The counter
    cycle_ is an unbounded number instead of a std::size_t. *)
Record bdata := mkB { current : nat; cycle : nat }.

(** Program points of barrier::wait() (barrier.cpp:30-44); the number is the local variable cycle. *)
Inductive bpc :=
| PLock                  (* barrier.cpp:32, constructor of lk *)
| PUnlockT (c : nat)     (* barrier.cpp:37 *)
| PNotify (c : nat)      (* barrier.cpp:38 *)
| PWait (c : nat)        (* barrier.cpp:42, inside cond_.wait(lk) of the loop condition_variable.hpp:88-90 *)
| PUnlockF (c : nat).    (* barrier.cpp:44, destructor of lk *)

(** Result of wait(): the bool, or an exception. *)
Inductive bres := RB (b : bool) | RThrow.

(** Ghost event: --current_ has been executed (barrier.cpp:34). *)
Inductive bx := XArrive.

(** barrier.cpp:42 with condition_variable.hpp:87-91: test the predicate, wait or leave the loop. *)
Definition wait_loop (d : bdata) (c : nat) : act bpc bres :=
  if negb (Nat.eqb c (cycle d)) then ACall Unlock (PUnlockF c) else ACall Wait (PWait c).

(** barrier.cpp:30-44, after construction of lk. std::size_t subtraction: [pred]; theorem C14_no_underflow shows current_ > 0. *)
Definition barrier_cont (n : nat) (d : bdata) (p : bpc) (r : res) : bdata * list bx * act bpc bres :=
  match r with
  | RErr => (d, [], ARet RThrow)
  | _ =>
    match p with
    | PLock =>
        let c := cycle d in
        if Nat.eqb (pred (current d)) 0
        then (mkB n (S (cycle d)), [XArrive], ACall Unlock (PUnlockT c))
        else let d' := mkB (pred (current d)) (cycle d) in (d', [XArrive], wait_loop d' c)
    | PUnlockT c => (d, [], ACall NotifyAll (PNotify c))
    | PNotify c => (d, [], ARet (RB true))
    | PWait c => (d, [], wait_loop d c)
    | PUnlockF c => (d, [], ARet (RB false))
    end
  end.

Definition barrier (n : nat) : client bdata bpc unit bres bx :=
  mkClient _ _ _ _ _ (mkB n 0) (fun _ d _ => Some (d, [], ACall Lock PLock)) (barrier_cont n).

(** barrier.cpp:21-28: the constructor rejects 0. *)
Definition make_barrier (n : nat) : option (client bdata bpc unit bres bx) :=
  if Nat.eqb n 0 then None else Some (barrier n).

Definition bstate := cstate bdata bpc unit bres bx.
Definition bstep (n : nat) : bstate -> clabel unit -> option bstate := cstep (barrier n).
Definition binit (n : nat) : bstate := cinit (barrier n).
