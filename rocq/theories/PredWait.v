(** Model: the waits with predicate of condition_variable_any (condition_variable.hpp:86-91, 119-128, 136-141), used by
    arbitrary user code that shares one value, protected by the mutex. *)
From Coq Require Import List Arith Bool.
From Verif Require Import Base Kernel CondVar CondVarSpec Client.
Import ListNotations.

Section PredWait.
Variable V : Type.   (* the shared data *)
Variable v0 : V.

(** Calls of the user: lock(), unlock(), notify_one()/notify_all(), assignment to the shared data, wait(lk, pred),
    wait_until(lk, tp, pred) (wait_for(lk, d, pred) is wait_until with tp = now + d, condition_variable.hpp:137-141). *)
Inductive uop :=
| ULock | UUnlock | UNotify (all : bool) | UWrite (v : V)
| UWait (pred : V -> bool) | UWaitUntil (tp : nat) (pred : V -> bool).

Inductive ures := URes (r : res) | UBool (b : bool).

Inductive upc :=
| PSimple (o : op)                          (* inside lock(), unlock(), notify *)
| PWaitP (pred : V -> bool)                 (* condition_variable.hpp:89 *)
| PWaitU (tp : nat) (pred : V -> bool).     (* condition_variable.hpp:123 *)

(** condition_variable.hpp:88-90. *)
Definition wait_loop (d : V) (pred : V -> bool) : act upc ures :=
  if negb (pred d) then ACall Wait (PWaitP pred) else ARet (UBool true).
(** condition_variable.hpp:122-127. *)
Definition until_loop (d : V) (tp : nat) (pred : V -> bool) : act upc ures :=
  if negb (pred d) then ACall (WaitUntil tp) (PWaitU tp pred) else ARet (UBool true).

(** User code writes the shared data only while owning the mutex. *)
Definition ubegin (own : bool) (d : V) (o : uop) : option (V * list Empty_set * act upc ures) :=
  match o with
  | ULock => Some (d, [], ACall Lock (PSimple Lock))
  | UUnlock => Some (d, [], ACall Unlock (PSimple Unlock))
  | UNotify all => let o := if all then NotifyAll else NotifyOne in Some (d, [], ACall o (PSimple o))
  | UWrite v => if own then Some (v, [], ARet (URes ROk)) else None
  | UWait pred => Some (d, [], wait_loop d pred)
  | UWaitUntil tp pred => Some (d, [], until_loop d tp pred)
  end.

Definition ucont (d : V) (p : upc) (r : res) : V * list Empty_set * act upc ures :=
  match p, r with
  | PSimple _, _ => (d, [], ARet (URes r))
  | _, RErr => (d, [], ARet (URes RErr))
  | PWaitP pred, _ => (d, [], wait_loop d pred)
  | PWaitU tp pred, RTimeout => (d, [], ARet (UBool (pred d)))   (* condition_variable.hpp:124 *)
  | PWaitU tp pred, ROk => (d, [], until_loop d tp pred)
  end.

Definition puser : client V upc uop ures Empty_set := mkClient _ _ _ _ _ v0 ubegin ucont.
Definition pstate := cstate V upc uop ures Empty_set.
Definition pstep : pstate -> clabel uop -> option pstate := cstep puser.
Definition pinit : pstate := cinit puser.

(** Specification: the call of [f] that has not returned yet. *)
Fixpoint upend (h : list (cevent uop ures Empty_set)) (f : fid) : option uop :=
  match h with
  | [] => None
  | CCall g o :: h' => if Nat.eqb g f then Some o else upend h' f
  | CRet g _ _ :: h' => if Nat.eqb g f then None else upend h' f
  | CX _ _ :: h' => upend h' f
  end.
End PredWait.
Arguments ULock {V}. Arguments UUnlock {V}. Arguments UNotify {V}. Arguments UWrite {V}. Arguments UWait {V}. Arguments UWaitUntil {V}.
Arguments PSimple {V}. Arguments PWaitP {V}. Arguments PWaitU {V}. Arguments upend {V}.
