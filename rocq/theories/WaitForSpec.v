(** Specification vocabulary for waitfor_all(). *)
From Coq Require Import List Arith Bool.
From Verif Require Import Base WaitFor.
Import ListNotations.

(** Executions in which waitfor_all() returns only when no callback is between unlock() and notify_one(). *)
Definition s_calm (st : nat) (s : sst) (l : slabel) : option sst :=
  match l, s_cb s with
  | SCheck, CNotify => None
  | _, _ => s_step st s l
  end.
(** Executions in which every registration succeeds, no callback runs before the constructor has returned, and waitfor_all() returns only when no callback is between unlock() and notify_one(). *)
Definition m_calm (l0 : list nat) (s : mst) (l : mlabel) : option mst :=
  match l with
  | MReg (Some _) => None
  | MCb _ _ => match m_ph s with MWait | MBlock => m_step s l | _ => None end
  | MCheck => if existsb (fun st => match m_cb s st with CNotify => true | _ => false end) l0 then None else m_step s l
  | _ => m_step s l
  end.
