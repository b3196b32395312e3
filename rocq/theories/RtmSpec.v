(** Specification vocabulary for lock elision: a machine with ordinary locks, where everything happens in one order. *)
From Coq Require Import List Arith Bool.
From Verif Require Import Base Rtm.
Import ListNotations.

(** Data and the owner of each lock. *)
Definition plain := ((nat -> nat) * (nat -> option nat))%type.
(** A lock is acquired only while nobody has it and released only by its owner; a read returns the value written last. *)
Definition plain_step (p : plain) (e : event) : option plain :=
  let (d, o) := p in
  match e with
  | EAcq t l => match o l with None => Some (d, upd o l (Some t)) | Some _ => None end
  | ERel t l => match o l with Some u => if Nat.eqb u t then Some (d, upd o l None) else None | None => None end
  | ERead _ a v => if Nat.eqb (d a) v then Some p else None
  | EWrite _ a v => Some (upd d a v, o)
  | ETryFail _ _ => Some p
  end.
(** A history (newest first) of the machine with ordinary locks, and where it leads. *)
Fixpoint plain_run (p : plain) (log : list event) : option plain :=
  match log with
  | [] => Some p
  | e :: log' => match plain_run p log' with Some q => plain_step q e | None => None end
  end.
Definition plain_init : plain := (fun _ => 0, fun _ => None).
Definition legal (log : list event) : Prop := plain_run plain_init log <> None.
