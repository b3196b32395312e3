(** Specification vocabulary for the shared state, read off the log (newest event first). *)
From Coq Require Import List Arith Bool.
From Verif Require Import Base Kernel Client SharedState.
Import ListNotations.

Section Spec.
Context {V E : Type}.
Notation event := (cevent (sop V E) (sres V E) (sx V E)).

(** The call of [f] that has not returned yet. *)
Fixpoint spend (h : list event) (f : fid) : option (sop V E) :=
  match h with
  | [] => None
  | CCall g o :: h' => if Nat.eqb g f then Some o else spend h' f
  | CRet g _ _ :: h' => if Nat.eqb g f then None else spend h' f
  | CX _ _ :: h' => spend h' f
  end.
(** The outcome stored (the oldest one; there is only one, see C29). *)
Fixpoint stored (h : list event) : option (outcome V E) :=
  match h with
  | [] => None
  | CX _ (XStore x) :: h' => match stored h' with Some y => Some y | None => Some x end
  | _ :: h' => stored h'
  end.
(** [f] has stored an outcome since its last call. *)
Fixpoint my_store (h : list event) (f : fid) : bool :=
  match h with
  | [] => false
  | CX g _ :: h' => if Nat.eqb g f then true else my_store h' f
  | CCall g _ :: h' => if Nat.eqb g f then false else my_store h' f
  | CRet _ _ _ :: h' => my_store h' f
  end.
(** The outcome that was stored when [f] made its last call. *)
Fixpoint stored_at_call (h : list event) (f : fid) : option (outcome V E) :=
  match h with
  | [] => None
  | CCall g _ :: h' => if Nat.eqb g f then stored h' else stored_at_call h' f
  | _ :: h' => stored_at_call h' f
  end.

(** The outcome a call stores. *)
Definition outcome_of (o : sop V E) : option (outcome V E) :=
  match o with
  | SetValue v => Some (OVal v)
  | SetExc x => Some (OExc (option_map User x))
  | OwnerDestroyed => Some (OExc (Some Broken))
  | _ => None
  end.
(** What get() gives for an outcome. A null exception_ptr leaves neither an exception nor a value. *)
Definition get_result (x : outcome V E) : sres V E :=
  match x with OVal v => RVal v | OExc (Some e) => RThrow e | OExc None => RUninit end.
Definition eptr_result (x : outcome V E) : sres V E :=
  match x with OVal _ => REPtr None | OExc e => REPtr e end.

(** What a call may return, given the history before the return. *)
Definition ret_ok (h : list event) (f : fid) (o : sop V E) (r : sres V E) (t : nat) : Prop :=
  match o with
  | SetValue _ | SetExc _ => (r = RVoid /\ my_store h f = true) \/ (r = RSatisfied /\ my_store h f = false /\ stored h <> None)
  | OwnerDestroyed => r = RVoid /\ stored h <> None
  | Get => exists x, stored h = Some x /\ r = get_result x
  | GetExc => exists x, stored h = Some x /\ r = eptr_result x
  | WaitS => stored h <> None /\ r = RReady
  | WaitUntilS tp => (r = RReady /\ stored h <> None) \/ (r = RTimedOut /\ tp <= t /\ stored_at_call h f = None)
  end.

(** All executions: outcomes are stored once, inside a call that stores this outcome; calls return what [ret_ok] says. *)
Fixpoint shared_ok (h : list event) : Prop :=
  match h with
  | [] => True
  | CCall f _ :: h' => spend h' f = None /\ shared_ok h'
  | CX f (XStore x) :: h' => stored h' = None /\ (exists o, spend h' f = Some o /\ outcome_of o = Some x) /\ shared_ok h'
  | CRet f r t :: h' => (exists o, spend h' f = Some o /\ ret_ok h' f o r t) /\ shared_ok h'
  end.
End Spec.
