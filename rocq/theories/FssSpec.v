(** Specification of fiber-local storage over the record of calls (newest first). *)
From Coq Require Import List Arith Bool.
From Verif Require Import Fss.
Import ListNotations.

(** The value that fiber f last stored in pointer p and did not give up. *)
Fixpoint stored (lg : list event) (f p : nat) : option nat :=
  match lg with
  | [] => None
  | EReset f' p' v :: lg' => if (f =? f') && (p =? p') then v else stored lg' f p
  | ERelease f' p' _ :: lg' | EDelete f' p' :: lg' => if (f =? f') && (p =? p') then None else stored lg' f p
  | EExit f' :: lg' => if f =? f' then None else stored lg' f p
  | _ :: lg' => stored lg' f p
  end.
Fixpoint ended (lg : list event) (f : nat) : bool :=
  match lg with
  | [] => false
  | EExit f' :: lg' | EMainEnd f' :: lg' => (f =? f') || ended lg' f
  | _ :: lg' => ended lg' f
  end.
(** Documented requirement of the destructor: except for the calling fiber, no fiber (that still runs) has a value in the pointer. *)
Fixpoint respects (lg : list event) : Prop :=
  match lg with
  | [] => True
  | EDelete f p :: lg' => (forall f', f' <> f -> ended lg' f' = false -> stored lg' f' p = None) /\ respects lg'
  | _ :: lg' => respects lg'
  end.
Definition is (v : option nat) (o : nat) : nat := match v with Some x => if x =? o then 1 else 0 | None => 0 end.
(** How often fiber f stored object o in p (storing what is already there is no store), released it from p, and the cleanup function of p was called for it by f. *)
Fixpoint stores (lg : list event) (f p o : nat) : nat :=
  match lg with
  | [] => 0
  | EReset f' p' v :: lg' => (if (f =? f') && (p =? p') then is v o - is (stored lg' f p) o else 0) + stores lg' f p o
  | _ :: lg' => stores lg' f p o
  end.
Fixpoint releases (lg : list event) (f p o : nat) : nat :=
  match lg with
  | [] => 0
  | ERelease f' p' r :: lg' => (if (f =? f') && (p =? p') then is r o else 0) + releases lg' f p o
  | _ :: lg' => releases lg' f p o
  end.
Fixpoint cleaned (lg : list event) (f p o : nat) : nat :=
  match lg with
  | [] => 0
  | ECleanup f' p' v :: lg' => (if (f =? f') && (p =? p') then is v o else 0) + cleaned lg' f p o
  | _ :: lg' => cleaned lg' f p o
  end.
(** No release() and no destruction of a pointer by a fiber that has no value in it. *)
Fixpoint gives_up_values_only (lg : list event) : Prop :=
  match lg with
  | [] => True
  | ERelease f p _ :: lg' | EDelete f p :: lg' => stored lg' f p <> None /\ gives_up_values_only lg'
  | _ :: lg' => gives_up_values_only lg'
  end.
