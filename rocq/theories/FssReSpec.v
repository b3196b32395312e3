(** Specification of fiber-local storage for one fiber over the record of calls (newest first); uses the type of events of FssRe only. *)
From Coq Require Import List Arith Bool.
From Verif Require Import FssRe.
Import ListNotations.

Definition is (v : option nat) (o : nat) : nat := match v with Some x => if x =? o then 1 else 0 | None => 0 end.
(** How often object o was stored in pointer k (storing what is already there is no store), released from k, and handed to the cleanup function of k. *)
Fixpoint stores (lg : list event) (k o : nat) : nat :=
  match lg with
  | [] => 0
  | EReset k' c t :: lg' => (if k =? k' then is t o - is c o else 0) + stores lg' k o
  | _ :: lg' => stores lg' k o
  end.
Fixpoint releases (lg : list event) (k o : nat) : nat :=
  match lg with
  | [] => 0
  | ERelease k' r :: lg' => (if k =? k' then is r o else 0) + releases lg' k o
  | _ :: lg' => releases lg' k o
  end.
Fixpoint cleaned (lg : list event) (k o : nat) : nat :=
  match lg with
  | [] => 0
  | ECleanup k' v :: lg' => (if k =? k' then is v o else 0) + cleaned lg' k o
  | _ :: lg' => cleaned lg' k o
  end.
(** Every object that was stored has been cleaned up or released, as often as it was stored. *)
Definition balanced (lg : list event) : Prop := forall k o, stores lg k o = cleaned lg k o + releases lg k o.
(** The value last stored in k and not given up. *)
Fixpoint stored (lg : list event) (k : nat) : option nat :=
  match lg with
  | [] => None
  | EReset k' _ t :: lg' => if k =? k' then t else stored lg' k
  | ERelease k' _ :: lg' => if k =? k' then None else stored lg' k
  | EExit :: lg' => None
  | _ :: lg' => stored lg' k
  end.
(** What get() and release() return is what was last stored. *)
Fixpoint answers (lg : list event) : Prop :=
  match lg with
  | [] => True
  | EGet k r :: lg' | ERelease k r :: lg' => r = stored lg' k /\ answers lg'
  | _ :: lg' => answers lg'
  end.

(** Disciplines for cleanup functions. *)
Definition body_t := nat -> option nat -> list op.
(** They call reset() and release() only for pointer objects at higher addresses, and do not throw. *)
Definition upwards (b : body_t) : Prop :=
  forall k v o, In o (b k v) -> match o with OReset j _ | ORelease j => k < j | OGet _ => True | OThrow => False end.
(** They never take a pointer object's value away (they only call get() and reset() with an object), and do not throw. *)
Definition only_stores (b : body_t) : Prop :=
  forall k v o, In o (b k v) -> match o with OReset _ (Some _) | OGet _ => True | _ => False end.
(** Addresses that occur in calls are below K. *)
Definition below (K : nat) (os : list op) : Prop :=
  forall o, In o os -> match o with OReset j _ | ORelease j => j < K | _ => True end.
Definition no_throw (os : list op) : Prop := ~ In OThrow os.
(** They call get() for pointer objects at higher addresses only. *)
Definition looks_up (b : body_t) : Prop := forall k v j, In (OGet j) (b k v) -> k < j.
(** get() returns only objects that have been stored more often than cleaned up and released: no pointer to an object that has been destroyed. *)
Fixpoint live (lg : list event) : Prop :=
  match lg with
  | [] => True
  | EGet k (Some o) :: lg' => cleaned lg' k o + releases lg' k o < stores lg' k o /\ live lg'
  | _ :: lg' => live lg'
  end.
