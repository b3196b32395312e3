(** Specification vocabulary for the ownership of a fiber: how often an object has been made and destroyed, read from the log alone. *)
From Coq Require Import List Arith Bool.
From Verif Require Import Base FiberMake.
Import ListNotations.

(** Equality of objects. *)
Definition res_eqb (a b : res) : bool :=
  match a, b with
  | Stack, Stack | MemFn, MemFn | LocFn, LocFn => true
  | MemArg i, MemArg j | LocArg i, LocArg j | Props i, Props j => Nat.eqb i j
  | _, _ => false
  end.
(** Is e the construction (destruction) of r? *)
Definition is_made (r : res) (e : event) : bool := match e with Made q => res_eqb q r | _ => false end.
Definition is_gone (r : res) (e : event) : bool := match e with Gone q => res_eqb q r | _ => false end.
(** How often r has been made (destroyed). *)
Definition made (r : res) (l : list event) : nat := length (filter (is_made r) l).
Definition gone (r : res) (l : list event) : nat := length (filter (is_gone r) l).
(** No object of the log l is left. *)
Definition nothing_left (l : list event) : Prop := forall r, gone r l = made r l.
(** The fiber or its creation is over. *)
Definition over (s : st) : Prop := freed s = true \/ exists k, at_ s = Failed k.
(** Objects that hold a copy of what the caller has passed. *)
Definition is_copy (r : res) : bool := match r with MemFn | MemArg _ | LocFn | LocArg _ => true | _ => false end.
