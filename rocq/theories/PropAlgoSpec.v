(** Specification vocabulary for properties and scheduling algorithms, read from the log alone. *)
From Coq Require Import List Arith Bool.
From Verif Require Import Base PropAlgo.
Import ListNotations.

(** The algorithm of the thread. *)
Fixpoint current (l : list event) : nat := match l with [] => 0 | EAlgo a _ :: _ => a | _ :: r => current r end.
(** The algorithm that has fiber c in its ready queue. *)
Fixpoint holder (l : list event) (c : nat) : option nat :=
  match l with
  | [] => None
  | EReady a d :: r => if Nat.eqb d c then Some a else holder r c
  | EPicked a d :: r => if Nat.eqb d c then None else holder r c
  | _ :: r => holder r c
  end.
(** Every call with a property object reaches an algorithm that works with objects of that type; a change is reported to the algorithm of the thread, which has the fiber in its ready queue; no destroyed algorithm is called and algo_ is set. *)
Fixpoint legal (l : list event) : Prop :=
  match l with
  | [] => True
  | e :: r => match e with
              | EAwakened a c t => In (EAlgo a (With t)) r
              | EChange a c t => In (EAlgo a (With t)) r /\ current r = a /\ holder r c = Some a
              | EFreed _ _ | ENoAlgo _ => False
              | _ => True
              end /\ legal r
  end.
(** All algorithms and all property objects given to new fibers are for the type t. *)
Definition only (t : nat) (l : label) : Prop :=
  match l with New _ (Some u) => u = t | SetAlgo k _ => k = With t | _ => True end.
