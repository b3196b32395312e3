(** Specification vocabulary for the channel iterators. *)
From Coq Require Import List Arith Bool.
From Verif Require Import Base Iter.
Import ListNotations.

(** How often object n was destroyed. *)
Fixpoint destroyed (lg : list event) (n : nat) : nat :=
  match lg with
  | [] => 0
  | EDestroy m :: lg' => (if n =? m then 1 else 0) + destroyed lg' n
  | _ :: lg' => destroyed lg' n
  end.
(** What value_pop() gave iterator i last. *)
Fixpoint last_pop (lg : list event) (i : nat) : option (option nat) :=
  match lg with
  | [] => None
  | EPop j o :: lg' => if i =? j then Some o else last_pop lg' i
  | _ :: lg' => last_pop lg' i
  end.
(** The loop for ( T & x : chan) over a channel that gives the values vs and is then closed: begin(), test, body reads x, ++, ... *)
Fixpoint rest (i : nat) (vs : list nat) : list label :=
  match vs with
  | [] => [Inc i None; IsEnd i]
  | v :: vs' => [Inc i (Some v); IsEnd i; Deref i] ++ rest i vs'
  end.
Definition loop (i : nat) (vs : list nat) : list label :=
  match vs with
  | [] => [Begin i None; IsEnd i; Drop i]
  | v :: vs' => [Begin i (Some v); IsEnd i; Deref i] ++ rest i vs' ++ [Drop i]
  end.
(** What the body of the loop sees. *)
Fixpoint reads (lg : list event) : list nat :=
  match lg with
  | [] => []
  | ERead _ v :: lg' => reads lg' ++ [v]
  | _ :: lg' => reads lg'
  end.
Definition constructed (lg : list event) (n : nat) : Prop := exists v, In (EConstruct n v) lg.
