(** Model: the iterators of buffered_channel and unbuffered_channel (buffered_channel.hpp:357-441, unbuffered_channel.hpp:393-476; the same code but for the wording of operator=), any number of iterator objects over one channel. What value_pop() returns is a choice of the label: a value, or it throws because the channel is closed (the channels themselves: Buffered, Unbuffered).
    The objects constructed in storage_ are numbered; events record construction, destruction and access. Destroying or accessing storage that holds no object is recorded too. Simplified: constructors and destructors of value_type do not throw. *)
From Coq Require Import List Arith Bool.
From Verif Require Import Base.
Import ListNotations.

(** storage_: raw memory or object n holding value v, which may have been destroyed. *)
Inductive slot := Raw | Obj (n v : nat) (alive : bool).
(** Newest first. *)
Inductive event :=
  | EPop (i : nat) (o : option nat)          (* value_pop() returns a value or throws, for iterator i *)
  | EConstruct (n v : nat)
  | EDestroy (n : nat)
  | EDestroyRaw (i : nat)                    (* destructor called on raw memory *)
  | ERead (i : nat) (v : nat)                (* operator* gives object with value v *)
  | EReadBad (i : nat)                       (* operator* gives raw memory or a destroyed object *)
  | ECompare (i : nat) (b : bool)            (* i == end() *)
  | EAssert (i : nat).                       (* BOOST_ASSERT( nullptr != chan_) fails *)
Record st := mkSt {
  exists_ : nat -> bool;          (* the iterator object exists *)
  chan : nat -> bool;             (* chan_ is not nullptr *)
  sto : nat -> slot;              (* storage_ *)
  next : nat;
  log : list event
}.
Inductive label :=
  | Begin (i : nat) (o : option nat)     (* begin( chan); value_pop() gives o *)
  | End (i : nat)                        (* end( chan) *)
  | Copy (i j : nat)                     (* copy i to the new object j *)
  | Assign (i j : nat)                   (* j = i *)
  | Inc (i : nat) (o : option nat)       (* ++i *)
  | Deref (i : nat)
  | IsEnd (i : nat)                      (* i == end( chan) *)
  | Drop (i : nat).                      (* the iterator object is destroyed *)

(** The destructor call on storage_ of iterator i: buffered_channel.hpp:368, 412; unbuffered_channel.hpp:404, 447. *)
Definition destroy (s : st) (i : nat) : st :=
  match sto s i with
  | Raw => mkSt (exists_ s) (chan s) (sto s) (next s) (EDestroyRaw i :: log s)
  | Obj n v _ => mkSt (exists_ s) (chan s) (upd (sto s) i (Obj n v false)) (next s) (EDestroy n :: log s)
  end.
(** Lines 370-373 / 406-409. *)
Definition pop_into (s : st) (i : nat) (o : option nat) : st :=
  match o with
  | Some v => mkSt (exists_ s) (chan s) (upd (sto s) i (Obj (next s) v true)) (S (next s)) (EConstruct (next s) v :: EPop i o :: log s)
  | None => mkSt (exists_ s) (upd (chan s) i false) (sto s) (next s) (EPop i o :: log s)
  end.
(** increment_(): 364-374 / 400-410. *)
Definition increment (s : st) (i : nat) (initial : bool) (o : option nat) : st :=
  if chan s i then pop_into (if initial then s else destroy s i) i o
  else mkSt (exists_ s) (chan s) (sto s) (next s) (EAssert i :: log s).
Definition step (s : st) (l : label) : option st :=
  match l with
  | Begin i o => (* 387-390, 433-435 / 423-426, 468-470 *)
      if exists_ s i then None
      else Some (increment (mkSt (upd (exists_ s) i true) (upd (chan s) i true) (upd (sto s) i Raw) (next s) (log s)) i true o)
  | End i => (* 385, 439-441 / 421, 474-476 *)
      if exists_ s i then None else Some (mkSt (upd (exists_ s) i true) (upd (chan s) i false) (upd (sto s) i Raw) (next s) (log s))
  | Copy i j => (* 392-394 / 428-430: storage_ is not copied *)
      if negb (exists_ s i) || exists_ s j then None
      else Some (mkSt (upd (exists_ s) j true) (upd (chan s) j (chan s i)) (upd (sto s) j Raw) (next s) (log s))
  | Assign i j => (* 396-401 / 432-436 *)
      if exists_ s i && exists_ s j then Some (mkSt (exists_ s) (upd (chan s) j (chan s i)) (sto s) (next s) (log s)) else None
  | Inc i o => (* 411-415 / 446-450 *)
      if exists_ s i then Some (increment (destroy s i) i false o) else None
  | Deref i => (* 419-425 / 454-460 *)
      if exists_ s i then Some (mkSt (exists_ s) (chan s) (sto s) (next s) ((match sto s i with Obj _ v true => ERead i v | _ => EReadBad i end) :: log s)) else None
  | IsEnd i => (* 403-409 / 438-444 *)
      if exists_ s i then Some (mkSt (exists_ s) (chan s) (sto s) (next s) (ECompare i (negb (chan s i)) :: log s)) else None
  | Drop i => (* the class has no destructor, storage_ is raw bytes *)
      if exists_ s i then Some (mkSt (upd (exists_ s) i false) (chan s) (sto s) (next s) (log s)) else None
  end.
Definition init_state : st := mkSt (fun _ => false) (fun _ => false) (fun _ => Raw) 0 [].
