(** Model: code written on top of one mutex and one condition variable.

    Used for barrier (barrier.cpp), the waits with predicate (condition_variable.hpp:87-91, 120-128) and the
    shared state of futures (future/detail/shared_state.hpp).  Such code is a sequence of calls of the machine of CondVar.v
    with accesses to shared data in between.  This file describes no particular code of /repo; it says how fibers run
    such code: a fiber that has returned from a call of CondVar.v runs the code up to its next call in one step. *)
From Coq Require Import List Arith Bool.
From Verif Require Import Base Kernel CondVar CondVarSpec.
Import ListNotations.

(** The result of the last call of CondVar.v that fiber [f] has returned from. *)
Fixpoint last_res (h : list event) (f : fid) : res :=
  match h with
  | [] => ROk
  | ERet g _ r _ :: h' => if Nat.eqb g f then r else last_res h' f
  | _ :: h' => last_res h' f
  end.

(** What a piece of code does at its end: call lock()/unlock()/wait()/... and continue at [p], or return [r] to the user. *)
Inductive act (P R : Type) := ACall (o : op) (p : P) | ARet (r : R).
Arguments ACall {P R}. Arguments ARet {P R}.

(** D: shared data; P: program points with local variables; O, R: the user's calls and their results; X: further log events. *)
Record client (D P O R X : Type) := mkClient {
  d0 : D;
  begin : bool -> D -> O -> option (D * list X * act P R);  (* from the call on; the flag: does the caller own the mutex *)
  cont : D -> P -> res -> D * list X * act P R              (* from program point P on, given the result of the call *)
}.
Arguments d0 {D P O R X}. Arguments begin {D P O R X}. Arguments cont {D P O R X}.

Inductive cevent (O R X : Type) := CCall (f : fid) (o : O) | CRet (f : fid) (r : R) (at_ : nat) | CX (f : fid) (x : X).
Arguments CCall {O R X}. Arguments CRet {O R X}. Arguments CX {O R X}.

Record cstate (D P O R X : Type) := mkC {
  cv : CondVar.state;
  dat : D;
  cpc : fid -> option P;
  clog : list (cevent O R X)
}.
Arguments mkC {D P O R X}. Arguments cv {D P O R X}. Arguments dat {D P O R X}. Arguments cpc {D P O R X}. Arguments clog {D P O R X}.

Inductive clabel (O : Type) := CLCall (f : fid) (o : O) | CLCont (f : fid) | CLCv (l : CondVar.label).
Arguments CLCall {O}. Arguments CLCont {O}. Arguments CLCv {O}.

Section Machine.
Context {D P O R X : Type}.
Variable c : client D P O R X.

Definition cinit : cstate D P O R X := mkC CondVar.init (d0 c) (fun _ => None) [].

Definition do_act (s : cstate D P O R X) (f : fid) (x : D * list X * act P R) (ev : list (cevent O R X)) : option (cstate D P O R X) :=
  let '(d, xs, a) := x in
  let h := map (CX f) xs ++ ev ++ clog s in
  match a with
  | ACall o p =>
      match CondVar.step (cv s) (CondVar.LCall f o) with
      | Some v => Some (mkC v d (upd (cpc s) f (Some p)) h)
      | None => None
      end
  | ARet r => Some (mkC (cv s) d (upd (cpc s) f None) (CRet f r (now (kn (cv s))) :: h))
  end.

Definition can_go (s : cstate D P O R X) (f : fid) : bool :=
  running (fib (kn (cv s)) f) && match pcs (cv s) f with Idle => true | _ => false end.

(** Steps inside CondVar.v: calls are made by the code only, and a fiber yields only between its calls. *)
Definition allowed (s : cstate D P O R X) (l : CondVar.label) : bool :=
  match l with
  | CondVar.LCall _ _ => false
  | CondVar.LYield f => match cpc s f with None => true | Some _ => false end
  | _ => true
  end.

Definition cstep (s : cstate D P O R X) (l : clabel O) : option (cstate D P O R X) :=
  match l with
  | CLCall f o =>
      match cpc s f with
      | Some _ => None
      | None => if can_go s f then
                  match begin c (is_owner (mx (cv s)) f) (dat s) o with
                  | Some x => do_act s f x [CCall f o]
                  | None => None
                  end
                else None
      end
  | CLCont f =>
      match cpc s f with
      | None => None
      | Some p => if can_go s f then do_act s f (cont c (dat s) p (last_res (log (cv s)) f)) [] else None
      end
  | CLCv l =>
      if allowed s l then
        match CondVar.step (cv s) l with
        | Some v => Some (mkC v (dat s) (cpc s) (clog s))
        | None => None
        end
      else None
  end.
End Machine.
