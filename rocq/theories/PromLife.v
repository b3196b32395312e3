(** Model: the lifetime of a promise (future/promise.hpp:55-59, 123-128, future/detail/shared_state.hpp:46-61, 83-86, 112-115, 148-152, 166-173, 185-192, 212-220, future/future.hpp:306-311). One promise; fiber 0 calls set_value(), any number of other fibers have copies of the shared_future and call get(); a fiber whose get() has returned may destroy the promise. Fibers on any number of threads, they do not migrate.
    Simplified: mtx_ of the shared state is taken in one step if it is free; a fiber that finds it taken may give up the processor and try again when it is resumed. The reference count is the number of objects that refer to the shared state (C35). What a fiber does after an access to a destroyed object is not defined; the model records the access and goes on. *)
From Coq Require Import List Arith Bool.
From Verif Require Import Base.
Import ListNotations.

(** Newest first. *)
Inductive event :=
  | ESet               (* set_value() is called *)
  | EStored            (* ready_ = true *)
  | ESetDone           (* set_value() returns *)
  | EGot (g : nat)     (* get() returns in g *)
  | EDestroy (g : nat) (* g begins to destroy the promise *)
  | EBad (f : nat).    (* f accesses the destroyed promise or the freed shared state *)
(** Fiber 0: [S0] before set_value(); [S1]: in set_value(), before mtx_.lock() (shared_state.hpp:213); [S2]: mtx_ locked, the value not yet stored; [S3]: stored, before lk.unlock() (49); [S4]: before waiters_.notify_all() (50); [S5]: set_value() has returned.
    Other fibers: [G0]: before get(); [G1]: before mtx_.lock() (218); [G2]: with mtx_ (185-187); [G3]: waits for waiters_; [G4]: get() has returned.
    Fibers that destroy the promise: [D1]: in owner_destroyed(), before mtx_.lock() (113); [D2]: with mtx_; [D3]: done. *)
Inductive pc := S0 | S1 | S2 | S3 | S4 | S5 | G0 | G1 | G2 | G3 | G4 | D1 | D2 | D3.
(** [prom]: the promise refers to the shared state. [gone]: the destructor of the promise has begun. [held]: the fibers that have a shared_future. *)
Record st := mkSt { fib : nat -> pc; run : nat -> option nat; mtx : option nat; ready : bool; prom : bool; gone : bool; held : list nat; log : list event }.
(** The fibers in [fs] have copies of the shared_future (promise.hpp:78-87, future.hpp:275-277). *)
Definition init_state (fs : list nat) : st := mkSt (fun f => if Nat.eqb f 0 then S0 else G0) (fun _ => None) None false true false fs [].
(** [Pick f]: f is resumed by its scheduler. [Yield f]: f gives up the processor, in the functions modelled only because mtx_ is taken. [Go f]: f makes its next step. [Destroy f]: f begins to destroy the promise. [Drop f]: f destroys its shared_future. *)
Inductive label := Pick (f : nat) | Yield (f : nat) | Go (f : nat) | Destroy (f : nat) | Drop (f : nat).

(** The last reference has gone and the shared state has been freed (shared_state.hpp:148-152). *)
Definition freed (s : st) : bool := negb (prom s) && match held s with [] => true | _ => false end.

Section M.
(** The thread of a fiber. *)
Context (thr : nat -> nat).
(** The fiber has the processor of its thread. *)
Definition runs (s : st) (f : nat) : bool := match run s (thr f) with Some g => Nat.eqb g f | None => false end.
(** An access to the shared state (model only). *)
Definition touch (s : st) (f : nat) : list event := if freed s then [EBad f] else [].
(** f goes on with [p]; new mtx_, ready_ and log (model only). *)
Definition put (s : st) (f : nat) (p : pc) (m : option nat) (r : bool) (es : list event) : st := mkSt (upd (fib s) f p) (run s) m r (prom s) (gone s) (held s) (es ++ log s).
(** f gives up the processor (model only). *)
Definition off (s : st) (f : nat) : st := mkSt (fib s) (upd (run s) (thr f) None) (mtx s) (ready s) (prom s) (gone s) (held s) (log s).
(** condition_variable::notify_all() (shared_state.hpp:50): the waiting fibers become ready. *)
Definition wake (m : nat -> pc) : nat -> pc := fun f => match m f with G3 => G1 | p => p end.

(** The next step of a fiber. *)
Definition go (s : st) (f : nat) : option st :=
  match fib s f with
  (* promise.hpp:123-127 *)
  | S0 => Some (put s f S1 (mtx s) (ready s) ((if gone s then [EBad f] else []) ++ [ESet]))
  | S1 => match mtx s with None => Some (put s f S2 (Some f) (ready s) (touch s f)) | Some _ => None end
  (* shared_state.hpp:166-172, 48 *)
  | S2 => Some (put s f S3 (mtx s) true (touch s f ++ [EStored]))
  | S3 => Some (put s f S4 None (ready s) (touch s f))
  | S4 => Some (mkSt (upd (wake (fib s)) f S5) (run s) (mtx s) (ready s) (prom s) (gone s) (held s) (ESetDone :: touch s f ++ log s))
  (* future.hpp:306-311 *)
  | G0 => if existsb (Nat.eqb f) (held s) then Some (put s f G1 (mtx s) (ready s) []) else None
  | G1 => match mtx s with None => Some (put s f G2 (Some f) (ready s) (touch s f)) | Some _ => None end
  (* shared_state.hpp:83-86 *)
  | G2 => if ready s then Some (put s f G4 None (ready s) (touch s f ++ [EGot f])) else Some (off (put s f G3 None (ready s) (touch s f)) f)
  (* promise.hpp:56-57, shared_state.hpp:53-60; ready_ is set *)
  | D1 => match mtx s with None => Some (put s f D2 (Some f) (ready s) (touch s f)) | Some _ => None end
  | D2 => Some (let s' := put s f D3 None (ready s) (touch s f) in mkSt (fib s') (run s') (mtx s') (ready s') false (gone s') (held s') (log s'))
  | _ => None
  end.

(** One step. *)
Definition step (s : st) (l : label) : option st :=
  match l with
  | Pick f => match run s (thr f), fib s f with
      | Some _, _ | _, G3 => None
      | None, _ => Some (mkSt (fib s) (upd (run s) (thr f) (Some f)) (mtx s) (ready s) (prom s) (gone s) (held s) (log s))
      end
  | Yield f => if runs s f then
      match fib s f, mtx s with
      | (S0 | S5 | G0 | G4 | D3), _ => Some (off s f)
      | (S1 | G1 | D1), Some _ => Some (off s f)
      | _, _ => None
      end else None
  | Go f => if runs s f then go s f else None
  (* promise.hpp:55-59 *)
  | Destroy f => if runs s f && negb (gone s) then
      match fib s f with
      | G4 | S5 => Some (mkSt (upd (fib s) f D1) (run s) (mtx s) (ready s) (prom s) true (held s) (EDestroy f :: log s))
      | _ => None
      end else None
  (* future.hpp:273 *)
  | Drop f => if runs s f then
      match fib s f with
      | G0 | G4 | D3 => Some (mkSt (fib s) (run s) (mtx s) (ready s) (prom s) (gone s) (remove Nat.eq_dec f (held s)) (log s))
      | _ => None
      end else None
  end.
End M.
