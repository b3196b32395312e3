(** Model: what happens before what when fibers synchronize with a shared state: set_value(), set_exception(), owner_destroyed(), get(), wait(), wait_until() (future/detail/shared_state.hpp:47-217; future/future.hpp: the value is moved out after get() of the shared state has returned). Future.v and its companions are the classes.
    [view], the views of the spinlocks and the simplifications are those of MutexHb.v: mtx_ and waiters_ without their queues, a suspended fiber may be resumed at any time and the wakeup adds nothing to its view. The copy of the value does not throw. Destruction of the shared state is not modelled here (RefCount.v). *)
From Coq Require Import List Arith Bool.
From Verif Require Import Base MutexHb.
Import ListNotations.

(** The result: a value or an exception. *)
Inductive res := RVal (v : nat) | RExc (x : nat).
(** get(), wait(), wait_until(). *)
Inductive mode := MGet | MWait | MUntil.
(** Setters: [SLock]: line 204 (209, 117, 112), [SBody]: lines 164-167 and 49 (65-68 and 49), [SUnl]: line 50 or, after the exception, the destructor of lk, [SNot]: line 51.
    Getters: [GLock]: line 214 (127, 139), [GPred]: the predicate of line 80 (96), [GWait]: condition_variable.hpp:73-75, [GSusp]: suspended there, [GRelock]: condition_variable.hpp:79, 114, [GUnl]: the destructor of lk, [GRead]: the caller of get() accesses the value. b: the deadline has passed. *)
Inductive fpc := FIdle | SLock (r : res) | SBody (r : res) | SUnl (ok : bool) | SNot | GLock (m : mode) | GPred (m : mode) (b : bool) | GWait (m : mode) | GSusp (m : mode) | GRelock (m : mode) (b : bool) | GUnl (m : mode) (b : bool) | GRead.
(** Newest first. [FAct t n]: action n of t; [FSet t r]: the setter of t has stored r; [FThrow t]: promise_already_satisfied; [FReady t w]: wait() or wait_until() returns ready, w: the actions that happen before; [FTime t]: timeout; [FGot t r w]: t has got r; [FRace t]: data race. *)
Inductive fevent := FAct (t n : nat) | FSet (t : nat) (r : res) | FThrow (t : nat) | FReady (t : nat) (w : list nat) | FTime (t : nat) | FGot (t : nat) (r : res) (w : list nat) | FRace (t : nat).
(** ready_ with storage_ or except_ (lines 44-45, 160); the accesses to ready_ and except_; the writes and the reads of storage_; owner_ of mtx_; the views of the spinlocks of mtx_ and waiters_. *)
Record fst := mkF { ready : option res; facc : list nat; swr : list nat; srd : list nat; fown : option nat; fmv : list nat; fcv : list nat; fview : nat -> list nat; fnext : nat; fpcs : nat -> fpc; flog : list fevent }.
(** [FSetC t r], [FGetC t m]: calls; [FWake t]: t is resumed; [FTimeout t]: by the deadline. *)
Inductive flabel := LAct (t : nat) | FSetC (t : nat) (r : res) | FGetC (t : nat) (m : mode) | FRun (t : nat) | FWake (t : nat) | FTimeout (t : nat).
(** Lines 39-45. *)
Definition finit : fst := mkF None [] [] [] None [] [] (fun _ => []) 0 (fun _ => FIdle) [].
(** Model only: t goes on at p with view w; the owner and the views of the spinlocks become o, m, c. *)
Definition fgo (s : fst) (t : nat) (p : fpc) (o : option nat) (m c w : list nat) (e : list fevent) : fst :=
  mkF (ready s) (facc s) (swr s) (srd s) o m c (upd (fview s) t w) (fnext s) (upd (fpcs s) t p) (e ++ flog s).
(** mtx_.lock() (mutex.cpp:29-40). *)
Definition flock (s : fst) (t : nat) (p : fpc) : fst :=
  let w := fmv s ++ fview s t in
  match fown s with None => fgo s t p (Some t) w (fcv s) w [] | Some _ => fgo s t (fpcs s t) (fown s) w (fcv s) w [] end.
(** mtx_.unlock() (mutex.cpp:65-73). *)
Definition funlock (s : fst) (t : nat) (p : fpc) (e : list fevent) : fst :=
  let w := fmv s ++ fview s t in fgo s t p None w (fcv s) w e.
(** Model only: a data race. *)
Definition frace (s : fst) (t : nat) : fst := mkF (ready s) (facc s) (swr s) (srd s) (fown s) (fmv s) (fcv s) (fview s) (fnext s) (upd (fpcs s) t FIdle) (FRace t :: flog s).
(** Model only: t accesses ready_ and except_. *)
Definition ftest (s : fst) (t : nat) (p : fpc) : fst :=
  if ordered (facc s) (fview s t) then mkF (ready s) (fnext s :: facc s) (swr s) (srd s) (fown s) (fmv s) (fcv s) (upd (fview s) t (fnext s :: fview s t)) (S (fnext s)) (upd (fpcs s) t p) (flog s)
  else frace s t.
(** Lines 167, 49 (68, 49). *)
Definition fstore (s : fst) (t : nat) (r : res) (p : fpc) : fst :=
  if ordered (facc s ++ swr s ++ srd s) (fview s t)
  then mkF (Some r) (fnext s :: facc s) (fnext s :: swr s) (srd s) (fown s) (fmv s) (fcv s) (upd (fview s) t (fnext s :: fview s t)) (S (fnext s)) (upd (fpcs s) t p) (FSet t r :: flog s)
  else frace s t.
(** One step. *)
Definition fstep (s : fst) (l : flabel) : option fst :=
  match l with
  | LAct t => match fpcs s t with FIdle => Some (mkF (ready s) (facc s) (swr s) (srd s) (fown s) (fmv s) (fcv s) (upd (fview s) t (fnext s :: fview s t)) (S (fnext s)) (fpcs s) (FAct t (fnext s) :: flog s)) | _ => None end
  | FSetC t r => match fpcs s t with FIdle => Some (fgo s t (SLock r) (fown s) (fmv s) (fcv s) (fview s t) []) | _ => None end
  | FGetC t m => match fpcs s t with FIdle => Some (fgo s t (GLock m) (fown s) (fmv s) (fcv s) (fview s t) []) | _ => None end
  | FWake t => match fpcs s t with GSusp m => Some (fgo s t (GRelock m false) (fown s) (fmv s) (fcv s) (fview s t) []) | _ => None end
  (* src/waker.cpp:35-46 *)
  | FTimeout t => match fpcs s t with GSusp MUntil => let w := fcv s ++ fview s t in Some (fgo s t (GRelock MUntil true) (fown s) (fmv s) w w []) | _ => None end
  | FRun t => match fpcs s t with
      | SLock r => Some (flock s t (SBody r))
      | SBody r => Some (match ready s with Some _ => ftest s t (SUnl false) | None => fstore s t r (SUnl true) end)
      | SUnl ok => Some (if ok then funlock s t SNot [] else funlock s t FIdle [FThrow t])
      | SNot => let w := fcv s ++ fview s t in Some (fgo s t FIdle (fown s) (fmv s) w w [])
      | GLock m => Some (flock s t (GPred m false))
      | GPred m b => Some (ftest s t (match ready s with Some _ => GUnl m true | None => if b then GUnl m false else GWait m end))
      | GWait m => let w := fcv s ++ fmv s ++ fview s t in Some (fgo s t (GSusp m) None w w w [])
      | GRelock m b => Some (flock s t (GPred m b))
      | GUnl m b => let w := fmv s ++ fview s t in
          Some (if b then match m with MGet => funlock s t GRead [] | _ => funlock s t FIdle [FReady t w] end else funlock s t FIdle [FTime t])
      | GRead => match ready s with
          | Some r => Some (if ordered (swr s) (fview s t)
              then mkF (ready s) (facc s) (swr s) (fnext s :: srd s) (fown s) (fmv s) (fcv s) (upd (fview s) t (fnext s :: fview s t)) (S (fnext s)) (upd (fpcs s) t FIdle) (FGot t r (fview s t) :: flog s)
              else frace s t)
          | None => Some (frace s t) end
      | _ => None end
  end.
