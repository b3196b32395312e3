(** Model: detail::spinlock_ttas and detail::spinlock_ttas_adaptive (spinlock_ttas.hpp, spinlock_ttas_adaptive.hpp), any number of threads, every access to state_ one step.
    Memory orders: [view] is the set of critical sections that happen before the next action of a thread, [mview] the set a release operation has attached to the present value of state_. An acquire operation adds [mview] to the view of the thread; a release store sets [mview] to the view of the thread; a read-modify-write operation continues the release sequence, i.e. keeps [mview]. A relaxed load may return any value state_ ever had.
    Simplified: the delays between two loads (cpu_relax, sleep_for, yield) and the random back-off (lines 58-83, 91-99) have no effect on shared data and are left out, so is retries_ of the adaptive variant (see Adaptive.v). *)
From Coq Require Import List Arith Bool.
From Verif Require Import Base.
Import ListNotations.

(** [Test]: about to load, spinlock_ttas.hpp:57, adaptive :63. [Xchg]: about to exchange, :87, adaptive :93. [Try]: :108, adaptive :115. [Inside n]: has the lock, critical section number n. *)
Inductive pc_t := Out | Test | Xchg | Try | Inside (n : nat).
(** Newest first. [v]: the critical sections that happen before this one. *)
Inductive event :=
  | EAcquire (t n : nat) (v : list nat)   (* lock() returns or try_lock() returns true *)
  | ETryFail (t : nat)
  | ERelease (t n : nat).                 (* unlock() is called *)

Record st := mkSt {
  locked : bool;                (* state_ *)
  hist : list bool;             (* all values of state_ so far *)
  mview : list nat;
  view : nat -> list nat;
  next : nat;                   (* ghost: number of the next critical section *)
  pc : nat -> pc_t;
  log : list event
}.
Inductive label :=
  | Lock (t : nat)              (* call of lock() *)
  | TryLock (t : nat)           (* call of try_lock() *)
  | Load (t : nat) (b : bool)   (* relaxed load, returns b *)
  | Go (t : nat)                (* exchange *)
  | Unlock (t : nat).           (* unlock(), only by the holder *)

Definition with_pc (s : st) (t : nat) (p : pc_t) : st := mkSt (locked s) (hist s) (mview s) (view s) (next s) (upd (pc s) t p) (log s).
(** state_.exchange( locked, acquire): spinlock_ttas.hpp:87, 108, adaptive :93, 115. [p], [e]: where the thread goes and what is recorded if it was locked. *)
Definition exchange (s : st) (t : nat) (p : pc_t) (e : list event) : st :=
  let v := view s t ++ mview s in
  if locked s
  then mkSt true (true :: hist s) (mview s) (upd (view s) t v) (next s) (upd (pc s) t p) (e ++ log s)
  else mkSt true (true :: hist s) (mview s) (upd (view s) t v) (S (next s)) (upd (pc s) t (Inside (next s))) (EAcquire t (next s) v :: log s).
(** spinlock_ttas.hpp:42-113, spinlock_ttas_adaptive.hpp:43-120 *)
Definition step (s : st) (l : label) : option st :=
  match l with
  | Lock t => match pc s t with Out => Some (with_pc s t Test) | _ => None end
  | TryLock t => match pc s t with Out => Some (with_pc s t Try) | _ => None end
  | Load t b => match pc s t with Test => if existsb (Bool.eqb b) (hist s) then Some (with_pc s t (if b then Test else Xchg)) else None | _ => None end
  | Go t => match pc s t with Xchg => Some (exchange s t Test []) | Try => Some (exchange s t Out [ETryFail t]) | _ => None end
  | Unlock t =>
      match pc s t with
      | Inside n => (* state_.store( unlocked, release): :112, adaptive :119 *)
          let v := n :: view s t in
          Some (mkSt false (false :: hist s) v (upd (view s) t v) (next s) (upd (pc s) t Out) (ERelease t n :: log s))
      | _ => None
      end
  end.
(** spinlock_ttas.hpp:34 *)
Definition init_state : st := mkSt false [false] [] (fun _ => []) 0 (fun _ => Out) [].
