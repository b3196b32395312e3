(** Model: detail::spinlock_ttas_futex and detail::spinlock_ttas_adaptive_futex (spinlock_ttas_futex.hpp, spinlock_ttas_adaptive_futex.hpp) with the futex calls of futex.hpp, any number of threads, every access to value_ and every system call one step.
    Memory orders as in Ttas.v. The kernel compares value_ and puts the thread to sleep in one step; futex_wake() wakes one sleeping thread, any one, if there is one; a sleeping thread may also wake up for no reason (EINTR).
    Simplified: delays and back-off have no effect on shared data and are left out, so is retries_ of the adaptive variant (see Adaptive.v). value_ is an integer without overflow (it stays between 0 and 2, C49_futex_values). *)
From Coq Require Import List Arith Bool ZArith.
From Verif Require Import Base.
Import ListNotations.
Local Open Scope Z_scope.

(** Lines of spinlock_ttas_futex.hpp / adaptive_futex. [Load r]: :56 / :62, r = number of rounds before this one. [Cas r]: :84 / :90. [Xchg]: :105, 109 / :112, 116. [Wait]: :108 / :115. [Asleep]: in the kernel. [Try]: :115 / :124. [Inside n]: has the lock, critical section number n. [Store0]: :120 / :129. [Wake]: :121 / :130. *)
Inductive pc_t := Out | Load (r : nat) | Cas (r : nat) | Xchg | Wait | Asleep | Try | Inside (n : nat) | Store0 | Wake.
(** Newest first. [v]: the critical sections that happen before this one. [c]: others are or may be waiting (value_ was not 1). *)
Inductive event :=
  | EAcquire (t n : nat) (v : list nat)          (* lock() returns or try_lock() returns true *)
  | ETryFail (t : nat)
  | ERelease (t n : nat) (c : bool)              (* unlock() is called *)
  | EFreed (t : nat).                            (* ... and has written 0, after ERelease with c = true; with c = false fetch_sub has written 0 *)

Record st := mkSt {
  value : Z;                    (* value_ *)
  hist : list Z;                (* all values of value_ so far *)
  mview : list nat;
  view : nat -> list nat;
  next : nat;                   (* ghost: number of the next critical section *)
  sleepers : list nat;          (* threads asleep in the kernel *)
  pc : nat -> pc_t;
  log : list event
}.
Inductive label :=
  | Lock (t : nat)              (* call of lock() *)
  | TryLock (t : nat)           (* call of try_lock() *)
  | Read (t : nat) (v : Z)      (* relaxed load, returns v *)
  | Go (t : nat)                (* next access *)
  | Unlock (t : nat)            (* call of unlock() by the holder, up to and with fetch_sub *)
  | WakeOne (t : nat) (u : option nat)  (* futex_wake() by t wakes u *)
  | Spurious (t : nat).

Definition with_pc (s : st) (t : nat) (p : pc_t) : st := mkSt (value s) (hist s) (mview s) (view s) (next s) (sleepers s) (upd (pc s) t p) (log s).
(** Takes the lock by writing [v] with an acquiring read-modify-write operation. *)
Definition take (s : st) (t : nat) (v : Z) : st :=
  let w := view s t ++ mview s in
  mkSt v (v :: hist s) (mview s) (upd (view s) t w) (S (next s)) (sleepers s) (upd (pc s) t (Inside (next s))) (EAcquire t (next s) w :: log s).
(** A failed compare_exchange_strong( .., acquire): a load with acquire. *)
Definition acq (s : st) (t : nat) (p : pc_t) (e : list event) : st :=
  mkSt (value s) (hist s) (mview s) (upd (view s) t (view s t ++ mview s)) (next s) (sleepers s) (upd (pc s) t p) (e ++ log s).
Definition remove (t : nat) (l : list nat) : list nat := filter (fun u => negb (t =? u)%nat) l.
Section Futex.
Variable threshold : nat.       (* BOOST_FIBERS_RETRY_THRESHOLD *)
(** After round [r] with [expected] = e: spinlock_ttas_futex.hpp:45, 104, 107 / adaptive :51, 111, 114. *)
Definition after_round (r : nat) (e : Z) : pc_t := if (S r <? threshold)%nat then Load (S r) else if e =? 2 then Wait else Xchg.
(** spinlock_ttas_futex.hpp:41-123, spinlock_ttas_adaptive_futex.hpp:42-132, futex.hpp:54-61 *)
Definition step (s : st) (l : label) : option st :=
  match l with
  | Lock t => match pc s t with Out => Some (with_pc s t (if (0 <? threshold)%nat then Load 0 else Xchg)) | _ => None end
  | TryLock t => match pc s t with Out => Some (with_pc s t Try) | _ => None end
  | Read t v =>
      match pc s t with
      | Load r => if existsb (Z.eqb v) (hist s) then Some (with_pc s t (if v =? 0 then Cas r else after_round r v)) else None
      | _ => None
      end
  | Go t =>
      match pc s t with
      | Cas r => if value s =? 0 then Some (take s t 1) else Some (acq s t (after_round r (value s)) [])
      | Xchg => if value s =? 0 then Some (take s t 2)
                else Some (mkSt 2 (2 :: hist s) (mview s) (upd (view s) t (view s t ++ mview s)) (next s) (sleepers s) (upd (pc s) t Wait) (log s))
      | Wait => if value s =? 2 then Some (mkSt (value s) (hist s) (mview s) (view s) (next s) (t :: sleepers s) (upd (pc s) t Asleep) (log s))
                else Some (with_pc s t Xchg)
      | Try => if value s =? 0 then Some (take s t 1) else Some (acq s t Out [ETryFail t])
      | Store0 => (* value_.store( 0, release) *)
          Some (mkSt 0 (0 :: hist s) (view s t) (view s) (next s) (sleepers s) (upd (pc s) t Wake) (EFreed t :: log s))
      | _ => None
      end
  | Unlock t =>
      match pc s t with
      | Inside n => (* value_.fetch_sub( 1, acquire) *)
          let c := negb (value s =? 1) in
          Some (mkSt (value s - 1) (value s - 1 :: hist s) (mview s) (upd (view s) t (n :: view s t ++ mview s)) (next s) (sleepers s) (upd (pc s) t (if c then Store0 else Out)) (ERelease t n c :: log s))
      | _ => None
      end
  | WakeOne t o =>
      match pc s t, o with
      | Wake, None => match sleepers s with [] => Some (with_pc s t Out) | _ => None end
      | Wake, Some u => if existsb (Nat.eqb u) (sleepers s)
          then Some (mkSt (value s) (hist s) (mview s) (view s) (next s) (remove u (sleepers s)) (upd (upd (pc s) u Xchg) t Out) (log s)) else None
      | _, _ => None
      end
  | Spurious t =>
      match pc s t with
      | Asleep => Some (mkSt (value s) (hist s) (mview s) (view s) (next s) (remove t (sleepers s)) (upd (pc s) t Xchg) (log s))
      | _ => None
      end
  end.
End Futex.
(** spinlock_ttas_futex.hpp:33 *)
Definition init_state : st := mkSt 0 [0] [] (fun _ => []) 0 [] (fun _ => Out) [].
