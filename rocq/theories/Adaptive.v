(** Model: retries_, the estimate of the adaptive spinlocks for the number of retries (spinlock_ttas_adaptive.hpp, spinlock_ttas_adaptive_futex.hpp). retries_ is loaded at the beginning of lock() and stored at its end without ordering, so the value loaded is any value stored before. *)
From Coq Require Import NArith ZArith List.
Import ListNotations.

(** size_t has 64 bits. *)
Definition W : N := 2 ^ 64.
(** spinlock_ttas_adaptive.hpp:49-52, BOOST_FIBERS_SPIN_BEFORE_SLEEP0 = 32, BOOST_FIBERS_SPIN_BEFORE_YIELD = 64 (config.hpp:58-64) *)
Definition max_relax (prev : N) : N := N.min 32 ((2 * prev + 10) mod W).
Definition max_sleep (prev : N) : N := N.min 64 ((2 * prev + 10) mod W).
(** The loop spinlock_ttas_adaptive.hpp:63-90 with state_ found locked [k] times. *)
Fixpoint spin (prev : N) (k : nat) (retries : N) : N :=
  match k with
  | O => retries
  | S k' => spin prev k' (if (retries <? max_relax prev)%N then retries + 1 else if (retries <? max_sleep prev)%N then retries + 1 else retries)
  end.
(** spinlock_ttas_adaptive.hpp:107, unsigned arithmetic *)
Definition update (prev retries : N) : N := (prev + ((retries + W - prev) mod W) / 8) mod W.
(** One lock() that loads [prev] and finds state_ locked [k] times in the last round of its outer loop: what it stores. *)
Definition lock_stores (prev : N) (k : nat) : N := update prev (spin prev k 0).

(** spinlock_ttas_adaptive_futex.hpp:105, 119, signed arithmetic, 32 bits; None: overflow. *)
Definition int32 (z : Z) : option Z := if ((- 2 ^ 31 <=? z) && (z <? 2 ^ 31))%Z%bool then Some z else None.
Definition update_s (prev retries : Z) : option Z :=
  match int32 (retries - prev) with Some d => int32 (prev + Z.quot d 8) | None => None end.
(** spinlock_ttas_adaptive_futex.hpp:46-49 *)
Definition limit_s (prev : Z) : option Z := match int32 (2 * prev) with Some d => int32 (d + 10) | None => None end.
(** retries when lock() has made [n] rounds (1 <= n <= threshold) and succeeded, or when it has given up after threshold rounds: spinlock_ttas_adaptive_futex.hpp:51 *)
Definition rounds (threshold : nat) (n : nat) : Z := if Nat.leb n threshold then Z.of_nat n else Z.of_nat threshold + 1.
