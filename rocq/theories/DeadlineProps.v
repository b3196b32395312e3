(** C80, C81: deadlines. *)
From Coq Require Import ZArith Bool Lia.
From Verif Require Import Base Deadline DeadlineSpec.
Local Open Scope Z_scope.

Lemma chk_val z : min64 <= z <= max64 -> chk z = Val z.
Proof. intros H. unfold chk, fits. destruct (Z.leb_spec min64 z), (Z.leb_spec z max64); simpl; auto; lia. Qed.
Lemma chk_inv z v : chk z = Val v -> v = z.
Proof. unfold chk. destruct (fits z); congruence. Qed.

(** ** C80. A wait for a positive duration. The sum overflows for hours::max() and for nanoseconds::max(), one second after the epoch of the steady clock; what the hardware then computes lies in the past, so the wait returns at once. *)
Theorem C80_refuted : exists now, 0 < now /\
  deadline_for now max64 3600000000000 = Overflow /\ deadline_for_wrap now max64 3600000000000 < now /\
  deadline_for now max64 1 = Overflow /\ deadline_for_wrap now max64 1 < now.
Proof. exists 1000000000. vm_compute. auto. Qed.
(** Whenever the sum can be represented: the deadline is there, and whoever runs not before the deadline has waited for the whole duration, counted from any moment before the clock was read. *)
Theorem C80_not_early_partial now count unit : 0 <= now -> 0 <= count -> 0 < unit -> now + count * unit <= max64 ->
  exists d, deadline_for now count unit = Val d /\ forall start wake, start <= now -> d <= wake -> count * unit <= wake - start.
Proof.
  intros A B C D. exists (now + count * unit). unfold deadline_for. rewrite chk_val; [simpl; rewrite chk_val; [split; auto; intros; lia|]|]; unfold min64, max64 in *; nia.
Qed.
(** And it is not late: the deadline is exactly the duration after the reading. Negative durations are deadlines in the past. *)
Theorem C80_exact_partial now count unit d : deadline_for now count unit = Val d -> d = now + count * unit.
Proof. unfold deadline_for. destruct (chk (count * unit)) eqn:E; simpl; [|discriminate]. intros H. apply chk_inv in E, H. lia. Qed.
Example C80_nonvacuous : deadline_for 5000000000 250 1000000 = Val 5250000000.
Proof. reflexivity. Qed.

(** ** C81. A wait until a time point of another clock. *)
(** The operands of + are evaluated in any order. If the steady clock is read first, the deadline comes before the time point is reached on the other clock. (Steady clock read at 1 s, the other one 1 ms later.) *)
Theorem C81_refuted_order : exists off r1 r2 T d, r1 < r2 /\ reads off 1 r2 <= T /\ convert r1 (reads off 1 r2) T 1 1 = Val d /\ before off d T 1.
Proof. exists 1600000000000000000, 1000000000, 1001000000, 1600000005000000000, 4999000000. vm_compute. splits; auto; discriminate. Qed.
(** time_point::min() of a clock that counts nanoseconds since 1970, which should time out at once: the difference overflows, and what the hardware computes is 240 years ahead. *)
Theorem C81_refuted_range : exists off r, 0 < r /\
  convert r (reads off 1 r) min64 1 1 = Overflow /\ r + 86400000000000 * 365 * 200 < convert_wrap r (reads off 1 r) min64 1 1.
Proof. exists 1600000000000000000, 1000000000. vm_compute. auto. Qed.
(** If nothing overflows, the deadline is early by at most the time between the two readings, and late by less than that time plus one tick of the other clock. *)
Theorem C81_bound_partial off r1 r2 T uT uC d : 0 < uT -> 0 < uC -> convert r1 (reads off uC r2) T uT uC = Val d ->
  T * uT + (r1 - r2) <= d + off < T * uT + (r1 - r2) + uC.
Proof.
  intros A B. unfold convert. set (g := Z.gcd uT uC). set (c := reads off uC r2).
  assert (G : 0 < g). { pose proof (Z.gcd_nonneg uT uC). assert (g <> 0); [|lia]. intros E. apply Z.gcd_eq_0_l in E. lia. }
  assert (ET : uT = g * (uT / g)) by (apply Z_div_exact_full_2; [lia|]; apply Z.mod_divide; [lia|apply Z.gcd_divide_l]).
  assert (EC : uC = g * (uC / g)) by (apply Z_div_exact_full_2; [lia|]; apply Z.mod_divide; [lia|apply Z.gcd_divide_r]).
  destruct (chk (T * (uT / g))) eqn:E1; simpl; [|discriminate]. destruct (chk (c * (uC / g))) eqn:E2; simpl; [|discriminate].
  destruct (chk (z - z0)) eqn:E3; simpl; [|discriminate]. destruct (chk (z1 * g)) eqn:E4; simpl; [|discriminate]. intros E5.
  apply chk_inv in E1, E2, E3, E4, E5. subst.
  replace (r1 + (T * (uT / g) - c * (uC / g)) * g) with (r1 + T * (g * (uT / g)) - c * (g * (uC / g))) by ring.
  rewrite <- ET, <- EC. unfold c, reads. pose proof (Z.div_mod (r2 + off) uC) as M. pose proof (Z.mod_pos_bound (r2 + off) uC B). lia.
Qed.
(** Hence, if the other clock is read first, a wait never ends before the time point is reached on that clock. *)
Theorem C81_not_early_partial off r1 r2 T uT uC d : 0 < uT -> 0 < uC -> r2 <= r1 -> convert r1 (reads off uC r2) T uT uC = Val d ->
  forall wake, d <= wake -> ~ before off wake T uT.
Proof. intros A B C E wake W. pose proof (C81_bound_partial _ _ _ _ _ _ _ A B E). unfold before. lia. Qed.
(** Time points of the steady clock itself are used as they are (convert.hpp:25-28), there is nothing to compute. *)
Example C81_nonvacuous : convert 1000000000 (reads 1600000000000000000 1000 999999500) 1600000005 1000000000 1000 = Val 5000001000.
Proof. reflexivity. Qed.

Print Assumptions C80_refuted.
Print Assumptions C80_not_early_partial.
Print Assumptions C80_exact_partial.
Print Assumptions C81_refuted_order.
Print Assumptions C81_refuted_range.
Print Assumptions C81_bound_partial.
Print Assumptions C81_not_early_partial.
