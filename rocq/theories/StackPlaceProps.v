(** Theorems about the placement of the control block (property C53). *)
From Coq Require Import NArith Lia.
From Verif Require Import StackPlace.
Open Scope N_scope.

(** ** Specification. The allocator returned the area [sp - ssize, sp) of the address space. *)
Definition area (w sp ssize : N) : Prop := sp < 2 ^ w /\ ssize <= sp.
(** [lo, lo + n) lies within [a, b). *)
Definition inside (lo n a b : N) : Prop := a <= lo /\ lo + n <= b.
Definition disjoint (lo1 n1 lo2 n2 : N) : Prop := forall x, ~ (lo1 <= x < lo1 + n1 /\ lo2 <= x < lo2 + n2).

(** ** Proofs *)
Lemma pow_pos w : 0 < 2 ^ w. Proof. apply N.neq_0_lt_0, N.pow_nonzero. lia. Qed.
Lemma pow_ge w : 8 <= w -> 256 <= 2 ^ w.
Proof. intros H. change 256 with (2 ^ 8). apply N.pow_le_mono_r; lia. Qed.
Lemma wsub_ge w a b : a < 2 ^ w -> b <= a -> wsub w a b = a - b.
Proof.
  intros Ha Hb. unfold wsub. rewrite (N.mod_small b) by lia. replace (a + (2 ^ w - b)) with (a - b + 1 * 2 ^ w) by lia. pose proof (pow_pos w). rewrite N.mod_add by lia. apply N.mod_small. lia.
Qed.
Lemma wsub_lt w a b : b < 2 ^ w -> a < b -> wsub w a b = 2 ^ w - (b - a).
Proof. intros Hb Ha. unfold wsub. rewrite (N.mod_small b) by lia. rewrite N.mod_small by lia. lia. Qed.
Lemma land_mask w x : 8 <= w -> x < 2 ^ w -> N.land x (mask w) = 256 * (x / 256).
Proof.
  intros Hw Hx. unfold mask. destruct (N.eq_dec x 0) as [->|Nz].
  - rewrite N.land_0_l. reflexivity.
  - rewrite <- N.ldiff_land_low.
    + change 255 with (N.ones 8). rewrite N.ldiff_ones_r, N.shiftl_mul_pow2, N.shiftr_div_pow2. change (2 ^ 8) with 256. lia.
    + apply N.log2_lt_pow2; lia.
Qed.
Lemma storage_eq w sp sz : 8 <= w -> sp < 2 ^ w -> sz <= sp -> storage w sp sz = 256 * ((sp - sz) / 256).
Proof. intros Hw H1 H2. unfold storage. rewrite wsub_ge by auto. apply land_mask; auto. lia. Qed.

(** ** C53. For every width of the machine word (at least 8 bits), every stack and every size of the control block: if the stack is large enough, the control block lies inside of the stack, is aligned to 256 bytes, the rest of the stack below it is what the fiber gets as its stack (so the two do not overlap), and at most 255 bytes are wasted. *)
Theorem C53_placement w sp ssize sz : 8 <= w -> area w sp ssize -> sz + 255 <= ssize ->
  let p := storage w sp sz in let n := size w sp ssize sz in
  p mod 256 = 0 /\ inside p sz (sp - ssize) sp /\ inside (p - n) n (sp - ssize) sp /\ disjoint (p - n) n p sz /\ n <= p /\ p - n = sp - ssize /\ ssize <= n + sz + 255.
Proof.
  intros Hw [H1 H2] H3 p n. assert (P : p = 256 * ((sp - sz) / 256)) by (apply storage_eq; auto; lia). pose proof (N.div_mod (sp - sz) 256 ltac:(lia)) as D. pose proof (N.mod_lt (sp - sz) 256 ltac:(lia)) as M. rewrite <- P in D. set (r := (sp - sz) mod 256) in *. clearbody r.
  assert (Pn : n = p - (sp - ssize)). { unfold n, size, stack_bottom. fold p. rewrite (wsub_ge w sp ssize) by auto. clear n. clearbody p. apply wsub_ge; lia. }
  clearbody n p. unfold inside, disjoint. repeat split; try lia. rewrite P, N.mul_comm. apply N.mod_mul. lia.
Qed.
(** If the stack is smaller than the control block, the computed size wraps around to a number greater than the whole stack (the code does not check for it). *)
Theorem C53_too_small w sp ssize sz : 8 <= w -> area w sp ssize -> ssize < sz -> sz <= sp ->
  storage w sp sz < sp - ssize /\ size w sp ssize sz = 2 ^ w - (sp - ssize - storage w sp sz) /\ ssize < size w sp ssize sz.
Proof.
  intros Hw [H1 H2] H3 H4. assert (P : storage w sp sz = 256 * ((sp - sz) / 256)) by (apply storage_eq; auto). pose proof (N.div_mod (sp - sz) 256 ltac:(lia)) as D. pose proof (N.mod_lt (sp - sz) 256 ltac:(lia)) as M. rewrite <- P in D. set (r := (sp - sz) mod 256) in *. clearbody r.
  assert (Q : size w sp ssize sz = 2 ^ w - (sp - ssize - storage w sp sz)). { unfold size, stack_bottom. rewrite (wsub_ge w sp ssize) by auto. apply wsub_lt; lia. }
  repeat split; try lia.
Qed.

(** A stack of 128 KiB and a control block of 1000 bytes; a stack of 512 bytes. *)
Example C53_ex : area 64 0x7f0000021010 131072 /\ storage 64 0x7f0000021010 1000 = 0x7f0000020c00 /\ size 64 0x7f0000021010 131072 1000 = 130032.
Proof. vm_compute. repeat split; congruence. Qed.
Example C53_ex_small : area 64 0x7f0000021010 512 /\ size 64 0x7f0000021010 512 1000 = 18446744073709551088.
Proof. vm_compute. repeat split; congruence. Qed.

Print Assumptions C53_placement.
Print Assumptions C53_too_small.
