(** C72: the estimates of the adaptive spinlocks. *)
From Coq Require Import NArith ZArith List Lia Bool.
From Verif Require Import Base Adaptive.
Import ListNotations.

(** What retries_ can hold: 0, or what some lock() stores that has loaded a value stored before. *)
Inductive estimate_s (threshold : nat) : Z -> Prop :=
  | s_init : estimate_s threshold 0
  | s_lock p n p' : estimate_s threshold p -> (1 <= n)%nat -> update_s p (rounds threshold n) = Some p' -> estimate_s threshold p'.
Inductive estimate : N -> Prop :=
  | u_init : estimate 0
  | u_lock p k : estimate p -> estimate (lock_stores p k).

Lemma rounds_range threshold n : (1 <= n)%nat -> (1 <= rounds threshold n <= Z.of_nat threshold + 1)%Z.
Proof. intros H. unfold rounds. destruct (Nat.leb_spec n threshold); lia. Qed.
Lemma int32_in z : (- 2 ^ 31 <= z < 2 ^ 31)%Z -> int32 z = Some z.
Proof. intros H. unfold int32. destruct (Z.leb_spec (- 2 ^ 31) z); [|lia]. destruct (Z.ltb_spec z (2 ^ 31)); [reflexivity|lia]. Qed.
Lemma quot8 d : (0 <= d -> 0 <= Z.quot d 8 <= d)%Z /\ (d <= 0 -> d <= Z.quot d 8 <= 0)%Z.
Proof. split; intros H; [|replace d with (- - d)%Z by lia; rewrite Z.quot_opp_l by lia]; rewrite Z.quot_div_nonneg by lia; assert (X := Z.div_mod (Z.abs d) 8); [assert (Y := Z.mod_pos_bound d 8)|assert (Y := Z.mod_pos_bound (- d) 8); assert (X1 := Z.div_mod (- d) 8)]; try (assert (X1 := Z.div_mod d 8)); lia. Qed.

(** ** spinlock_ttas_adaptive_futex: the estimate stays within the number of rounds lock() can make, each update moves it towards the new observation, and nothing overflows. *)
Theorem C72_futex threshold p : (Z.of_nat threshold < 2 ^ 30 - 6)%Z -> estimate_s threshold p ->
  (0 <= p <= Z.of_nat threshold + 1)%Z /\ limit_s p = Some (2 * p + 10)%Z /\
  forall n, (1 <= n)%nat -> let r := rounds threshold n in exists p', update_s p r = Some p' /\ (Z.min p r <= p' <= Z.max p r)%Z.
Proof.
  intros T E. assert (Up : forall p n, (0 <= p <= Z.of_nat threshold + 1)%Z -> (1 <= n)%nat -> exists p', update_s p (rounds threshold n) = Some p' /\ (Z.min p (rounds threshold n) <= p' <= Z.max p (rounds threshold n))%Z).
  { intros p0 n Hp Hn. pose proof (rounds_range threshold n Hn) as Hr. unfold update_s. set (r := rounds threshold n) in *. clearbody r. rewrite int32_in by lia. destruct (quot8 (r - p0)) as [Q1 Q2]. set (x := Z.quot (r - p0) 8) in *. clearbody x. rewrite int32_in by lia. eexists. split; [reflexivity|]. lia. }
  assert (R : (0 <= p <= Z.of_nat threshold + 1)%Z).
  { induction E as [|p n p' E IH Hn U]; [lia|]. destruct (Up p n IH Hn) as (p'' & U' & B). pose proof (rounds_range threshold n Hn). rewrite U in U'. injection U' as <-. lia. }
  split; auto. split; [unfold limit_s; rewrite int32_in by lia; now rewrite int32_in by lia|]. intros n Hn. apply Up; auto.
Qed.
Example C72_futex_ex : (Z.of_nat 64 < 2 ^ 30 - 6)%Z /\ estimate_s 64 7 /\ update_s 7 (rounds 64 70) = Some 14%Z /\ update_s 14 (rounds 64 1) = Some 13%Z.
Proof.
  split; [reflexivity|]. split; [|split; reflexivity]. apply (s_lock 64 0 57); [constructor|lia|reflexivity].
Qed.

(** ** spinlock_ttas_adaptive: the update is right as long as the new observation is not smaller than the estimate, ... *)
Theorem C72_ttas_partial p k : (p < W)%N -> (p <= spin p k 0)%N -> (p <= lock_stores p k <= spin p k 0)%N.
Proof.
  intros Hp H. assert (Hs : (spin p k 0 < W)%N).
  { assert (G : forall k r, (r <= 64)%N -> (spin p k r <= 64)%N). { intros k0. induction k0 as [|k0 IH]; intros r Hr; simpl; auto. apply IH. unfold max_relax, max_sleep. set (x := ((2 * p + 10) mod W)%N). clearbody x. destruct (N.ltb_spec r (N.min 32 x)); [lia|]. destruct (N.ltb_spec r (N.min 64 x)); lia. }
    apply (N.le_lt_trans _ 64); [apply G; lia|reflexivity]. }
  unfold lock_stores, update. set (r := spin p k 0) in *. clearbody r. assert (E : ((r + W - p) mod W = r - p)%N). { replace (r + W - p)%N with ((r - p) + 1 * W)%N by lia. rewrite N.mod_add by discriminate. apply N.mod_small. lia. } rewrite E.
  assert (D : ((r - p) / 8 <= r - p)%N) by (apply N.div_le_upper_bound; lia). set (x := ((r - p) / 8)%N) in *. clearbody x. rewrite N.mod_small by lia. lia.
Qed.
Example C72_ttas_ex : (1 <= spin 1 9 0)%N /\ lock_stores 1 9 = 2%N.
Proof. split; [discriminate|reflexivity]. Qed.
(** ... else the difference wraps: one lock() with 10 retries and one without any, and the estimate is 2^61, although no lock() can make more than 64. *)
Theorem C72_refuted : exists p, estimate p /\ p = (2 ^ 61)%N /\ forall prev k, (spin prev k 0 <= 64)%N.
Proof.
  exists (lock_stores (lock_stores 0 10) 0). split; [repeat constructor|]. split; [vm_compute; reflexivity|]. intros prev k.
  assert (G : forall r, (r <= 64)%N -> (spin prev k r <= 64)%N); [|apply G; lia]. induction k as [|k IH]; intros r Hr; simpl; auto. apply IH. unfold max_relax, max_sleep. set (x := ((2 * prev + 10) mod W)%N). clearbody x. destruct (N.ltb_spec r (N.min 32 x)); [lia|]. destruct (N.ltb_spec r (N.min 64 x)); lia.
Qed.
Print Assumptions C72_futex.
Print Assumptions C72_ttas_partial.
Print Assumptions C72_refuted.
