(** C129, C130: topology() and pin_thread() on the other operating systems. *)
From Coq Require Import List Arith NArith Bool Lia.
From Verif Require Import Base NumaOs.
Import ListNotations.

(** Number of nodes with the CPU. *)
Fixpoint nodes_with (c : nat) (topo : list node) : nat := match topo with [] => 0 | n :: t => (if existsb (Nat.eqb c) (cpus n) then 1 else 0) + nodes_with c t end.
(** The CPUs of the machine are each in one node, and there are no others. *)
Definition partition (cpu : nat -> Prop) (topo : list node) : Prop := forall c, (cpu c -> nodes_with c topo = 1) /\ (~ cpu c -> nodes_with c topo = 0).
(** The i-th distance is that to the i-th node: 10 to the node itself, 20 to others. *)
Definition distances (topo : list node) : Prop := forall i n, nth_error topo i = Some n -> length (dist n) = length topo /\ forall j, j < length topo -> nth j (dist n) 0 = if Nat.eqb i j then 10 else 20.

(** C129 is false: on Solaris a group with memory of its own and with children that have memory lists the CPUs of its children, too. *)
Theorem C129_refuted : exists g, NoDup (all_cpus g) /\ ~ partition (fun c => In c (all_cpus g)) (topology_solaris g).
Proof.
  exists (Lgrp 0 [] true [Lgrp 1 [0; 1] true []; Lgrp 2 [2; 3] true []]). split; [cbn; repeat constructor; cbn; intuition discriminate|].
  intros P. destruct (P 0) as [A _]. assert (X : nodes_with 0 (topology_solaris (Lgrp 0 [] true [Lgrp 1 [0; 1] true []; Lgrp 2 [2; 3] true []])) = 2) by reflexivity. rewrite X in A. cbn in A. assert (2 = 1) by auto. discriminate.
Qed.
Print Assumptions C129_refuted.
(** The distances are wrong if the numbers of the nodes have gaps: a node is not at distance 10 from itself. *)
Theorem C129_distance_refuted : exists g, ~ distances (topology_solaris g) /\ map dist (topology_solaris g) = [[20; 10]; [20; 20]].
Proof.
  exists (Lgrp 0 [] false [Lgrp 1 [0; 1] true []; Lgrp 2 [2; 3] true []]). split; [|reflexivity].
  intros D. specialize (D 0 _ eq_refl). destruct D as [_ D]. specialize (D 0 ltac:(cbn; lia)). vm_compute in D. discriminate.
Qed.
Print Assumptions C129_distance_refuted.

Lemma sins_in : forall l x y, In y (sins x l) <-> y = x \/ In y l.
Proof.
  intros l x y. unfold sins. destruct (existsb (Nat.eqb x) l) eqn:E.
  - apply existsb_exists in E. destruct E as (z & Z & EZ). apply Nat.eqb_eq in EZ. subst z. split; [auto|]. intros [->|H]; auto.
  - rewrite in_app_iff. simpl. intuition.
Qed.
Lemma insert_all_in : forall l y, In y (insert_all l) <-> In y l.
Proof.
  assert (X : forall l s y, In y (fold_left (fun s x => sins x s) l s) <-> In y s \/ In y l).
  { induction l as [|x l IH]; intros s y; simpl; [tauto|]. rewrite IH, sins_in. intuition. }
  intros l y. unfold insert_all. rewrite X. simpl. tauto.
Qed.
Lemma existsb_in : forall c l, existsb (Nat.eqb c) l = true <-> In c l.
Proof. intros c l. rewrite existsb_exists. split; [intros (x & X & E); apply Nat.eqb_eq in E; subst; auto|intros H; exists c; rewrite Nat.eqb_refl; auto]. Qed.
Lemma nodes_with_fake : forall c f t, nodes_with c (map (fun n => mkNode (id n) (cpus n) (f n)) t) = nodes_with c t.
Proof. intros c f. induction t as [|n t IH]; simpl; auto. Qed.
Lemma nodes_with_app : forall c a b, nodes_with c (a ++ b) = nodes_with c a + nodes_with c b.
Proof. intros c. induction a as [|n a IH]; intros b; simpl; auto. rewrite IH. lia. Qed.
Lemma nodes_with_0 : forall c t, (forall n, In n t -> ~ In c (cpus n)) -> nodes_with c t = 0.
Proof. intros c. induction t as [|n t IH]; intros H; simpl; auto. rewrite IH by (intros; apply H; simpl; auto). destruct (existsb (Nat.eqb c) (cpus n)) eqn:E; auto. apply existsb_in in E. destruct (H n (or_introl eq_refl) E). Qed.
(** Distances are right if the nodes are numbered from 0 without gaps. *)
Lemma fake_distances : forall t, (forall i n, nth_error t i = Some n -> id n = i) -> distances (fake_distance t).
Proof.
  intros t H i n E. unfold fake_distance in *. rewrite map_length. rewrite nth_error_map in E. destruct (nth_error t i) as [m|] eqn:M; [|discriminate]. injection E as <-. cbn [dist]. rewrite map_length, seq_length. split; auto.
  intros j J. rewrite (nth_indep _ 0 (if Nat.eqb (id m) 0 then 10 else 20)) by (rewrite map_length, seq_length; auto). rewrite (map_nth (fun i => if Nat.eqb (id m) i then 10 else 20)). rewrite seq_nth by auto. rewrite (H i m M). auto.
Qed.

(** FreeBSD: the property holds. *)
Theorem C129_freebsd_partial : forall size mask, partition (fun c => c < size /\ mask c = true) (topology_freebsd size mask) /\ distances (topology_freebsd size mask).
Proof.
  intros size mask. split.
  - intros c. unfold topology_freebsd, fake_distance. rewrite nodes_with_fake. cbn [nodes_with cpus].
    assert (X : existsb (Nat.eqb c) (insert_all (filter mask (seq 0 size))) = true <-> c < size /\ mask c = true) by (rewrite existsb_in, insert_all_in, filter_In, in_seq; intuition lia).
    destruct (existsb (Nat.eqb c) (insert_all (filter mask (seq 0 size)))); split; intros H; auto; [exfalso; apply H; apply X; auto|apply X in H; discriminate].
  - apply fake_distances. intros [|[|i]] n E; try discriminate. injection E as <-. auto.
Qed.
Print Assumptions C129_freebsd_partial.
Example C129_freebsd_case : map cpus (topology_freebsd 8 Nat.even) = [[0; 2; 4; 6]].
Proof. reflexivity. Qed.

(** Windows: the property holds if a processor is reported for one node only (of one group) and, for the distances, if the nodes are numbered without gaps. *)
Definition wcpu (w : nat) (l : list winfo) (c : nat) : Prop := exists i b, In i l /\ b < w /\ wmask i b = true /\ c = 64 * wgroup i + b.
Lemma win_in : forall w i c, In c (insert_all (compute_cpu_set w (wgroup i) (wmask i))) <-> exists b, b < w /\ wmask i b = true /\ c = 64 * wgroup i + b.
Proof.
  intros w i c. unfold compute_cpu_set. rewrite !insert_all_in, in_map_iff. split; [intros (b & E & H); apply filter_In in H; destruct H as [H1 H2]; apply in_seq in H1; exists b; splits; auto; lia|].
  intros (b & B & M & ->). exists b. split; auto. apply filter_In. split; auto. apply in_seq. lia.
Qed.
Theorem C129_windows_partial : forall w l, w <= 64 ->
  (forall a i b j bit, l = a ++ i :: b -> In j (a ++ b) -> wgroup j = wgroup i -> wmask i bit = true -> wmask j bit = false) ->
  partition (wcpu w l) (topology_windows w l) /\ ((forall k i, nth_error l k = Some i -> wnode i = k) -> distances (topology_windows w l)).
Proof.
  intros w l W D. split.
  - intros c. unfold topology_windows, fake_distance. rewrite nodes_with_fake. set (f := fun i : winfo => mkNode (wnode i) (insert_all (compute_cpu_set w (wgroup i) (wmask i))) []). split.
    + intros (i & b & I0 & B & M & ->). apply in_split in I0. destruct I0 as (l1 & l2 & ->). rewrite map_app, nodes_with_app. cbn [map nodes_with cpus f].
      assert (X : existsb (Nat.eqb (64 * wgroup i + b)) (insert_all (compute_cpu_set w (wgroup i) (wmask i))) = true) by (apply existsb_in, win_in; exists b; auto). unfold f at 2. cbn [cpus]. rewrite X.
      assert (Z : forall j, In j (l1 ++ l2) -> ~ In (64 * wgroup i + b) (cpus (f j))).
      { intros j J H. unfold f in H. cbn [cpus] in H. apply win_in in H. destruct H as (b' & B' & M' & E). assert (E1 : wgroup j = wgroup i) by lia. assert (E2 : b' = b) by lia. subst b'. specialize (D l1 i l2 j b eq_refl J E1 M). congruence. }
      rewrite !nodes_with_0; auto; intros n H; apply in_map_iff in H; destruct H as (j & <- & J); apply Z; apply in_or_app; auto.
    + intros N. apply nodes_with_0. intros n H X. apply in_map_iff in H. destruct H as (i & <- & J). unfold f in X. cbn [cpus] in X. apply win_in in X. destruct X as (b & B & M & ->). apply N. exists i, b. auto.
  - intros H. apply fake_distances. intros k n E. rewrite nth_error_map in E. destruct (nth_error l k) as [i|] eqn:X; [|discriminate]. injection E as <-. cbn [id]. auto.
Qed.
Print Assumptions C129_windows_partial.
Example C129_windows_case : let l := [mkW 0 0 (fun b => b <? 2); mkW 1 0 (fun b => (2 <=? b) && (b <? 4)); mkW 2 1 (fun b => b <? 2)] in
  map cpus (topology_windows 64 l) = [[0; 1]; [2; 3]; [64; 65]] /\ map dist (topology_windows 64 l) = [[10; 20; 20]; [20; 10; 20]; [20; 20; 10]].
Proof. split; reflexivity. Qed.

(** Solaris: the CPUs are partitioned if no group with memory is below another one and every CPU belongs to a group with memory or to one below it. *)
Fixpoint nomem (g : lgrp) : Prop := match g with Lgrp _ _ mem ch => mem = false /\ (fix all l := match l with [] => True | x :: l => nomem x /\ all l end) ch end.
Fixpoint leafy (g : lgrp) : Prop := match g with Lgrp _ own mem ch => ((fix all l := match l with [] => True | x :: l => nomem x /\ all l end) ch /\ mem = true) \/ (own = [] /\ mem = false /\ (fix all l := match l with [] => True | x :: l => leafy x /\ all l end) ch) end.
Lemma lgrp_ind2 : forall P : lgrp -> Prop, (forall i own mem ch, Forall P ch -> P (Lgrp i own mem ch)) -> forall g, P g.
Proof. intros P H. fix IH 1. intros [i own mem ch]. apply H. induction ch as [|x ch IHc]; constructor; auto. Qed.
Lemma nodup_app_l : forall (a b : list nat), NoDup (a ++ b) -> NoDup a.
Proof. induction a as [|x a IH]; intros b H; [constructor|]. inversion H; subst. constructor; [rewrite in_app_iff in *; tauto|eauto]. Qed.
Lemma nodup_app_r : forall (a b : list nat), NoDup (a ++ b) -> NoDup b.
Proof. induction a as [|x a IH]; intros b H; auto. inversion H; subst; auto. Qed.
Lemma nomem_explore : forall g, nomem g -> explore g = [].
Proof.
  induction g as [i own mem ch F] using lgrp_ind2. intros [-> A]. cbn [explore app]. induction F as [|g ch Hg F IH]; auto. destruct A as [A1 A2]. cbn [flat_map]. rewrite Hg, IH; auto.
Qed.
Lemma nomem_all : forall ch, (fix all l := match l with [] => True | x :: l => nomem x /\ all l end) ch -> flat_map explore ch = [].
Proof. induction ch as [|x ch IH]; auto. intros [A B]. cbn [flat_map]. rewrite nomem_explore, IH; auto. Qed.
Lemma explore_count : forall g, leafy g -> NoDup (all_cpus g) -> forall c, (In c (all_cpus g) -> nodes_with c (explore g) = 1) /\ (~ In c (all_cpus g) -> nodes_with c (explore g) = 0).
Proof.
  induction g as [i own mem ch F] using lgrp_ind2. intros L ND c. cbn [leafy] in L. destruct L as [[NM ->]|(-> & -> & A)].
  - cbn [explore all_cpus]. rewrite (nomem_all ch NM). cbn [app nodes_with cpus].
    assert (X : existsb (Nat.eqb c) (insert_all (own ++ flat_map all_cpus ch)) = true <-> In c (own ++ flat_map all_cpus ch)) by (rewrite existsb_in, insert_all_in; tauto).
    destruct (existsb (Nat.eqb c) (insert_all (own ++ flat_map all_cpus ch))); split; intros H; auto; [exfalso; apply H; apply X; auto|apply X in H; discriminate].
  - cbn [explore all_cpus app] in *. revert A ND. induction F as [|g ch Hg F IH]; intros A ND; [cbn; split; auto; intros []|].
    destruct A as [A1 A2]. cbn [flat_map] in *. rewrite nodes_with_app, in_app_iff. assert (N1 : NoDup (all_cpus g)) by (eapply nodup_app_l; eauto). assert (N2 : NoDup (flat_map all_cpus ch)) by (eapply nodup_app_r; eauto).
    destruct (Hg A1 N1 c) as [P1 P2]. destruct (IH A2 N2) as [Q1 Q2]. split.
    + intros [H|H].
      * rewrite P1, Q2; auto. intros X. clear - ND H X. induction (all_cpus g) as [|y l IHl]; [destruct H|]. inversion ND; subst. destruct H as [->|H]; [apply H2; apply in_or_app; auto|auto].
      * rewrite Q1, P2; auto. intros X. clear - ND H X. induction (all_cpus g) as [|y l IHl]; [destruct X|]. inversion ND; subst. destruct X as [->|X]; [apply H2; apply in_or_app; auto|auto].
    + intros N. rewrite P2, Q2; tauto.
Qed.
Theorem C129_solaris_partial : forall g, leafy g -> NoDup (all_cpus g) -> partition (fun c => In c (all_cpus g)) (topology_solaris g).
Proof. intros g L ND c. unfold topology_solaris, fake_distance. rewrite nodes_with_fake. apply explore_count; auto. Qed.
Print Assumptions C129_solaris_partial.
Example C129_solaris_case : let g := Lgrp 0 [] false [Lgrp 1 [0; 1] true []; Lgrp 2 [2] true [Lgrp 3 [3] false []]] in leafy g /\ NoDup (all_cpus g) /\ map cpus (topology_solaris g) = [[0; 1]; [2; 3]].
Proof. cbn. splits; auto; [right; splits; auto 6|repeat constructor; cbn; intuition discriminate]. Qed.

(** AIX: the property holds if every CPU is in one rad with processors. *)
Theorem C129_aix_partial : forall maxnodes rad numprocs maxprocs test,
  (forall n m c, test n c = true -> test m c = true -> n = m) ->
  partition (fun c => exists n, n < maxnodes /\ rad n = true /\ numprocs n <> 0 /\ c < maxprocs n /\ test n c = true) (topology_aix maxnodes rad numprocs maxprocs test).
Proof.
  intros mx rad np mp test D c. unfold topology_aix, fake_distance. rewrite nodes_with_fake. set (f := fun n => mkNode n (insert_all (filter (test n) (seq 0 (mp n)))) []). set (l := filter (fun n => rad n && negb (np n =? 0)) (seq 0 mx)).
  assert (IN : forall n, In c (cpus (f n)) <-> c < mp n /\ test n c = true) by (intros n; unfold f; cbn [cpus]; rewrite insert_all_in, filter_In, in_seq; intuition lia).
  assert (ND : NoDup l) by (apply NoDup_filter, seq_NoDup).
  assert (IL : forall n, In n l <-> n < mx /\ rad n = true /\ np n <> 0) by (intros n; unfold l; rewrite filter_In, in_seq, andb_true_iff, negb_true_iff, Nat.eqb_neq; intuition lia).
  split.
  - intros (n & N & R & P & C & T). assert (X : In n l) by (apply IL; auto). apply in_split in X. destruct X as (a & b & E). rewrite E, map_app, nodes_with_app. cbn [map nodes_with].
    assert (Y : existsb (Nat.eqb c) (cpus (f n)) = true) by (apply existsb_in, IN; auto). rewrite Y.
    rewrite E in ND. apply NoDup_remove_2 in ND. rewrite in_app_iff in ND.
    rewrite !nodes_with_0; auto; intros m H X; apply in_map_iff in H; destruct H as (k & <- & K); apply IN in X; destruct X as [_ X]; assert (k = n) by (eapply D; eauto); subst k; tauto.
  - intros N. apply nodes_with_0. intros m H X. apply in_map_iff in H. destruct H as (k & <- & K). apply IN in X. apply IL in K. apply N. exists k. tauto.
Qed.
Print Assumptions C129_aix_partial.
(** A rad without processors leaves a gap in the numbers of the nodes: wrong distances. *)
Theorem C129_aix_distance_refuted : exists rad numprocs maxprocs test, ~ distances (topology_aix 3 rad numprocs maxprocs test) /\ (forall n m c, test n c = true -> test m c = true -> n = m).
Proof.
  exists (fun _ => true), (fun n => if n =? 1 then 0 else 2), (fun _ => 4), (fun n c => n =? 2 * (c / 2)). split.
  - intros D. specialize (D 1 _ eq_refl). destruct D as [_ D]. specialize (D 1 ltac:(cbn; lia)). vm_compute in D. discriminate.
  - intros n m c A B. apply Nat.eqb_eq in A, B. congruence.
Qed.
Print Assumptions C129_aix_distance_refuted.
Example C129_aix_case : map cpus (topology_aix 3 (fun n => negb (n =? 1)) (fun _ => 2) (fun _ => 4) (fun n c => n =? 2 * (c / 2))) = [[0; 1]; [2; 3]].
Proof. reflexivity. Qed.

(** The processor b of group g: one bit of one group. *)
Definition selects (p : N * N) (g b : nat) : Prop := fst p = N.of_nat g /\ forall k, N.testbit (snd p) k = N.eqb k (N.of_nat b).
Lemma pin_bit : forall g b : N, (b < 64)%N -> (g < 65536)%N -> fst (pin_windows (64 * g + b)) = g /\ forall k, N.testbit (snd (pin_windows (64 * g + b))) k = N.eqb k b.
Proof.
  intros g b B G. unfold pin_windows. cbn [fst snd].
  assert (E1 : ((64 * g + b) / 64 = g)%N) by (symmetry; apply (N.div_unique _ 64 g b); auto).
  assert (E2 : ((64 * g + b) mod 64 = b)%N) by (symmetry; apply (N.mod_unique _ 64 g b); auto).
  rewrite E1, E2. split; [apply N.mod_small; auto|]. intros k. rewrite N.shiftl_1_l, N.pow2_bits_eqb. apply N.eqb_sym.
Qed.
(** C130: pinning a thread to a CPU of a node selects a processor that the system reports for this node, and the number of every reported processor is in its node and selects this processor. *)
Theorem C130_pin : forall w l, w <= 64 -> (forall i, In i l -> (N.of_nat (wgroup i) < 65536)%N) ->
  (forall n c, In n (topology_windows w l) -> In c (cpus n) -> exists i b, In i l /\ wnode i = id n /\ b < w /\ wmask i b = true /\ selects (pin_windows (N.of_nat c)) (wgroup i) b) /\
  (forall i b, In i l -> b < w -> wmask i b = true -> exists n c, In n (topology_windows w l) /\ id n = wnode i /\ In c (cpus n) /\ selects (pin_windows (N.of_nat c)) (wgroup i) b).
Proof.
  intros w l W G.
  assert (P : forall i b, In i l -> b < w -> selects (pin_windows (N.of_nat (64 * wgroup i + b))) (wgroup i) b).
  { intros i b I0 B. unfold selects. replace (N.of_nat (64 * wgroup i + b)) with (64 * N.of_nat (wgroup i) + N.of_nat b)%N by lia. apply pin_bit; [lia|auto]. }
  unfold topology_windows, fake_distance. split.
  - intros n c N C. apply in_map_iff in N. destruct N as (m & <- & M). apply in_map_iff in M. destruct M as (i & <- & I0). cbn [cpus id] in *. apply win_in in C. destruct C as (b & B & MB & ->). exists i, b. split; [auto|]. split; [reflexivity|]. split; [auto|]. split; [auto|apply P; auto].
  - intros i b I0 B M. eexists; exists (64 * wgroup i + b). split; [apply in_map_iff; eexists; split; [reflexivity|]; apply in_map_iff; exists i; split; [reflexivity|auto]|]. cbn [id cpus]. split; [reflexivity|]. split; [apply win_in; exists b; auto|apply P; auto].
Qed.
Print Assumptions C130_pin.
Example C130_case : map cpus (topology_windows 64 [mkW 0 2 (fun b => b =? 2)]) = [[130]] /\ pin_windows 130 = (2%N, 4%N) /\ selects (pin_windows 130) 2 2.
Proof. split; [reflexivity|]. split; [reflexivity|]. apply (pin_bit 2 2); reflexivity. Qed.
