(** C155: work stealing for NUMA: registration and the search for a victim. *)
From Coq Require Import List Arith Bool Lia Sorted.
From Verif Require Import Base NumaWs.
Import ListNotations.

(** Specification. All CPUs of a topology. *)
Definition cpus (topo : list node) : list nat := flat_map snd topo.
(** A topology as topology() gives it: every node has CPUs, in ascending order; no node and no CPU is listed twice. *)
Definition topology (topo : list node) : Prop :=
  Forall (fun nd => snd nd <> [] /\ StronglySorted lt (snd nd)) topo /\ NoDup (map fst topo) /\ NoDup (cpus topo).
(** One thread per CPU: the threads are 0 ... |CPUs| - 1, each with its own CPU and the node of that CPU. *)
Definition one_per_cpu (topo : list node) (cpu nd : nat -> nat) : Prop :=
  (forall t, t < length (cpus topo) -> exists cs, In (nd t, cs) topo /\ In (cpu t) cs) /\
  (forall t u, t < length (cpus topo) -> u < length (cpus topo) -> cpu t = cpu u -> t = u).
Definition thread (l : label) : nat := match l with LOnce t | LReg t | LArrive t | LPass t => t end.
Definition asked (r : res) : option (list nat) := match r with Found a | Nothing a | More a => Some a | Bad => None end.

Lemma count_cpus : forall topo, thread_count topo = length (cpus topo).
Proof. unfold thread_count, cpus. induction topo as [|[n cs] r IH]; simpl; auto. rewrite app_length. simpl in IH. lia. Qed.
Lemma local_spec : forall topo id cs, NoDup (map fst topo) -> In (id, cs) topo -> local_cpus id topo = cs.
Proof.
  induction topo as [|[n c] r IH]; simpl; intros id cs N H; [contradiction|]. inversion N; subst. destruct H as [H|H]; [injection H as -> ->; now rewrite Nat.eqb_refl|].
  destruct (Nat.eqb_spec id n) as [->|X]; auto. exfalso. apply H2. apply in_map_iff. exists (n, cs). auto.
Qed.
Lemma last_max : forall l c x, StronglySorted lt l -> In x l -> x <= last l c.
Proof.
  induction l as [|a l IH]; intros c x S H; [contradiction|]. inversion S as [|? ? Sl F]; subst. destruct l as [|b l]; [destruct H as [->|[]]; simpl; lia|].
  change (last (a :: b :: l) c) with (last (b :: l) c). destruct H as [->|H]; [|apply IH; auto]. rewrite Forall_forall in F. assert (x < b) by (apply F; simpl; auto). assert (b <= last (b :: l) c) by (apply IH; simpl; auto). lia.
Qed.
Lemma max_spec : forall topo, Forall (fun nd => snd nd <> [] /\ StronglySorted lt (snd nd)) topo -> exists m, max_cpu topo = Some m /\ forall c, In c (cpus topo) -> c <= m.
Proof.
  induction topo as [|[n cs] r IH]; intros H; [exists 0; split; auto; intros c []|]. inversion H as [|? ? [Hn Hs] Hr]; subst. destruct (IH Hr) as (m & E & M).
  simpl in Hn, Hs. destruct cs as [|c cs]; [congruence|]. exists (Nat.max (last (c :: cs) 0) m). split; [unfold max_cpu; fold max_cpu; rewrite E; reflexivity|].
  intros x X. unfold cpus in X. cbn [flat_map snd] in X. apply in_app_or in X as [X|X]; [pose proof (last_max _ 0 x Hs X)|apply M in X]; lia.
Qed.
Lemma set_nth_spec : forall l i v, i < length l -> exists l', set_nth l i v = Some l' /\ length l' = length l /\ nth_error l' i = Some (Some v) /\ forall j, j <> i -> nth_error l' j = nth_error l j.
Proof.
  induction l as [|x l IH]; intros i v L; simpl in L; [lia|]. destruct i as [|i]; simpl.
  - exists (Some v :: l). split; [auto|]. split; [auto|]. split; [auto|]. intros [|j] N; [congruence|auto].
  - destruct (IH i v) as (l' & E & A & B & C); [lia|]. rewrite E. exists (x :: l'). split; [auto|]. split; [simpl; lia|]. split; [auto|]. intros [|j] N; [auto|]. simpl. apply C. lia.
Qed.

(** Threads that have arrived at the barrier. *)
Definition late (p : pc) : bool := match p with Waiting | Built => true | _ => false end.
Definition arrivals (f : nat -> pc) (n : nat) : nat := length (filter (fun t => late (f t)) (seq 0 n)).
Lemma arrivals_same : forall f g n, (forall t, t < n -> late (f t) = late (g t)) -> arrivals f n = arrivals g n.
Proof. intros f g n H. unfold arrivals. f_equal. apply filter_ext_in. intros a A. apply in_seq in A. apply H. lia. Qed.
Lemma arrivals_S : forall f n, arrivals f (S n) = arrivals f n + (if late (f n) then 1 else 0).
Proof. intros f n. unfold arrivals. replace (S n) with (n + 1) by lia. rewrite seq_app, filter_app, app_length. simpl. destruct (late (f n)); auto. Qed.
Lemma arrivals_upd : forall f n t, t < n -> late (f t) = false -> arrivals (upd f t Waiting) n = S (arrivals f n).
Proof.
  induction n as [|n IH]; intros t L H; [lia|]. rewrite !arrivals_S. destruct (Nat.eq_dec t n) as [->|N].
  - rewrite upd_same, H. simpl. rewrite (arrivals_same (upd f n Waiting) f); [lia|]. intros u U. rewrite upd_other by lia. auto.
  - rewrite upd_other by auto. rewrite IH by (auto; lia). lia.
Qed.
Lemma arrivals_le : forall f n, arrivals f n <= n.
Proof. induction n as [|n IH]; [auto|]. rewrite arrivals_S. destruct (late (f n)); lia. Qed.
Lemma arrivals_all : forall f n, arrivals f n = n -> forall t, t < n -> late (f t) = true.
Proof.
  induction n as [|n IH]; intros H t L; [lia|]. rewrite arrivals_S in H. pose proof (arrivals_le f n). destruct (late (f n)) eqn:E; [|lia]. destruct (Nat.eq_dec t n) as [->|N]; auto. apply IH; lia.
Qed.

Record inv (topo : list node) (cpu : nat -> nat) (s : st) : Prop := mkInv {
  i_bad : bad s = false;
  i_none : sch s = None -> forall t, t < length (cpus topo) -> pcs s t = Start;
  i_len : forall l, sch s = Some l -> forall t, t < length (cpus topo) -> cpu t < length l;
  i_reg : forall l, sch s = Some l -> forall t, t < length (cpus topo) -> pcs s t <> Start -> pcs s t <> Inited -> nth_error l (cpu t) = Some (Some t);
  i_own : forall l c w, sch s = Some l -> nth_error l c = Some (Some w) -> w < length (cpus topo) /\ cpu w = c;
  i_arr : arrived s = arrivals (pcs s) (length (cpus topo));
  i_built : forall t, t < length (cpus topo) -> pcs s t = Built -> forall u, u < length (cpus topo) -> late (pcs s u) = true }.

Lemma inv_step : forall topo cpu nd s l s', topology topo -> one_per_cpu topo cpu nd -> thread l < length (cpus topo) -> inv topo cpu s -> step topo cpu s l = Some s' -> inv topo cpu s'.
Proof.
  intros topo cpu nd s l s' (T1 & T2 & T3) (O1 & O2) Hl [Ib In_ Il Ir Io Ia Iu] St.
  assert (Hin : forall t, t < length (cpus topo) -> In (cpu t) (cpus topo)) by (intros t Ht; destruct (O1 t Ht) as (cs & A & B); apply in_flat_map; exists (nd t, cs); auto).
  destruct l as [t|t|t|t]; simpl in Hl, St.
  - destruct (pcs s t) eqn:P; try discriminate. destruct (sch s) as [sc|] eqn:Sc.
    + injection St as <-. constructor; simpl; auto; try discriminate.
      * intros l E u U A B. destruct (Nat.eq_dec u t) as [->|N]; [rewrite upd_same in B; congruence|]. rewrite upd_other in A, B by auto. eauto.
      * rewrite Ia. apply arrivals_same. intros u U. destruct (Nat.eq_dec u t) as [->|N]; [rewrite upd_same, P; auto|rewrite upd_other by auto; auto].
      * intros u U B v V. destruct (Nat.eq_dec u t) as [->|N]; [rewrite upd_same in B; discriminate|]. rewrite upd_other in B by auto. specialize (Iu u U B t Hl). rewrite P in Iu. discriminate.
    + destruct (max_spec topo T1) as (m & M & Hm). rewrite M in St. injection St as <-. specialize (In_ eq_refl). constructor; simpl; auto; try discriminate.
      * intros l E u U. injection E as <-. rewrite repeat_length. specialize (Hm _ (Hin u U)). lia.
      * intros l E u U A B. destruct (Nat.eq_dec u t) as [->|N]; [rewrite upd_same in B; congruence|]. rewrite upd_other in A by auto. rewrite (In_ u U) in A. congruence.
      * intros l c w E X. injection E as <-. apply nth_error_In in X. apply repeat_spec in X. discriminate.
      * rewrite Ia. apply arrivals_same. intros u U. destruct (Nat.eq_dec u t) as [->|N]; [rewrite upd_same, P; auto|rewrite upd_other by auto; auto].
      * intros u U B v V. destruct (Nat.eq_dec u t) as [->|N]; [rewrite upd_same in B; discriminate|]. rewrite upd_other in B by auto. rewrite (In_ u U) in B. discriminate.
  - destruct (pcs s t) eqn:P; try discriminate. destruct (sch s) as [sc|] eqn:Sc; [|discriminate].
    destruct (set_nth_spec sc (cpu t) t (Il sc eq_refl t Hl)) as (l' & E & A & B & C). rewrite E in St. injection St as <-. constructor; simpl; auto; try discriminate.
    + intros l X u U. injection X as <-. rewrite A. eauto.
    + intros l X u U D F. injection X as <-. destruct (Nat.eq_dec u t) as [->|N]; auto. rewrite upd_other in D, F by auto. rewrite C; eauto.
    + intros l c w X Y. injection X as <-. destruct (Nat.eq_dec c (cpu t)) as [->|N]; [rewrite B in Y; injection Y as <-; auto|]. rewrite C in Y by auto. eauto.
    + rewrite Ia. apply arrivals_same. intros u U. destruct (Nat.eq_dec u t) as [->|N]; [rewrite upd_same, P; auto|rewrite upd_other by auto; auto].
    + intros u U D v V. destruct (Nat.eq_dec u t) as [->|N]; [rewrite upd_same in D; discriminate|]. rewrite upd_other in D by auto. specialize (Iu u U D t Hl). rewrite P in Iu. discriminate.
  - destruct (pcs s t) eqn:P; try discriminate. injection St as <-. constructor; simpl; auto.
    + intros E u U. specialize (In_ E t Hl). congruence.
    + intros l E u U A B. destruct (Nat.eq_dec u t) as [->|N]; [apply (Ir l E t Hl); congruence|]. rewrite upd_other in A, B by auto. eauto.
    + rewrite Ia. symmetry. apply arrivals_upd; auto. rewrite P. reflexivity.
    + intros u U D v V. destruct (Nat.eq_dec u t) as [->|N]; [rewrite upd_same in D; discriminate|]. rewrite upd_other in D by auto. specialize (Iu u U D t Hl). rewrite P in Iu. discriminate.
  - destruct (pcs s t) eqn:P; try discriminate. destruct (Nat.eqb_spec (arrived s) (thread_count topo)) as [E|E]; [|discriminate]. injection St as <-.
    rewrite count_cpus, Ia in E. pose proof (arrivals_all _ _ E) as All. constructor; simpl; auto.
    + intros X u U. specialize (In_ X t Hl). congruence.
    + intros l X u U A B. destruct (Nat.eq_dec u t) as [->|N]; [apply (Ir l X t Hl); congruence|]. rewrite upd_other in A, B by auto. eauto.
    + rewrite Ia. apply arrivals_same. intros u U. destruct (Nat.eq_dec u t) as [->|N]; [rewrite upd_same, P; auto|rewrite upd_other by auto; auto].
    + intros u U D v V. destruct (Nat.eq_dec v t) as [->|N]; [rewrite upd_same; auto|rewrite upd_other by auto; auto].
Qed.
Lemma inv_init : forall topo cpu, inv topo cpu init.
Proof.
  intros topo cpu. constructor; simpl; auto; try discriminate. unfold arrivals. induction (seq 0 (length (cpus topo))); simpl; auto.
Qed.
Lemma inv_exec : forall topo cpu nd ls s s', topology topo -> one_per_cpu topo cpu nd -> Forall (fun l => thread l < length (cpus topo)) ls -> inv topo cpu s -> exec (step topo cpu) s ls = Some s' -> inv topo cpu s'.
Proof.
  intros topo cpu nd ls. induction ls as [|l ls IH]; intros s s' T O F I E; simpl in E; [injection E as <-; auto|]. inversion F; subst.
  destruct (step topo cpu s l) as [s1|] eqn:St; [|discriminate]. apply (IH s1 s'); auto. eapply inv_step; eauto.
Qed.

(** C155: whatever the order in which the threads run their constructors, nothing is written behind the array; as soon as one constructor has returned, every thread is registered under its CPU, and the array contains nothing else. *)
Theorem C155_registered : forall topo cpu nd ls s, topology topo -> one_per_cpu topo cpu nd -> Forall (fun l => thread l < length (cpus topo)) ls -> exec (step topo cpu) init ls = Some s ->
  bad s = false /\ forall t, t < length (cpus topo) -> pcs s t = Built ->
    exists l, sch s = Some l /\ (forall u, u < length (cpus topo) -> nth_error l (cpu u) = Some (Some u)) /\ (forall c w, nth_error l c = Some (Some w) -> w < length (cpus topo) /\ cpu w = c).
Proof.
  intros topo cpu nd ls s T O F E. destruct (inv_exec _ _ _ _ _ _ T O F (inv_init topo cpu) E) as [Ib In_ Il Ir Io Ia Iu]. split; auto. intros t Ht B.
  destruct (sch s) as [l|] eqn:S; [|rewrite (In_ eq_refl t Ht) in B; discriminate]. exists l. splits; auto; [|intros c w X; eauto].
  intros u Hu. specialize (Iu t Ht B u Hu). apply Ir; auto; intros X; rewrite X in Iu; discriminate.
Qed.
Print Assumptions C155_registered.

(** C155: as long as a thread has not passed the barrier some thread can go on: the constructors end. *)
Theorem C155_progress : forall topo cpu nd ls s, topology topo -> one_per_cpu topo cpu nd -> Forall (fun l => thread l < length (cpus topo)) ls -> exec (step topo cpu) init ls = Some s ->
  (exists l, thread l < length (cpus topo) /\ step topo cpu s l <> None) \/ (forall t, t < length (cpus topo) -> pcs s t = Built).
Proof.
  intros topo cpu nd ls s T O F E. pose proof (inv_exec _ _ _ _ _ _ T O F (inv_init topo cpu) E) as [Ib In_ Il Ir Io Ia Iu].
  set (n := length (cpus topo)) in *.
  assert (D : (exists t, t < n /\ late (pcs s t) = false) \/ forall t, t < n -> late (pcs s t) = true).
  { clear. induction n as [|n IH]; [right; intros; lia|]. destruct IH as [(t & L & H)|H]; [left; exists t; split; auto; lia|]. destruct (late (pcs s n)) eqn:X; [right|left; exists n; auto].
    intros t L. destruct (Nat.eq_dec t n) as [->|N]; auto. apply H. lia. }
  destruct D as [(t & L & H)|H].
  - left. destruct (pcs s t) eqn:P; try discriminate.
    + exists (LOnce t). split; auto. simpl. rewrite P. destruct (sch s); [discriminate|]. destruct (max_cpu topo); discriminate.
    + exists (LReg t). split; auto. simpl. rewrite P. destruct (sch s) as [l|] eqn:S; [destruct (set_nth l (cpu t) t); discriminate|]. specialize (In_ eq_refl t L). congruence.
    + exists (LArrive t). split; auto. simpl. rewrite P. discriminate.
  - assert (A : arrived s = thread_count topo).
    { rewrite count_cpus, Ia. fold n. clear - H. induction n as [|n IH]; auto. rewrite arrivals_S, (H n) by lia. rewrite IH by (intros; apply H; lia). lia. }
    assert (D : (exists t, t < n /\ pcs s t = Waiting) \/ forall t, t < n -> pcs s t = Built).
    { clear - H. induction n as [|n IH]; [right; intros; lia|]. destruct IH as [(t & L & X)|X]; [intros; apply H; lia|left; exists t; split; auto; lia|].
      specialize (H n ltac:(lia)). destruct (pcs s n) eqn:P; try discriminate; [left; exists n; auto|right]. intros t L. destruct (Nat.eq_dec t n) as [->|N]; auto. apply X. lia. }
    destruct D as [(t & L & P)|D]; auto. left. exists (LPass t). split; auto. simpl. rewrite P, A, Nat.eqb_refl. discriminate.
Qed.
Print Assumptions C155_progress.

Lemma steal_local_spec : forall (P : nat -> Prop) me cs sc, (forall c, In c cs -> c <> me -> exists w, victim sc c = Some w /\ P w) ->
  forall rnd count acc, Forall (fun p => fst p < length cs) rnd -> Forall P acc -> length acc < length cs -> length acc <= count ->
  exists a, asked (steal_local me cs sc count acc rnd) = Some a /\ Forall P a /\ length a <= length cs.
Proof.
  intros P me cs sc H. induction rnd as [|[i ok] r IH]; intros count acc F Pa L C; simpl.
  - exists (rev acc). split; [reflexivity|]. split; [apply Forall_rev; auto|rewrite rev_length; lia].
  - inversion F as [|? ? Hi Fr]; subst. simpl in Hi. destruct (nth_error cs i) as [c|] eqn:E; [|apply nth_error_None in E; lia].
    destruct (Nat.eqb_spec c me) as [->|N]; [apply IH; auto|]. destruct (H c) as (w & V & Pw); [eapply nth_error_In; eauto|auto|]. rewrite V.
    assert (R : exists a, Some (rev (w :: acc)) = Some a /\ Forall P a /\ length a <= length cs) by (exists (rev (w :: acc)); split; [reflexivity|]; split; [apply Forall_rev; auto|rewrite rev_length; cbn [length]; lia]).
    destruct ok; [exact R|]. destruct (Nat.ltb_spec (S count) (length cs)) as [X|X]; [|exact R]. apply IH; auto; cbn [length]; lia.
Qed.
Lemma steal_remote_spec : forall (P : nat -> Prop) me cs sc, ~ In me cs -> (forall c, In c cs -> exists w, victim sc c = Some w /\ P w) ->
  forall rnd count acc, Forall (fun p => fst p < length cs) rnd -> Forall P acc -> length acc < length cs -> length acc <= count ->
  exists a, asked (steal_remote me cs sc count acc rnd) = Some a /\ Forall P a /\ length a <= length cs.
Proof.
  intros P me cs sc Nm H. induction rnd as [|[i ok] r IH]; intros count acc F Pa L C; simpl.
  - exists (rev acc). split; [reflexivity|]. split; [apply Forall_rev; auto|rewrite rev_length; lia].
  - inversion F as [|? ? Hi Fr]; subst. simpl in Hi. destruct (nth_error cs i) as [c|] eqn:E; [|apply nth_error_None in E; lia]. apply nth_error_In in E.
    destruct (Nat.eqb_spec c me) as [->|N]; [contradiction|]. destruct (H c E) as (w & V & Pw). rewrite V.
    assert (R : exists a, Some (rev (w :: acc)) = Some a /\ Forall P a /\ length a <= length cs) by (exists (rev (w :: acc)); split; [reflexivity|]; split; [apply Forall_rev; auto|rewrite rev_length; cbn [length]; lia]).
    destruct ok; [exact R|]. destruct (Nat.ltb_spec (S count) (length cs)) as [X|X]; [|exact R]. apply IH; auto; cbn [length]; lia.
Qed.
(** Every CPU has a thread. *)
Lemma covered : forall topo cpu nd, one_per_cpu topo cpu nd -> forall c, In c (cpus topo) -> exists u, u < length (cpus topo) /\ cpu u = c.
Proof.
  intros topo cpu nd [O1 O2] c H. assert (X : incl (cpus topo) (map cpu (seq 0 (length (cpus topo))))).
  { apply NoDup_length_incl.
    - assert (G : forall k n, k + n <= length (cpus topo) -> NoDup (map cpu (seq k n))).
      { intros k n. revert k. induction n as [|n IH]; intros k L; simpl; constructor; [|apply IH; lia]. intros Y. apply in_map_iff in Y as (u & E & U). apply in_seq in U. apply O2 in E; lia. }
      apply G. lia.
    - rewrite map_length, seq_length. auto.
    - intros x Y. apply in_map_iff in Y as (u & <- & U). apply in_seq in U. destruct (O1 u) as (cs & A & B); [lia|]. apply in_flat_map. exists (nd u, cs). auto. }
  apply X in H. apply in_map_iff in H as (u & E & U). apply in_seq in U. exists u. split; auto. lia.
Qed.
Lemma remote_in : forall topo id c, In c (remote_cpus id topo) <-> exists n cs, In (n, cs) topo /\ n <> id /\ In c cs.
Proof.
  intros topo id c. unfold remote_cpus. rewrite in_flat_map. split.
  - intros ([n cs] & A & B). simpl in B. destruct (Nat.eqb_spec id n) as [->|N]; [contradiction|]. exists n, cs. auto.
  - intros (n & cs & A & N & B). exists (n, cs). split; auto. simpl. destruct (Nat.eqb_spec id n); [congruence|auto].
Qed.
Lemma cpu_node : forall topo n m cs ds c, NoDup (cpus topo) -> In (n, cs) topo -> In (m, ds) topo -> In c cs -> In c ds -> n = m.
Proof.
  unfold cpus. induction topo as [|[k es] r IH]; simpl; intros n m cs ds c N A B C D; [contradiction|].
  assert (Nr : NoDup (flat_map snd r)) by (clear - N; induction es; simpl in N; auto; inversion N; auto).
  assert (Dj : forall x, In x es -> ~ In x (flat_map snd r)) by (clear - N; induction es as [|e es IH]; simpl in *; intros x X; [contradiction|]; inversion N as [|? ? N1 N2]; subst; destruct X as [->|X]; [intros Y; apply N1; apply in_or_app; auto|auto]).
  destruct A as [A|A], B as [B|B].
  - congruence.
  - injection A as -> ->. exfalso. apply (Dj c C). apply in_flat_map. exists (m, ds). auto.
  - injection B as -> ->. exfalso. apply (Dj c D). apply in_flat_map. exists (n, cs). auto.
  - eapply IH; eauto.
Qed.

(** C155: a thread whose constructor has returned can search for work at once: whatever numbers are drawn (in the range of the distribution), no access is out of range and no assertion fails (in particular no nullptr is met); only schedulers of other threads are asked, first those of the own node, then those of other nodes; of each kind at most as many as there are CPUs. *)
Theorem C155_steal : forall topo cpu nd ls s t l rnd1 rnd2, topology topo -> one_per_cpu topo cpu nd -> Forall (fun l => thread l < length (cpus topo)) ls -> exec (step topo cpu) init ls = Some s ->
  t < length (cpus topo) -> pcs s t = Built -> sch s = Some l -> Forall (fun p => fst p < length (local_cpus (nd t) topo)) rnd1 -> Forall (fun p => fst p < length (remote_cpus (nd t) topo)) rnd2 ->
  exists a1 a2, asked (steal (cpu t) (nd t) topo l rnd1 rnd2) = Some (a1 ++ a2) /\
    Forall (fun u => u < length (cpus topo) /\ u <> t /\ nd u = nd t) a1 /\ Forall (fun u => u < length (cpus topo) /\ nd u <> nd t) a2 /\
    length a1 <= length (local_cpus (nd t) topo) /\ length a2 <= length (remote_cpus (nd t) topo).
Proof.
  intros topo cpu nd ls s t l rnd1 rnd2 T O F E Ht B S R1 R2. destruct (C155_registered _ _ _ _ _ T O F E) as [_ Reg]. destruct (Reg t Ht B) as (l' & S' & Rg & _). rewrite S in S'. injection S' as <-.
  pose proof (covered _ _ _ O) as Cov. destruct T as (T1 & T2 & T3), O as [O1 O2]. destruct (O1 t Ht) as (cs & Hn & Hc). pose proof (local_spec _ _ _ T2 Hn) as Lc. rewrite Lc in *.
  assert (V : forall u, u < length (cpus topo) -> victim l (cpu u) = Some u) by (intros u U; unfold victim; rewrite Rg; auto).
  destruct (steal_local_spec (fun u => u < length (cpus topo) /\ u <> t /\ nd u = nd t) (cpu t) cs l) with (rnd := rnd1) (count := 0) (acc := @nil nat) as (a1 & A1 & P1 & L1); auto.
  { intros c C N. destruct (Cov c) as (u & U & <-); [apply in_flat_map; exists (nd t, cs); auto|]. exists u. split; auto. split; auto. split; [congruence|]. destruct (O1 u U) as (ds & D1 & D2). eapply cpu_node; eauto. }
  { destruct cs; [contradiction|simpl; lia]. }
  unfold steal. rewrite Lc. destruct (steal_local (cpu t) cs l 0 [] rnd1) as [x|x|x|] eqn:Q; simpl in A1; try discriminate; injection A1 as ->.
  1, 3: exists a1, []; rewrite app_nil_r; simpl; splits; auto; lia.
  destruct (remote_cpus (nd t) topo) as [|r rs] eqn:Rm; [exists a1, []; rewrite app_nil_r; simpl; splits; auto; lia|]. rewrite <- Rm in *.
  destruct (steal_remote_spec (fun u => u < length (cpus topo) /\ nd u <> nd t) (cpu t) (remote_cpus (nd t) topo) l) with (rnd := rnd2) (count := 0) (acc := @nil nat) as (a2 & A2 & P2 & L2); auto.
  { intros X. apply remote_in in X as (n & ds & D1 & D2 & D3). apply D2. eapply cpu_node; eauto. }
  { intros c C. apply remote_in in C as (n & ds & D1 & D2 & D3). destruct (Cov c) as (u & U & <-); [apply in_flat_map; exists (n, ds); auto|]. exists u. split; auto. split; auto. destruct (O1 u U) as (es & E1 & E2). assert (nd u = n) by (eapply cpu_node; eauto). congruence. }
  { rewrite Rm. simpl. lia. }
  exists a1, a2. destruct (steal_remote _ _ _ _ _ rnd2) as [x|x|x|]; simpl in A2; try discriminate; injection A2 as ->; simpl; splits; auto.
Qed.
Print Assumptions C155_steal.

(** C155: "nothing" is the answer only after at least one other thread of the own node and, if there are other nodes, as many attempts there as they have CPUs. *)
Theorem C155_thorough : forall me nd topo sc rnd1 rnd2 a, steal me nd topo sc rnd1 rnd2 = Nothing a ->
  exists a1 a2, a = a1 ++ a2 /\ a1 <> [] /\ length a2 = length (remote_cpus nd topo).
Proof.
  intros me nd topo sc rnd1 rnd2 a H.
  assert (Lo : forall cs r n acc x, steal_local me cs sc n acc r = Nothing x -> x <> []).
  { intros cs. induction r as [|[i ok] r IH]; simpl; intros n acc x X; [discriminate|]. destruct (nth_error cs i) as [c|]; [|discriminate]. destruct (c =? me); [eauto|]. destruct (victim sc c) as [w|]; [|discriminate]. destruct ok; [discriminate|].
    destruct (S n <? length cs); [eauto|]. injection X as <-. intros Y. apply app_eq_nil in Y as [_ Y]. discriminate. }
  assert (Re : forall cs r n acc x, n < length cs -> length acc = n -> steal_remote me cs sc n acc r = Nothing x -> length x = length cs).
  { intros cs. induction r as [|[i ok] r IH]; intros n acc x L A X; simpl in X; [discriminate|]. destruct (nth_error cs i) as [c|]; [|discriminate]. destruct (c =? me); [discriminate|]. destruct (victim sc c) as [w|]; [|discriminate]. destruct ok; [discriminate|].
    destruct (Nat.ltb_spec (S n) (length cs)) as [Y|Y]; [eapply IH; eauto; simpl; lia|]. injection X as <-. rewrite app_length, rev_length. simpl. lia. }
  unfold steal in H. destruct (steal_local me (local_cpus nd topo) sc 0 [] rnd1) as [x|x|x|] eqn:Q; try discriminate. apply Lo in Q.
  destruct (remote_cpus nd topo) as [|r rs] eqn:Rm; [injection H as <-; exists x, []; rewrite app_nil_r; auto|].
  destruct (steal_remote me (r :: rs) sc 0 [] rnd2) as [y|y|y|] eqn:W; try discriminate. injection H as <-. exists x, y. split; [auto|]. split; [auto|]. apply (Re (r :: rs) rnd2 0 [] y); simpl; auto; lia.
Qed.
Print Assumptions C155_thorough.

(** Specification of the answers: [has w] says whether scheduler [w] has something to steal. *)
Definition truthful (has : nat -> bool) (sc : list (option nat)) (cs : list nat) (rnd : list (nat * bool)) : Prop :=
  Forall (fun p => forall c w, nth_error cs (fst p) = Some c -> nth_error sc c = Some (Some w) -> snd p = has w) rnd.
(** C155: a context is found exactly where there is one: the search stops at the first scheduler asked that has one; "nothing" means that no scheduler asked had one. *)
Theorem C155_answer : forall has me nd topo sc rnd1 rnd2, truthful has sc (local_cpus nd topo) rnd1 -> truthful has sc (remote_cpus nd topo) rnd2 ->
  match steal me nd topo sc rnd1 rnd2 with
  | Found a => exists b w, a = b ++ [w] /\ has w = true /\ Forall (fun u => has u = false) b
  | Nothing a | More a => Forall (fun u => has u = false) a
  | Bad => True
  end.
Proof.
  intros has me nd topo sc rnd1 rnd2 T1 T2.
  assert (Vi : forall c w, victim sc c = Some w -> nth_error sc c = Some (Some w)) by (unfold victim; intros c w H; destruct (nth_error sc c) as [[|]|]; congruence).
  assert (Lo : forall cs r n acc, truthful has sc cs r -> Forall (fun u => has u = false) acc -> match steal_local me cs sc n acc r with
    | Found a => exists b w, a = b ++ [w] /\ has w = true /\ Forall (fun u => has u = false) b | Nothing a | More a => Forall (fun u => has u = false) a | Bad => True end).
  { intros cs. induction r as [|[i ok] r IH]; intros n acc T A; simpl; [apply Forall_rev; auto|]. inversion T as [|? ? Hd Tl]; subst. simpl in Hd. destruct (nth_error cs i) as [c|] eqn:E; auto. destruct (c =? me); [apply IH; auto|].
    destruct (victim sc c) as [w|] eqn:V; auto. specialize (Hd c w eq_refl (Vi _ _ V)). destruct ok; [exists (rev acc), w; split; [auto|]; split; [auto|]; apply Forall_rev; auto|].
    assert (A' : Forall (fun u => has u = false) (w :: acc)) by (constructor; auto). destruct (S n <? length cs); [apply IH; auto|apply (Forall_rev A')]. }
  assert (Re : forall cs r n acc, truthful has sc cs r -> Forall (fun u => has u = false) acc -> match steal_remote me cs sc n acc r with
    | Found a => exists b w, a = b ++ [w] /\ has w = true /\ Forall (fun u => has u = false) b | Nothing a | More a => Forall (fun u => has u = false) a | Bad => True end).
  { intros cs. induction r as [|[i ok] r IH]; intros n acc T A; simpl; [apply Forall_rev; auto|]. inversion T as [|? ? Hd Tl]; subst. simpl in Hd. destruct (nth_error cs i) as [c|] eqn:E; auto. destruct (c =? me); auto.
    destruct (victim sc c) as [w|] eqn:V; auto. specialize (Hd c w eq_refl (Vi _ _ V)). destruct ok; [exists (rev acc), w; split; [auto|]; split; [auto|]; apply Forall_rev; auto|].
    assert (A' : Forall (fun u => has u = false) (w :: acc)) by (constructor; auto). destruct (S n <? length cs); [apply IH; auto|apply (Forall_rev A')]. }
  unfold steal. specialize (Lo _ rnd1 0 [] T1 (Forall_nil _)). destruct (steal_local me (local_cpus nd topo) sc 0 [] rnd1) as [x|x|x|]; auto.
  specialize (Re _ rnd2 0 [] T2 (Forall_nil _)). destruct (remote_cpus nd topo) as [|r rs]; auto.
  destruct (steal_remote me (r :: rs) sc 0 [] rnd2) as [y|y|y|]; auto; [|apply Forall_app; auto|apply Forall_app; auto].
  destruct Re as (b & w & -> & H & B). exists (x ++ b), w. rewrite app_assoc. split; [auto|]. split; [auto|]. apply Forall_app; auto.
Qed.
Print Assumptions C155_answer.

(** Two nodes with CPUs 0, 2 and 1, 5; thread t has the t-th CPU of the list. *)
Definition topo2 : list node := [(0, [0; 2]); (1, [1; 5])].
Definition cpu2 (t : nat) : nat := nth t [0; 2; 1; 5] 0.
Definition nd2 (t : nat) : nat := nth t [0; 0; 1; 1] 0.
Definition run2 : list label := [LOnce 3; LReg 3; LOnce 0; LArrive 3; LReg 0; LArrive 0; LOnce 1; LOnce 2; LReg 2; LReg 1; LArrive 1; LArrive 2; LPass 1].
Example C155_case_hyps : topology topo2 /\ one_per_cpu topo2 cpu2 nd2 /\ Forall (fun l => thread l < length (cpus topo2)) run2.
Proof.
  split; [|split].
  - unfold topology, topo2, cpus. simpl. splits; repeat constructor; simpl; try discriminate; intuition lia.
  - split; simpl.
    + intros t H. destruct t as [|[|[|[|t]]]]; [| | | |lia]; unfold cpu2, nd2, topo2; simpl; eexists; (split; [eauto|simpl; auto]).
    + intros t u H K. destruct t as [|[|[|[|t]]]], u as [|[|[|[|u]]]]; try lia; unfold cpu2; simpl; intros; try discriminate; auto.
  - repeat constructor.
Qed.
Example C155_case : exists s l, exec (step topo2 cpu2) init run2 = Some s /\ pcs s 1 = Built /\ sch s = Some l /\
  steal (cpu2 1) (nd2 1) topo2 l [(1, true); (0, false)] [(1, false); (0, true)] = Found [0; 3; 2].
Proof. eexists. eexists. split; [vm_compute; reflexivity|]. split; [reflexivity|]. split; [reflexivity|]. vm_compute. reflexivity. Qed.
Example C155_case_thorough : steal 2 0 topo2 [Some 0; Some 2; Some 1; None; None; Some 3] [(0, false); (0, false)] [(1, false); (1, false)] = Nothing [0; 0; 3; 3].
Proof. vm_compute. reflexivity. Qed.
Example C155_case_answer : let sc := [Some 0; Some 2; Some 1; None; None; Some 3] in let has := Nat.eqb 2 in
  truthful has sc (local_cpus 0 topo2) [(0, false); (0, false)] /\ truthful has sc (remote_cpus 0 topo2) [(1, false); (0, true)] /\
  steal 2 0 topo2 sc [(0, false); (0, false)] [(1, false); (0, true)] = Found [0; 0; 3; 2].
Proof.
  simpl. split; [|split]; [| |vm_compute; reflexivity]; unfold truthful; repeat constructor; simpl; intros c w E; injection E as <-; simpl; intros W; injection W as <-; reflexivity.
Qed.
(** Why the condition "one thread per CPU" is needed: with two threads on the same CPU the barrier opens, but an entry is still a nullptr. *)
Example C155_needs : exists s l, exec (step topo2 (fun t => nth t [0; 0; 1; 5] 0)) init run2 = Some s /\ sch s = Some l /\ steal 0 0 topo2 l [(1, false)] [] = Bad.
Proof. eexists. eexists. split; [vm_compute; reflexivity|]. split; [reflexivity|]. vm_compute. reflexivity. Qed.
