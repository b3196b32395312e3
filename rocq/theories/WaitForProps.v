(** C78, C79: waitfor_all() for CUDA and HIP streams. *)
From Coq Require Import List Arith Bool Lia Permutation.
From Verif Require Import Base WaitFor WaitForSpec WaitForProofs.
Import ListNotations.

(** ** C78. One stream. The full claim is: no execution touches the rendezvous object after it has been destroyed, and the result is what was reported. *)
Theorem C78_refuted : exists s, reachable (s_step 7) s_init s /\ s_ub s = true.
Proof. apply reach_by with (ls := [SAdd None; SCb 0; SCheck; SNotify]). vm_compute. auto. Qed.
(** waitfor_all() returns what the runtime has reported, once, for this stream. *)
Theorem C78_result_partial st s : reachable (s_step st) s_init s -> forall a b, s_ph s = SRet a b -> s_rep s = [(a, b)] /\ a = st.
Proof. intros R a b H. assert (I := sinv_reachable st s R). destruct (s1_ret _ _ I a b H) as (D & -> & ->). apply (s1_done _ _ I D). Qed.
(** A blocked caller will be notified: the callback has not run yet, or has not called notify_one() yet. *)
Theorem C78_no_hang_partial st s : reachable (s_step st) s_init s -> s_ph s = SBlock ->
  exists ls s', exec (s_step st) s ls = Some s' /\ s_ph s' = SWait /\ s_done s' = true.
Proof.
  intros R H. assert (I := sinv_reachable st s R). destruct s as [ph cb a b d rep ub]; simpl in *. subst ph. destruct (s1_blk _ _ I eq_refl) as [X|X]; simpl in X; subst cb.
  - exists [SCb 0; SNotify]. eexists. simpl. splits; auto.
  - exists [SNotify]. eexists. simpl. splits; auto. simpl. destruct d; auto. destruct (s1_todo _ _ I eq_refl) as (_ & [|]); discriminate.
Qed.
(** Without the race between return and notify_one() nothing is touched after its destruction. *)
Theorem C78_safe_partial st s : reachable (s_calm st) s_init s -> s_ub s = false.
Proof. intros R. apply (scalm_inv st s R). Qed.
Example C78_nonvacuous : exists s, reachable (s_calm 7) s_init s /\ s_ph s = SRet 7 3.
Proof. apply reach_by with (ls := [SAdd None; SCheck; SCb 3; SNotify; SCheck]). vm_compute. auto. Qed.
Example C78_blocked : exists s, reachable (s_step 7) s_init s /\ s_ph s = SBlock.
Proof. apply reach_by with (ls := [SAdd None; SCheck]). vm_compute. auto. Qed.

(** ** C79. Several streams. *)
(** The callback of the first stream runs before the loop of the constructor goes on: the node of the iterator has been erased. All registrations succeed. *)
Theorem C79_refuted_iterator : exists s, reachable m_step (m_init [1; 2]) s /\ m_ub s = true /\ m_rep s = [(1, 0)].
Proof. apply reach_by with (ls := [MNext; MReg None; MCb 1 0; MNext]). vm_compute. auto. Qed.
(** A registration that fails: the constructor erases the node of its own iterator. *)
Theorem C79_refuted_error : exists s, reachable m_step (m_init [1; 2]) s /\ m_ub s = true /\ m_rep s = [(1, 5)].
Proof. apply reach_by with (ls := [MNext; MReg (Some 5); MErr; MNext]). vm_compute. auto. Qed.
(** As in C78: the caller returns between unlock() and notify_one(). *)
Theorem C79_refuted_notify : exists s, reachable m_step (m_init [1; 2]) s /\ m_ub s = true /\ m_ph s = MRet [(2, 0); (1, 0)].
Proof. apply reach_by with (ls := [MNext; MReg None; MNext; MReg None; MNext; MCb 2 0; MCb 1 0; MCheck; MNotify 1]). vm_compute. auto. Qed.
(** If an execution has been free of undefined behaviour so far, the result has one entry for each stream, with the reported status, in the order of the reports. *)
Theorem C79_result_partial l s : reachable m_step (m_init l) s -> m_ub s = false -> forall r, m_ph s = MRet r ->
  NoDup (map fst r) /\ (forall st, In st (map fst r) <-> In st l) /\ r = rev (m_rep s).
Proof.
  intros R U r H. assert (I := minv_reachable l s R U). destruct (m1_ret _ _ I r H) as (E & ->). pose proof (m1_perm _ _ I) as P. rewrite E in P. simpl in P. splits.
  - apply (Permutation_NoDup (Permutation_sym P)). apply sorted_nodup, set_sorted.
  - intros st. rewrite <- (set_in l st). split; apply Permutation_in; [exact P|now apply Permutation_sym].
  - rewrite (m1_rep _ _ I). now rewrite rev_involutive.
Qed.
(** And a blocked caller waits for a callback that is still to come. *)
Theorem C79_no_hang_partial l s : reachable m_step (m_init l) s -> m_ub s = false -> m_ph s = MBlock ->
  exists st, In st l /\ (m_cb s st = CPending \/ m_cb s st = CNotify).
Proof.
  intros R U H. assert (I := minv_reachable l s R U). destruct (m_stx s) as [|x r] eqn:E.
  - destruct (m1_blk _ _ I H E) as (st & A & B). eauto.
  - exists x. assert (X : In x (m_stx s)) by (rewrite E; simpl; auto). split; [eapply in_l0; eauto|]. left. destruct (m1_in _ _ I x X) as [(T & _)|(_ & N)]; auto. rewrite H in T. easy.
Qed.
(** With successful registrations, no callback before the end of the constructor and no return before notify_one() there is no undefined behaviour. *)
Theorem C79_safe_partial l s : reachable (m_calm l) (m_init l) s -> m_ub s = false.
Proof. intros R. apply (mcalm_inv l s R). Qed.
Example C79_nonvacuous : exists s, reachable (m_calm [3; 1; 3]) (m_init [3; 1; 3]) s /\ m_ph s = MRet [(3, 8); (1, 9)].
Proof. apply reach_by with (ls := [MNext; MReg None; MNext; MReg None; MNext; MCheck; MCb 3 8; MCb 1 9; MNotify 1; MCheck]). vm_compute. auto. Qed.
Example C79_blocked : exists s, reachable m_step (m_init [2; 1]) s /\ m_ub s = false /\ m_ph s = MBlock.
Proof. apply reach_by with (ls := [MNext; MReg None; MNext; MReg None; MNext; MCheck]). vm_compute. auto. Qed.

Print Assumptions C78_refuted.
Print Assumptions C78_result_partial.
Print Assumptions C78_no_hang_partial.
Print Assumptions C78_safe_partial.
Print Assumptions C79_refuted_iterator.
Print Assumptions C79_refuted_error.
Print Assumptions C79_refuted_notify.
Print Assumptions C79_result_partial.
Print Assumptions C79_no_hang_partial.
Print Assumptions C79_safe_partial.
