(** C105: properties and the scheduling algorithm. *)
From Coq Require Import List Arith Bool Lia.
From Verif Require Import Base PropAlgo PropAlgoSpec PropAlgoFacts.
Import ListNotations.

Lemma inv_only t ls : forall s s', inv t s -> Forall (only t) ls -> exec step s ls = Some s' -> inv t s'.
Proof.
  induction ls as [|l ls IH]; cbn; intros s s' I F E; [congruence|]. inversion F; subst. destruct (step s l) as [s1|] eqn:E1; [|discriminate].
  apply (IH s1); auto. eapply inv_step; eauto.
Qed.

(** C105, if every algorithm of the thread and every property object given to a fiber is for the same type: each call reaches the right algorithm with an object of the right type, whenever and however often the algorithm is replaced. What is missing: algorithms without properties or with properties of different types on the same thread ([C105_refuted_freed], [C105_refuted_type], [C105_refuted_unset]). *)
Theorem C105_legal_partial : forall t ls s, Forall (only t) ls -> exec step (init_state (With t)) ls = Some s -> legal (log s).
Proof. intros t ls s F E. apply (i_legal t s). eapply inv_only; eauto. apply inv_init. Qed.
Print Assumptions C105_legal_partial.

(** C105, under the same condition: a change of a property of a fiber is reported once if the fiber is ready, to the algorithm that has it, and not at all if it runs or waits. *)
Theorem C105_reported_partial : forall t ls s c s', Forall (only t) ls -> exec step (init_state (With t)) ls = Some s -> step s (Notify c) = Some s' ->
  (at_ s c = Ready -> exists a, holder (log s) c = Some a /\ log s' = EChange a c t :: log s) /\
  (at_ s c = Running \/ at_ s c = Waiting -> s' = s \/ log s' = ENotSet c :: log s /\ prop s c = None).
Proof.
  intros t ls s c s' F E N. pose proof (inv_only t ls _ _ (inv_init t) F E) as [K P R C L Fb].
  assert (Z : s' = notify s c) by (cbn in N; destruct (at_ s c); congruence). subst s'. split.
  - intros A. destruct (R c A) as (R1 & R2 & _). exists (cur s). split; auto. unfold notify, linked. rewrite R1, A. destruct (K (cur s) (le_n _)) as (K1 & _). now rewrite K1, Nat.ltb_irrefl.
  - intros A. unfold notify, linked. destruct (prop s c) as [[u [a|]]|] eqn:X; auto.
    + destruct A as [A|A]; rewrite A; auto.
    + destruct (P c u None X) as (_ & b & Y & _). discriminate.
Qed.
Print Assumptions C105_reported_partial.

(** C105 is false of the code: when an algorithm with properties is replaced by one without, the properties of the ready fibers keep the pointer to the old algorithm; a change of a property of such a fiber calls the destroyed algorithm. *)
Theorem C105_refuted_freed : exists k s, reachable step (init_state k) s /\ In (EFreed 0 1) (log s).
Proof. exists (With 1). apply (reach_by step (init_state (With 1)) [New 1 None; SetAlgo (Plain true) [1]; Notify 1]). vm_compute. auto. Qed.
Print Assumptions C105_refuted_freed.
(** C105 is false of the code: when an algorithm is replaced by one with properties of another type, the fibers keep their property objects; awakened() of the new algorithm is called with an object of the wrong type. *)
Theorem C105_refuted_type : exists k s, reachable step (init_state k) s /\ In (EAlgo 1 (With 2)) (log s) /\ In (EAwakened 1 1 1) (log s).
Proof. exists (With 1). apply (reach_by step (init_state (With 1)) [New 1 None; SetAlgo (With 2) [1]]). vm_compute. auto 20. Qed.
Print Assumptions C105_refuted_type.
(** C105 is false of the code: a fiber created with a property object on a thread whose algorithm has no properties: changing a property fails the assertion that algo_ is set (and dereferences nullptr without assertions, as the fiber is ready). *)
Theorem C105_refuted_unset : exists k s, reachable step (init_state k) s /\ In (ENoAlgo 1) (log s) /\ at_ s 1 = Ready.
Proof. exists (Plain true). apply (reach_by step (init_state (Plain true)) [New 1 (Some 1); Notify 1]). vm_compute. auto. Qed.
Print Assumptions C105_refuted_unset.

(** The algorithm is replaced twice while fibers are ready and waiting, then properties are changed. *)
Example C105_case : exists ls s, Forall (only 1) ls /\ exec step (init_state (With 1)) ls = Some s /\ In (EChange 2 1 1) (log s) /\ In (EAwakened 2 0 1) (log s) /\ at_ s 1 = Ready.
Proof.
  exists [New 1 None; New 2 (Some 1); SetAlgo (With 1) [2; 1]; Block 0 2; SetAlgo (With 1) [1]; Wake 0; Notify 0; Notify 1; Notify 2].
  eexists. split; [repeat constructor|]. split; [vm_compute; reflexivity|]. vm_compute. splits; auto 20.
Qed.
