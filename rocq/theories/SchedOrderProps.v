(** C43, C41: the order of wake-ups from other threads. *)
From Coq Require Import List Arith Bool Lia.
From Verif Require Import Base Sched SchedSpec SchedFacts SchedFacts2 SchedFacts3 SchedFacts4 SchedFacts5 SchedFacts6 SchedFacts7 SchedFacts8 SchedFacts9 SchedFacts10 SchedFacts11 SchedFacts12 SchedProps.
Import ListNotations.

(** The fibers that other threads have handed to thread [t] and that are not ready yet, oldest first. *)
Definition handed (s : state) (t : tid) : list ctx := tmp (th s t) ++ rrq (th s t).

(** ** C43 (order). Fibers handed over by other threads become ready in the order in which they were handed over: every step keeps the list, appends the fiber that a thread is pushing, or makes its first one ready, behind all that are ready already. *)
Theorem C43_in_order s l s' t : reach s -> step s l = Some s' -> errs s' = [] ->
  handed s' t = handed s t \/
  (exists a g k, pcc (cx s a) = PPush g k /\ home (cx s g) = t /\ handed s' t = handed s t ++ [g]) \/
  (exists c, handed s t = c :: handed s' t /\ rq (th s' t) = rq (th s t) ++ [c] /\ log s' = EAwake t c :: log s).
Proof.
  intros R St E. destruct (step_tr _ _ _ St E) as [E0 T]. unfold handed.
  assert (K : forall H, (forall u, th s' u = H u) -> tmp (H t) = tmp (th s t) -> rrq (H t) = rrq (th s t) -> tmp (th s' t) ++ rrq (th s' t) = tmp (th s t) ++ rrq (th s t)) by (intros H X Y Z; rewrite X, Y, Z; auto).
  destruct T as [d Q|u a h ev Ha Hp Hb Hc Q|u a p ev Ha Hm Q|u a n h c Ha Hp Hc Hn Hh Hb Q|u a n h c Ha Hp Hc Hn Hh Hb Q|u a x rdy sl ev c r Ha Ho Hq Hf Q|u a e Ha Hp He Q|u a g e k x sl ev Ha Hw He Q|u a g e k x sl ev Ha Hw Hg He Hh Q|u a g e k x sl ev Ha Hw Hg He Hh Q
    |u a g k v ev Ha Hp Hv Hg Hev Q|u a v k Ha Hp Hg Q|u a h c Ha Hp Hb Hh Hc Q|u a h c e d r Ha Hp Hf Hl Ht He Hq Hfd Q|u a h c z ev Ha Hp Hr Q|u a h c z ev Ha Hp Hb Hh Hr Q|u a h1 h2 Ha Hp Hb1 Hb2 Hne Hh Q|u v Ha Hp Q|u a Ha Hp Hl Q|u a Ha Hp Hw Hu Hl Q|u a z ev Ha Hp Hw Ht Hs Hr Q
    |u Ha Hp Hs Q|u c r z ev Ha Hp Ht Hc Hr Q|u Ha Hp Q|u c r Ha Hp Ht Q|u o Ha Hp Hf Q|u Ha Hp Ht Q]; destruct Q as [Qc Qt Qh Qb Qk Ql];
    try (left; apply (K _ Qt); reflexivity);
    try (left; eapply K; [exact Qt|..]; try (destruct (Nat.eq_dec t u) as [->|N]; [rewrite ?upd_same|rewrite ?upd_other by auto]; try destruct rdy; reflexivity); fail).
  - destruct (Nat.eq_dec t v) as [->|N]; [|left; rewrite Qt, upd_other by auto; auto]. right. left. exists a, g, k. splits; auto. rewrite Qt, upd_same. simpl. now rewrite app_assoc.
  - left. rewrite Qt. destruct (Nat.eq_dec t v) as [->|N]; [rewrite upd_same|rewrite upd_other by auto]; reflexivity.
  - left. rewrite Qt. destruct (Nat.eq_dec t u) as [->|N]; [rewrite upd_same|rewrite upd_other by auto; reflexivity]. simpl. rewrite app_nil_r.
    assert (Z : tmp (th s u) = []); [|now rewrite Z].
    destruct (tmp (th s u)) eqn:Et; auto. exfalso. destruct (C43_drained s u R) as (_ & X); [congruence|]. congruence.
  - destruct (Nat.eq_dec t u) as [->|N]; [|left; rewrite Qt, upd_other by auto; auto]. right. right. exists c. rewrite Qt, upd_same, Ht. simpl. auto.
Qed.
(** Two fibers of thread 0 block; thread 1 wakes the second, then the first: they are handed over in this order, and become ready in this order. *)
Definition two_handed : list label :=
  [LOp 0 (OLaunch Dispatch 0 0); LRun 0; LOp 0 OArm; LRun 0] ++ repeat (LRun 0) 8 ++ [LOp 0 (OLaunch Dispatch 1 1); LRun 0; LOp 0 OArm; LRun 0] ++ repeat (LRun 0) 8 ++ [LOp 0 (OSleep 7)] ++ repeat (LRun 0) 7 ++
  [LOp 1 (OWake (Wk 1) 1); LRun 1; LRun 1; LOp 1 (OWake (Wk 0) 1); LRun 1; LRun 1].
Example C43_in_order_ex : exists s, reach s /\ errs s = [] /\ handed s 0 = [Wk 1; Wk 0].
Proof. apply (reach_by step init two_handed). vm_compute. auto. Qed.
Example C43_in_order_ex2 : exists s, reach s /\ errs s = [] /\ handed s 0 = [] /\ rq (th s 0) = [Wk 1; Wk 0].
Proof. apply (reach_by step init (two_handed ++ repeat (LRun 0) 6)). vm_compute. auto. Qed.

Print Assumptions C43_in_order.
