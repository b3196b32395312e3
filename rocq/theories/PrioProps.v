(** C82 - C84: fiber properties and priority_scheduler. *)
From Coq Require Import List Arith ZArith Bool Lia.
From Verif Require Import Base Prio PrioSpec PrioProofs.
Import ListNotations.

(** ** C82. properties() and the setters of properties can be used on every fiber. *)
(** fiber f( launch::dispatch, fn) where fn returns without blocking: properties() of f fails. *)
Theorem C82_refuted_not_set : exists s, reachable step init s /\ failed s = Some NotSet.
Proof. apply reach_by with (ls := [Launch 2 None; Term; Disp; SetPrio 2 5%Z]). vm_compute. auto. Qed.
(** fiber f( launch::dispatch, new priority_props( nullptr), fn) where fn changes its own priority: the properties have no algorithm. *)
Theorem C82_refuted_no_algo : exists s, reachable step init s /\ failed s = Some NoAlgo.
Proof. apply reach_by with (ls := [Launch 2 (Some 0%Z); SetMine 5%Z]). vm_compute. auto. Qed.
(** For a fiber that has been ready at least once, as every fiber started with launch::post: never. *)
Theorem C82_awakened_partial s c p s' : reachable step init s -> In (EReady c) (log s) -> step s (SetPrio c p) = Some s' -> failed s' = None.
Proof.
  intros R H E. assert (F : failed s = None) by (unfold step in E; destruct (failed s); [discriminate|auto]).
  destruct (inv_step s _ s' (inv_reachable s R F) E) as [(X & _)|(_ & X)]; [now destruct X|auto].
Qed.
Theorem C82_mine_partial s p s' : reachable step init s -> In (EReady (run s)) (log s) -> step s (SetMine p) = Some s' -> failed s' = None.
Proof.
  intros R H E. assert (F : failed s = None) by (unfold step in E; destruct (failed s); [discriminate|auto]).
  destruct (inv_step s _ s' (inv_reachable s R F) E) as [(X & _)|(_ & X)]; [now destruct X|auto].
Qed.
Theorem C82_post_partial s k p s' : step s (Spawn k p) = Some s' -> In (EReady k) (log s').
Proof. unfold step. destruct (failed s); [discriminate|]. destruct (_ && _); [|discriminate]. intros E. injection E as <-. simpl. auto. Qed.
(** Nothing else fails: in particular pick_next() always has a context for one that leaves the processor. *)
Theorem C82_other_partial s : reachable step init s -> failed s <> Some NullNext.
Proof.
  assert (G : forall s, reachable step init s -> failed s = None \/ failed s = Some NotSet \/ failed s = Some NoAlgo).
  { apply reachable_inv2; [auto|]. intros s0 l s' R _ E. assert (F : failed s0 = None) by (unfold step in E; destruct (failed s0); [discriminate|auto]).
    destruct (inv_step s0 l s' (inv_reachable s0 R F) E) as [(_ & [X|X])|(_ & X)]; auto. }
  intros R H. destruct (G s R) as [X|[X|X]]; congruence.
Qed.
Example C82_nonvacuous : exists s, reachable step init s /\ In (EReady 2) (log s) /\ run s = 2 /\ props s 2 = Some 7%Z /\ rq s = [1; 0].
Proof. apply reach_by with (ls := [Spawn 2 (Some 3%Z); SetPrio 2 7%Z; Yield]). vm_compute. splits; auto. Qed.

(** ** C83. A context that leaves the processor, or the dispatcher, is followed by the context with the highest priority among the ready ones; of several, by the one that is ready (with this priority) for the longest time. *)
Theorem C83_order s l s' : reachable step init s -> step s l = Some s' -> run s' <> run s -> (forall k p, l <> Launch k p) ->
  best (prio s) (arrivals (log s)) (run s').
Proof.
  intros R E N L. assert (F : failed s = None) by (unfold step in E; destruct (failed s); [discriminate|auto]). assert (I := inv_reachable s R F).
  unfold step in E. destruct (failed s) eqn:F'; [discriminate|]. rewrite <- F' in E.
  assert (Sw : forall b sl g, run (switch (mkP (run s) (rq s) (props s) (algo s) b sl g (started s) (failed s) (log s))) <> run s -> exists c r, rq s = c :: r /\ run (switch (mkP (run s) (rq s) (props s) (algo s) b sl g (started s) (failed s) (log s))) = c).
  { intros b sl g. unfold switch. simpl. destruct (rq s) as [|c r]; simpl; [congruence|eauto]. }
  assert (Y : run (yield_ s) <> run s -> exists c r, rq s = c :: r /\ run (yield_ s) = c).
  { unfold yield_, switch. destruct (rq s) as [|c r]; simpl; [congruence|eauto]. }
  assert (G : exists c r, rq s = c :: r /\ run s' = c).
  { destruct l as [k p|k p| | | | |c|c| |c p|p].
    - destruct (_ && _); [|discriminate]. injection E as <-. easy.
    - now destruct (L k p).
    - destruct (_ =? _); [discriminate|]. injection E as <-. auto.
    - destruct (_ =? _); [discriminate|]. injection E as <-. exact (Sw _ _ _ N).
    - destruct (_ =? _); [discriminate|]. injection E as <-. exact (Sw _ _ _ N).
    - destruct (_ <? _); [discriminate|]. injection E as <-. exact (Sw _ _ _ N).
    - destruct (_ && _); [|discriminate]. injection E as <-. easy.
    - destruct (_ && _); [|discriminate]. injection E as <-. easy.
    - destruct (_ =? _); [|discriminate]. destruct (rq s); injection E as <-; auto; congruence.
    - destruct (_ && _); [|discriminate]. destruct (props s c); injection E as <-; [|easy]. exfalso. apply N. unfold set_priority. destruct (p =? z)%Z; auto. destruct (negb _); auto. destruct (linked _ _); auto.
    - destruct (_ =? _); [discriminate|]. destruct (props s (run s)); injection E as <-; auto. exfalso. apply N. unfold set_priority. destruct (p =? z)%Z; auto. destruct (negb _); auto. destruct (linked _ _); auto. }
  destruct G as (c & r & E1 & ->). pose proof (p_q _ I) as q. rewrite E1 in q. eapply q_best; eauto.
Qed.
(** A ready context is in the record of arrivals exactly if the algorithm holds it, once. *)
Theorem C83_holds s : reachable step init s -> failed s = None -> NoDup (rq s) /\ forall c, In c (rq s) <-> In c (arrivals (log s)).
Proof. intros R F. assert (I := inv_reachable s R F). split; [apply (p_nd _ I)|]. intros c. apply (q_in (prio s)). apply (p_q _ I). Qed.
(** A change of priority takes effect and concerns nobody else. *)
Lemma set_prio s c q p : props s c = Some q -> failed (set_priority s c q p) = None -> prio (set_priority s c q p) c = p /\ forall d, d <> c -> prio (set_priority s c q p) d = prio s d.
Proof.
  intros P. unfold set_priority. destruct (Z.eqb_spec p q) as [->|]; [intros _; unfold prio; rewrite P; auto|].
  assert (G : prio (with_prio s c p) c = p /\ forall d, d <> c -> prio (with_prio s c p) d = prio s d) by (unfold prio, with_prio; simpl; rewrite upd_same; split; auto; intros d D; now rewrite upd_other).
  destruct (negb _); [discriminate|]. destruct (linked _ _); intros _; exact G.
Qed.
Theorem C83_set s c p s' : step s (SetPrio c p) = Some s' -> failed s' = None -> prio s' c = p /\ forall d, d <> c -> prio s' d = prio s d.
Proof.
  unfold step. destruct (failed s); [discriminate|]. destruct (_ && _); [|discriminate]. destruct (props s c) as [q|] eqn:P; intros E; injection E as <-; [now apply set_prio|discriminate].
Qed.
Theorem C83_mine s p s' : reachable step init s -> step s (SetMine p) = Some s' -> failed s' = None -> run s' = run s -> prio s' (run s) = p /\ forall d, d <> run s -> prio s' d = prio s d.
Proof.
  intros Re. unfold step. destruct (failed s) eqn:F0; [discriminate|]. pose proof (p_run _ (inv_reachable s Re F0)) as N. destruct (_ =? _); [discriminate|]. destruct (props s (run s)) as [q|] eqn:P; intros E; injection E as <-; intros F R; [now apply set_prio|].
  unfold yield_, switch in *. destruct (rq s) as [|c r]; [discriminate|]. simpl in R. subst c. destruct N. simpl. auto.
Qed.
(** Nothing else changes a priority; a new fiber has the one of the properties it was given, or 0. *)
Theorem C83_keep s l s' : step s l = Some s' -> match l with
  | SetPrio _ _ | SetMine _ => True
  | Spawn k p | Launch k p => prio s' k = (match p with Some z => z | None => 0%Z end) /\ forall d, d <> k -> prio s' d = prio s d
  | _ => forall d, prio s' d = prio s d
  end.
Proof.
  unfold step. destruct (failed s); [discriminate|]. intros E.
  assert (Y : forall s0 d, prio (yield_ s0) d = prio s0 d) by (intros s0 d; unfold yield_; destruct (rq s0) eqn:R; [unfold switch; now rewrite R|]; rewrite aw_prio; unfold switch; now rewrite R).
  assert (Sw : forall s0 d, prio (switch s0) d = prio s0 d) by (intros s0 d; unfold switch; now destruct (rq s0)).
  assert (Cr : forall k p, prio (create s k p) k = (match p with Some z => z | None => 0%Z end) /\ forall d, d <> k -> prio (create s k p) d = prio s d) by (intros k p; unfold prio, create; simpl; rewrite upd_same; split; auto; intros d D; now rewrite upd_other).
  destruct l as [k p|k p| | | | |c|c| |c p|p]; auto.
  - destruct (_ && _); [|discriminate]. injection E as <-. rewrite aw_prio. destruct (Cr k p) as (A & B). split; auto. intros d D. rewrite aw_prio. auto.
  - destruct (_ && _); [|discriminate]. injection E as <-. rewrite aw_prio. destruct (Cr k p) as (A & B). split; [exact A|]. intros d D. rewrite aw_prio. now apply B.
  - destruct (_ =? _); [discriminate|]. injection E as <-. apply Y.
  - destruct (_ =? _); [discriminate|]. injection E as <-. intros d. now rewrite Sw.
  - destruct (_ =? _); [discriminate|]. injection E as <-. intros d. now rewrite Sw.
  - destruct (_ <? _); [discriminate|]. injection E as <-. intros d. now rewrite Sw.
  - destruct (_ && _); [|discriminate]. injection E as <-. intros d. now rewrite aw_prio.
  - destruct (_ && _); [|discriminate]. injection E as <-. intros d. now rewrite aw_prio.
  - destruct (_ =? _); [|discriminate]. destruct (rq s); injection E as <-; auto.
Qed.
Example C83_nonvacuous : exists s s', reachable step init s /\ step s Yield = Some s' /\ arrivals (log s) = [1; 2; 3] /\ map (prio s) [1; 2; 3] = [0; 4; 4]%Z /\ run s' = 2.
Proof.
  destruct (reach_by step init [Spawn 2 None; SetPrio 2 4%Z; Spawn 3 (Some 4%Z)] (fun s => match step s Yield with Some s' => arrivals (log s) = [1; 2; 3] /\ map (prio s) [1; 2; 3] = [0; 4; 4]%Z /\ run s' = 2 | None => False end)) as (s & R & H); [vm_compute; auto|].
  destruct (step s Yield) as [s'|] eqn:E; [|easy]. exists s, s'. destruct H as (A & B & C). splits; auto.
Qed.

(** ** C84. A context whose timer has expired gets ready although other contexts keep yielding. False: two fibers with a priority above that of the dispatcher pass the processor to each other for ever; the sleeping fiber, whatever its priority, is not woken. *)
Theorem C84_refuted : exists s, reachable step init s /\ sleeping s 4 = true /\ prio s 4 = 9%Z /\
  forall n, exists s', exec step s (repeat Yield n) = Some s' /\ run s' <> disp_c /\ sleeping s' 4 = true.
Proof.
  set (ok := fun s a b => failed s = None /\ run s = a /\ rq s = [b; disp_c] /\ (exists p, props s a = Some p /\ (0 < p)%Z) /\ (exists p, props s b = Some p /\ (0 < p)%Z /\ props s a = props s b) /\ props s disp_c = Some 0%Z /\ sleeping s 4 = true).
  assert (St : forall s, ok s 2 3 \/ ok s 3 2 -> forall n, exists s', exec step s (repeat Yield n) = Some s' /\ (ok s' 2 3 \/ ok s' 3 2)).
  { assert (G : forall s a b, ok s a b -> (a = 2 /\ b = 3 \/ a = 3 /\ b = 2) -> exists s', step s Yield = Some s' /\ ok s' b a).
    { intros s a b (F & Ra & Rq & (p & Pa & Pp) & (q & Pb & Pq & Pe) & Pd & Sl) AB. assert (p = q) by congruence. subst q.
      unfold step. rewrite F, Ra. assert (a =? disp_c = false) as -> by (destruct AB as [(-> & _)|(-> & _)]; auto).
      eexists. split; [reflexivity|]. unfold yield_, switch, awakened. rewrite Rq, Ra. simpl. rewrite Pa. unfold ok. simpl. rewrite Pa, Pd. destruct (Z.ltb_spec 0 p); [|lia]. splits; auto; eauto. }
    intros s H n. revert s H. induction n as [|n IH]; intros s H; simpl; [eauto|].
    destruct H as [H|H]; [destruct (G s 2 3 H) as (s1 & -> & H1)|destruct (G s 3 2 H) as (s1 & -> & H1)]; auto. }
  destruct (reach_by step init [Spawn 2 (Some 1%Z); Spawn 3 (Some 1%Z); Spawn 4 (Some 9%Z); Block; Sleep] (fun s => prio s 4 = 9%Z /\ ok s 2 3)) as (s & R & H & K).
  { unfold ok. vm_compute. splits; auto; eexists; splits; reflexivity. }
  exists s. splits; auto; [apply K|]. intros n. destruct (St s (or_introl K) n) as (s' & E & X). exists s'. split; auto. destruct X as [X|X]; destruct X as (_ & -> & _ & _ & _ & _ & X); split; auto; discriminate.
Qed.
(** If no ready context and not the running one has a higher priority than the dispatcher: the dispatcher runs after at most as many yields as there are ready contexts. *)
Theorem C84_partial s : reachable step init s -> failed s = None -> run s <> disp_c ->
  (forall c, c = run s \/ In c (rq s) -> (prio s c <= prio s disp_c)%Z) ->
  exists n s', n <= length (rq s) /\ exec step s (repeat Yield n) = Some s' /\ run s' = disp_c.
Proof.
  intros R F N H. assert (I := inv_reachable s R F).
  destruct (p_disp _ I) as [|D]; [easy|]. apply in_split in D. destruct D as (a & b & E).
  enough (G : exists s', exec step s (repeat Yield (S (length a))) = Some s' /\ run s' = disp_c).
  { destruct G as (s' & G1 & G2). exists (S (length a)), s'. splits; auto. rewrite E, app_length. simpl. lia. }
  clear N. assert (N : run s <> disp_c \/ False) by (left; intros X; apply (p_run _ I); rewrite E, X; apply in_or_app; simpl; auto). destruct N as [N|[]].
  revert s b R F N H I E. induction a as [|c a IH]; intros s b R F N H I E.
  - simpl. unfold step. rewrite F. destruct (Nat.eqb_spec (run s) disp_c); [easy|]. eexists. split; [reflexivity|]. unfold yield_, switch. rewrite E. simpl. auto.
  - assert (St : step s Yield = Some (yield_ s)) by (unfold step; rewrite F; destruct (Nat.eqb_spec (run s) disp_c); easy).
    change (repeat Yield (S (length (c :: a)))) with (Yield :: repeat Yield (S (length a))). cbn [exec]. rewrite St.
    destruct (inv_yield s I N) as (I' & F').
    assert (Pr : forall d, prio (yield_ s) d = prio s d).
    { intros d. unfold yield_. rewrite E. simpl app. cbv iota. rewrite aw_prio. unfold switch, prio. rewrite E. reflexivity. }
    assert (Rq : rq (yield_ s) = a ++ disp_c :: enqueue (prio s) (run s) b).
    { unfold yield_. rewrite E. simpl app. cbv iota. rewrite aw_rq. unfold switch at 2. rewrite E. simpl.
      assert (X : forall d, prio (awakened (switch s) (run s)) d = prio s d) by (intros d; rewrite <- Pr; unfold yield_; now rewrite E).
      assert (Ex : forall l, enqueue (prio (awakened (switch s) (run s))) (run s) l = enqueue (prio s) (run s) l). { induction l as [|y l IHl]; simpl; auto. rewrite !X, IHl. auto. } rewrite Ex. clear Ex X.
      pose proof (q_sorted _ _ _ (p_q _ I)) as S. rewrite E in S. assert (Ra : forall d, In d a -> (prio s disp_c <= prio s d)%Z).
      { intros d D. clear - S D. inversion S as [|? ? S1 _]; subst. clear S. induction a as [|y a IHa]; [easy|]. simpl in S1. inversion S1 as [|? ? S2 F2]; subst. destruct D as [->|D]; auto. rewrite Forall_forall in F2. apply (F2 disp_c). apply in_or_app. simpl. auto. }
      assert (Rr : (prio s (run s) <= prio s disp_c)%Z) by (apply H; auto).
      clear - Ra Rr. induction a as [|y a IHa]; simpl; [destruct (Z.ltb_spec (prio s disp_c) (prio s (run s))); auto; lia|]. assert (Y := Ra y (or_introl eq_refl)). destruct (Z.ltb_spec (prio s y) (prio s (run s))); [lia|]. f_equal. apply IHa. intros d D. apply Ra. simpl. auto. }
    assert (Rn : run (yield_ s) = c) by (unfold yield_, switch; rewrite E; reflexivity).
    apply (IH (yield_ s) (enqueue (prio s) (run s) b)); auto.
    + eapply reachable_step; eauto.
    + congruence.
    + rewrite Rn. intros ->. apply (p_run _ I'). rewrite Rn, Rq. apply in_or_app. simpl. auto.
    + intros d D. rewrite !Pr. rewrite Rn, Rq in D. apply H. rewrite E. simpl. destruct D as [->|D]; auto. apply in_app_or in D. simpl in D. destruct D as [D|[D|D]]; [right; right; apply in_or_app; auto|right; right; apply in_or_app; simpl; auto|]. apply enq_in in D. destruct D as [->|D]; auto. right; right; apply in_or_app; simpl; auto.
Qed.
Example C84_nonvacuous : exists s, reachable step init s /\ failed s = None /\ run s = 2 /\ rq s = [3; 0; 1] /\ map (prio s) [2; 3; 1; 0] = [0; 0; 0; 0]%Z.
Proof. apply reach_by with (ls := [Spawn 2 None; Spawn 3 None; Yield; Disp]). vm_compute. splits; auto. Qed.

Print Assumptions C82_refuted_not_set.
Print Assumptions C82_refuted_no_algo.
Print Assumptions C82_awakened_partial.
Print Assumptions C82_mine_partial.
Print Assumptions C82_post_partial.
Print Assumptions C82_other_partial.
Print Assumptions C83_order.
Print Assumptions C83_holds.
Print Assumptions C83_set.
Print Assumptions C83_mine.
Print Assumptions C83_keep.
Print Assumptions C84_refuted.
Print Assumptions C84_partial.
