(** C74, C75: thread_barrier and the constructor of work_stealing. *)
From Coq Require Import List Arith Bool Lia.
From Verif Require Import Base ThreadBarrier ThreadBarrierSpec ThreadBarrierProofs WsCtor.
Import ListNotations.

Lemma barrier_ok_app n h1 h0 : barrier_ok n (h1 ++ h0) -> barrier_ok n h0.
Proof. induction h1 as [|[t|t b] h1 IH]; simpl; auto; intros H; apply IH; tauto. Qed.

(** ** C74 *)
(** For any number of threads: a call returns only when all n calls of its round (consecutive blocks of n calls) have been made, with true exactly for the last of them; current_ does not underflow. *)
Theorem C74_nobody_early : forall n s h1 t b h0, n <> 0 -> reachable (step n) (init n) s -> log s = h1 ++ ERet t b :: h0 ->
  exists k, ticket h0 t = Some k /\ n * (k / n + 1) <= arrivals h0 /\ b = (k mod n =? n - 1).
Proof.
  intros n s h1 t b h0 Hn R E. pose proof (i_log _ _ (inv_reachable n s Hn R)) as L. rewrite E in L. apply barrier_ok_app in L. simpl in L. tauto.
Qed.
Theorem C74_no_underflow : forall n s, n <> 0 -> reachable (step n) (init n) s -> 1 <= current s <= n.
Proof. intros n s Hn R. apply (i_cur _ _ (inv_reachable n s Hn R)). Qed.
Theorem C74_zero_rejected : make 0 = None /\ forall n, n <> 0 -> make n = Some (init n).
Proof. split; auto. intros [|n]; [congruence|auto]. Qed.

(** At most n threads: whenever no thread is about to do something, every thread whose round is complete has returned. *)
Theorem C74_released_partial : forall n T ls s t, n <> 0 -> length T <= n -> Forall (fun l => In (thr l) T) ls ->
  exec (step n) (init n) ls = Some s -> quiet s -> ~ owed n s t.
Proof.
  intros n T ls s t Hn LT F E Q (k & Tk & Le).
  assert (R : reachable (step n) (init n) s) by now exists ls.
  pose proof (inv_reachable n s Hn R) as I. pose proof (inv2_exec n T ls s Hn LT F E) as J.
  destruct (Q t) as (Q1 & Q2). destruct (pc s t) as [|c|c|] eqn:P; try congruence.
  - rewrite (i_out _ _ I t P) in Tk. discriminate.
  - destruct J as [_ (L & _ & _ & _ & _ & Lt)].
    assert (W : waits (pc s t) c) by now left. destruct (i_wait _ _ I t c W) as (j & A & B & C & D). assert (j = k) by congruence. subst j.
    destruct (Lt t c k W Tk) as (X & Y).
    assert (k / n + 1 <= arrivals (log s) / n) by (apply Nat.div_le_lower_bound; lia).
    destruct (in_dec Nat.eq_dec t L) as [i|i]; [specialize (X i); lia|specialize (Y i)].
    destruct (i_pend _ _ I t c P) as (u & U).
    + rewrite (i_cyc _ _ I), C, <- Y. rewrite Nat.add_1_r, Nat.even_succ, <- Nat.negb_even. now destruct (Nat.even (k / n)).
    + destruct (Q u). congruence.
Qed.

(** More than n threads: a thread is left behind in a round that is complete, and no later notification of that round comes: cycle_ has come back to the old value. *)
Definition aba : list label :=
  [Enter 0; Enter 1; (* round 0 is complete, thread 1 is about to notify *)
   Enter 2; Enter 3; (* round 1 is complete *)
   NotifyAll 1; NotifyAll 3; Check 0; Check 2].
Theorem C74_refuted : exists s, reachable (step 2) (init 2) s /\ quiet s /\ owed 2 s 0.
Proof.
  apply reach_by with (ls := aba). vm_compute. split.
  - intros [|[|[|[|t]]]]; split; congruence.
  - exists 0. split; auto.
Qed.
(** ... and the two calls of a further round that wake it up strand another thread in the same way; with no further call it stays for ever: *)
Theorem C74_refuted_for_ever : exists s, reachable (step 2) (init 2) s /\ owed 2 s 0 /\
  forall ls s', Forall (fun l => forall t, l <> Enter t) ls -> exec (step 2) s ls = Some s' -> owed 2 s' 0.
Proof.
  destruct (reach_by (step 2) (init 2) aba (fun s => cycle s = true /\ pc s 0 = Sleep true /\ owed 2 s 0)) as (s & R & C & P & O).
  { vm_compute. splits; auto. exists 0. split; auto. }
  exists s. splits; auto. intros ls s' F E.
  assert (G : forall ls s, cycle s = true -> waits (pc s 0) true -> owed 2 s 0 -> Forall (fun l => forall t, l <> Enter t) ls -> exec (step 2) s ls = Some s' -> owed 2 s' 0).
  { clear. induction ls as [|l ls IH]; simpl; intros s C W O F E; [congruence|]. inversion F as [|? ? F1 F2]; subst.
    destruct (step 2 s l) as [s1|] eqn:E1; [|discriminate]. destruct O as (k & Tk & Le).
    destruct l as [t|t|t|t]; simpl in E1; [now destruct (F1 t)| | |].
    - destruct (pc s t) eqn:P; try discriminate. injection E1 as <-. assert (t <> 0) by (intros ->; destruct W; congruence).
      refine (IH _ _ _ _ F2 E); simpl; auto.
      + upds. unfold waits in *. destruct (pc s 0); simpl; intuition congruence.
      + exists k. simpl. destruct (Nat.eqb_spec t 0); [congruence|]. split; auto.
    - destruct (pc s t) eqn:P; try discriminate. injection E1 as <-. refine (IH _ _ _ _ F2 E); simpl; auto.
      + upds; auto. right. destruct W; congruence.
      + exists k. split; auto.
    - destruct (pc s t) as [| |c|] eqn:P; try discriminate. destruct (eqb c (cycle s)) eqn:EC; injection E1 as <-.
      + refine (IH _ _ _ _ F2 E); simpl; auto.
        * upds; auto. left. destruct W; congruence.
        * exists k. split; auto.
      + apply eqb_false_iff in EC. assert (t <> 0) by (intros ->; destruct W; congruence). refine (IH _ _ _ _ F2 E); simpl; auto.
        * upds; auto.
        * exists k. simpl. destruct (Nat.eqb_spec t 0); [congruence|]. split; auto. }
  apply (G ls s); auto. now left.
Qed.
(** Two rounds of three threads; in between spurious wake-ups. *)
Definition rounds : list label := [Enter 0; Enter 2; Spurious 0; Check 0; Enter 1; Spurious 2; Check 2; NotifyAll 1; Enter 1; Check 0; Enter 0; Enter 2; NotifyAll 2; Check 0; Check 1].
Lemma ran n ls (P : st -> Prop) : after (step n) (init n) ls P -> exists s, exec (step n) (init n) ls = Some s /\ P s.
Proof. unfold after. destruct (exec (step n) (init n) ls) as [s|]; [eauto|contradiction]. Qed.
Example C74_nonvacuous : Forall (fun l => In (thr l) [0;1;2]) rounds /\
  exists s, exec (step 3) (init 3) rounds = Some s /\ quiet s /\ arrivals (log s) = 6.
Proof.
  split; [repeat (constructor; [simpl; auto|]); constructor|]. apply ran. vm_compute. split; auto.
  intros [|[|[|[|t]]]]; split; congruence.
Qed.

(** ** C75 *)
(** Construction [t] has returned. *)
Definition constructed (s : cst) (t : nat) : Prop := exists b, In (ERet t b) (log (bar s)).
(** The threads that have called b.wait(). *)
Fixpoint arrived (h : list event) : list nat := match h with [] => [] | EArrive t :: h' => t :: arrived h' | _ :: h' => arrived h' end.
Definition ident (p : phase) : option nat := match p with Fresh | Crashed => None | Counted i | Inited i | Registered i | Entered i => Some i end.

Record cinv (n : nat) (s : cst) : Prop := mkCinv {
  c_bar : inv n (bar s);
  c_id : forall t i, ident (ph s t) = Some i -> i < counter s;
  c_inj : forall t u i, ident (ph s t) = Some i -> ident (ph s u) = Some i -> t = u;
  c_size : forall t i, ph s t = Inited i -> size s = n;
  c_reg : forall t i, ph s t = Registered i \/ ph s t = Entered i -> i < n /\ regs s i = Some t;
  c_arr : forall t, In t (arrived (log (bar s))) -> exists i, ph s t = Entered i;
  c_nd : NoDup (arrived (log (bar s)));
  c_crash : forall t, ph s t = Crashed -> n < counter s;
  c_sz : size s = n \/ size s = 0 /\ forall t i, ph s t <> Inited i
}.
Lemma arrived_length h : length (arrived h) = arrivals h.
Proof. induction h as [|[t|t b] h IH]; simpl; auto. Qed.

Lemma step_log n b l b' : step n b l = Some b' -> (exists t, l = Enter t /\ log b' = EArrive t :: log b) \/ (arrived (log b') = arrived (log b) /\ forall t, l <> Enter t).
Proof.
  destruct l as [t|t|t|t]; simpl; destruct (pc b t) as [|c|c|]; try discriminate.
  - destruct (current b - 1 =? 0); intros E; injection E as <-; left; exists t; auto.
  - intros E; injection E as <-; right; split; auto; congruence.
  - intros E; injection E as <-; right; split; auto; congruence.
  - destruct (eqb c (cycle b)); intros E; injection E as <-; right; split; auto; congruence.
Qed.

Lemma cinv_reachable n s : n <> 0 -> reachable (cstep n) (cinit n) s -> cinv n s.
Proof.
  intros Hn R. revert s R. apply (reachable_inv (cstep n) (cinv n)).
  { constructor; simpl; try (intros; discriminate); auto; try now apply inv_init.
    - intros t i [E|E]; discriminate.
    - easy.
    - constructor.
    - right. split; auto. discriminate. }
  intros s l s' [B Id Inj Sz Rg Ar Nd Cr Zz] E. destruct l as [t|t|t|l].
  - simpl in E. destruct (ph s t) eqn:P; try discriminate. injection E as <-. constructor; simpl; auto.
    + intros u i. upds; [intros E; injection E as <-; lia|]. intros E. apply Id in E. lia.
    + intros u v i. upds; eauto.
      * intros A C. apply Id in C. injection A as <-. lia.
      * intros A C. apply Id in A. injection C as <-. lia.
    + intros u i. upds; [discriminate|]. apply Sz.
    + intros u i. upds; [intros [E|E]; discriminate|]. apply Rg.
    + intros u U. destruct (Ar u U) as (i & E). upds; [congruence|eauto].
    + intros u. upds; [discriminate|]. intros E. apply Cr in E. lia.
    + destruct Zz as [Zz|(Zz & Z2)]; auto. right. split; auto. intros u i. upds; [discriminate|auto].
  - simpl in E. destruct (ph s t) eqn:P; try discriminate. injection E as <-. constructor; simpl; auto.
    + intros u j. upds; [|apply Id]. intros E. injection E as <-. apply (Id t). now rewrite P.
    + intros u v j. upds; eauto.
      * intros A C. apply (Inj t v j); auto. now rewrite P.
      * intros A C. apply (Inj u t j); auto. now rewrite P.
    + intros u j. upds; [intros [E|E]; discriminate|]. apply Rg.
    + intros u U. destruct (Ar u U) as (j & E). upds; [congruence|eauto].
    + intros u. upds; [discriminate|]. apply Cr.
  - simpl in E. destruct (ph s t) eqn:P; try discriminate. destruct (Nat.ltb_spec i (size s)); injection E as <-; constructor; simpl; auto.
    + intros u j. upds; [|apply Id]. intros E. injection E as <-. apply (Id t). now rewrite P.
    + intros u v j. upds; eauto.
      * intros A C. apply (Inj t v j); auto. now rewrite P.
      * intros A C. apply (Inj u t j); auto. now rewrite P.
    + intros u j. upds; [discriminate|]. apply Sz.
    + rewrite (Sz t i P) in H. intros u j. destruct (Nat.eq_dec u t) as [->|N].
      * rewrite (upd_same (ph s)). intros [E|E]; [injection E as <-|discriminate]. now rewrite upd_same.
      * rewrite (upd_other (ph s)) by auto. intros E. destruct (Rg u j E) as (X & Y). split; auto. rewrite upd_other; auto. intros ->.
        assert (u = t); [|congruence]. apply (Inj u t i); [|now rewrite P]. destruct E as [E|E]; now rewrite E.
    + intros u U. destruct (Ar u U) as (j & E). upds; [congruence|eauto].
    + intros u. upds; [discriminate|]. apply Cr.
    + destruct Zz as [Zz|(Zz & Z2)]; auto. now destruct (Z2 t i).
    + intros u j. upds; [discriminate|apply Id].
    + intros u v j. upds; eauto; discriminate.
    + intros u j. upds; [discriminate|]. apply Sz.
    + intros u j. upds; [intros [E|E]; discriminate|]. apply Rg.
    + intros u U. destruct (Ar u U) as (j & E). upds; [congruence|eauto].
    + intros u. upds; [|apply Cr]. intros _. rewrite (Sz t i P) in H. assert (i < counter s); [|lia]. apply (Id t). now rewrite P.
    + destruct Zz as [Zz|(Zz & Z2)]; auto. now destruct (Z2 t i).
  - assert (X : exists b, step n (bar s) l = Some b /\
       ((exists t i, l = Enter t /\ ph s t = Registered i /\ s' = mkC (counter s) (size s) (regs s) b (upd (ph s) t (Entered i))) \/
        ((forall t, l <> Enter t) /\ s' = mkC (counter s) (size s) (regs s) b (ph s)))).
    { destruct l as [t|t|t|t]; cbn [cstep] in E.
      1: destruct (ph s t) as [|i|i|i|i|] eqn:P; try discriminate.
      all: match type of E with match ?x with _ => _ end = _ => destruct x as [b|] eqn:S; [|discriminate] end; injection E as <-; exists b; split; auto.
      - left. exists t, i. auto.
      - right. split; auto. discriminate.
      - right. split; auto. discriminate.
      - right. split; auto. discriminate. }
    clear E. destruct X as (b & S & X). pose proof (inv_step n _ _ _ Hn B S) as B'. destruct (step_log _ _ _ _ S) as [(t & -> & Lg)|(Lg & Ne)].
    + destruct X as [(t' & i & Et & P & ->)|(Ne & _)]; [|now destruct (Ne t)]. injection Et as <-. constructor; simpl; auto; rewrite ?Lg; simpl.
      * intros u j. upds; [|apply Id]. intros E. injection E as <-. apply (Id t). now rewrite P.
      * intros u v j. upds; eauto.
        -- intros A C. apply (Inj t v j); auto. now rewrite P.
        -- intros A C. apply (Inj u t j); auto. now rewrite P.
      * intros u j. upds; [discriminate|]. apply Sz.
      * intros u j. upds; [|apply Rg]. intros [E|E]; [discriminate|]. injection E as <-. apply Rg. auto.
      * intros u [<-|U]; [rewrite upd_same; eauto|]. destruct (Ar u U) as (j & E). upds; eauto.
      * constructor; auto. intros F. destruct (Ar t F) as (j & E). congruence.
      * intros u. upds; [discriminate|]. apply Cr.
      * destruct Zz as [Zz|(Zz & Z2)]; auto. right. split; auto. intros u j. upds; [discriminate|auto].
    + destruct X as [(t' & i & Et & _)|(_ & ->)]; [now destruct (Ne t')|]. constructor; simpl; auto; rewrite ?Lg; auto.
Qed.

(** When a constructor has returned, the entries 0 .. n-1 of schedulers_ (all there are) point to different, registered schedulers: no thread ever steals through a null pointer, or from a scheduler that is its own under another index. *)
Theorem C75_registered : forall n s t, n <> 0 -> reachable (cstep n) (cinit n) s -> constructed s t ->
  size s = n /\ (forall i, i < n -> exists u, regs s i = Some u) /\
  (forall i j u, i < n -> j < n -> regs s i = Some u -> regs s j = Some u -> i = j).
Proof.
  intros n s t Hn R (b & F). pose proof (cinv_reachable n s Hn R) as I.
  apply in_split in F. destruct F as (h1 & h0 & E).
  pose proof (i_log _ _ (c_bar _ _ I)) as L. rewrite E in L. apply barrier_ok_app in L. simpl in L. destruct L as ((k & Tk & Le & _) & _).
  assert (A : n <= length (arrived (log (bar s)))).
  { rewrite arrived_length, E. assert (G : forall h h', arrivals h' <= arrivals (h ++ h')) by (induction h as [|[x|x y] h IH]; simpl; intros; auto; specialize (IH h'); lia).
    specialize (G h1 (ERet t b :: h0)). simpl in G. assert (n * 1 <= n * (k / n + 1)) by (apply Nat.mul_le_mono_l; lia). lia. }
  set (idx := fun u => match ph s u with Entered i => i | _ => 0 end).
  assert (Ent : forall u, In u (arrived (log (bar s))) -> ph s u = Entered (idx u) /\ idx u < n /\ regs s (idx u) = Some u).
  { intros u U. destruct (c_arr _ _ I u U) as (i & P). unfold idx. rewrite P. split; auto. apply (c_reg _ _ I); auto. }
  assert (ND : NoDup (map idx (arrived (log (bar s))))).
  { pose proof (c_nd _ _ I) as N. revert Ent N. generalize (arrived (log (bar s))). induction l as [|u l IH]; simpl; intros En N; [constructor|].
    inversion N as [|? ? N1 N2]; subst. constructor; [|apply IH; auto]. intros F. apply in_map_iff in F. destruct F as (v & V & Iv). apply N1.
    assert (u = v); [|congruence]. destruct (En u) as (_ & _ & X); auto. destruct (En v) as (_ & _ & Y); auto. congruence. }
  assert (Inc : incl (seq 0 n) (map idx (arrived (log (bar s))))).
  { apply NoDup_length_incl; auto; [rewrite map_length, seq_length; auto|].
    intros i Hi. apply in_map_iff in Hi. destruct Hi as (u & <- & U). apply in_seq. destruct (Ent u U). lia. }
  assert (All : forall i, i < n -> exists u, ph s u = Entered i /\ regs s i = Some u).
  { intros i Hi. destruct (proj1 (in_map_iff _ _ _) (Inc i ltac:(apply in_seq; lia))) as (u & <- & U). exists u. destruct (Ent u U) as (X & _ & Y). auto. }
  splits.
  - destruct (c_sz _ _ I) as [|(Z & _)]; auto. exfalso. destruct (All 0 ltac:(lia)) as (u & P & _).
    assert (SZ : forall s, reachable (cstep n) (cinit n) s -> (size s = 0 -> forall t, ident (ph s t) = None \/ exists i, ph s t = Counted i)).
    { clear - Hn. apply (reachable_inv (cstep n) (fun s => size s = 0 -> forall t, ident (ph s t) = None \/ exists i, ph s t = Counted i)); [simpl; auto|].
      intros s l s' I E Z u. destruct l as [t|t|t|l].
      - simpl in E. destruct (ph s t) eqn:P; try discriminate. injection E as <-. simpl in *. upds; [eauto|auto].
      - simpl in E. destruct (ph s t) eqn:P; try discriminate. injection E as <-. simpl in *. congruence.
      - simpl in E. destruct (ph s t) eqn:P; try discriminate. destruct (Nat.ltb_spec i (size s)); injection E as <-; simpl in *; [lia|]. upds; [auto|auto].
      - destruct l as [t|t|t|t]; cbn [cstep] in E.
        1: destruct (ph s t) as [|i|i|i|i|] eqn:P; try discriminate.
        all: match type of E with match ?x with _ => _ end = _ => destruct x as [b|] eqn:S; [|discriminate] end; injection E as <-; simpl in *; auto.
        specialize (I Z t). rewrite P in I. destruct I as [I|(j & I)]; discriminate. }
    destruct (SZ s R Z u) as [X|(j & X)]; rewrite P in X; discriminate.
  - intros i Hi. destruct (All i Hi) as (u & _ & X). eauto.
  - intros i j u Hi Hj A1 A2. destruct (All i Hi) as (v & P1 & X1). destruct (All j Hj) as (w & P2 & X2). assert (v = w) by congruence. congruence.
Qed.

(** At most n constructions in the life of the program: the write to schedulers_ is within bounds. *)
Theorem C75_in_bounds_partial : forall n s, n <> 0 -> reachable (cstep n) (cinit n) s -> counter s <= n -> forall t, ph s t <> Crashed.
Proof. intros n s Hn R C t E. pose proof (c_crash _ _ (cinv_reachable n s Hn R) t E). lia. Qed.

(** But counter_ is never decremented: with any thread_count n, construction number n + 1 writes behind the end of schedulers_, even if the n threads before it have come to their end. *)
Theorem C75_refuted : forall n, n <> 0 -> exists s, reachable (cstep n) (cinit n) s /\ counter s = S n /\ ph s n = Crashed.
Proof.
  intros n Hn.
  assert (G : forall k, exists s, reachable (cstep n) (cinit n) s /\ counter s = k /\ (forall t, k <= t -> ph s t = Fresh)).
  { induction k as [|k (s & R & C & F)]; [exists (cinit n); splits; auto; apply reachable_refl|].
    exists (mkC (S (counter s)) (size s) (regs s) (bar s) (upd (ph s) k (Counted (counter s)))). splits; simpl; auto.
    - apply (reachable_step _ _ s (Count k)); auto. simpl. now rewrite F.
    - intros t Ht. rewrite upd_other by lia. apply F. lia. }
  destruct (G n) as (s & R & C & F).
  destruct (exec (cstep n) s [Count n; Once n; Register n]) as [s'|] eqn:E.
  - exists s'. split; [eapply reachable_exec; eauto|]. simpl in E. rewrite F in E by auto. simpl in E. rewrite upd_same in E. simpl in E. rewrite upd_same in E.
    rewrite C, Nat.ltb_irrefl in E. injection E as <-. simpl. now rewrite upd_same.
  - exfalso. simpl in E. rewrite F in E by auto. simpl in E. rewrite upd_same in E. simpl in E. rewrite upd_same in E. rewrite C, Nat.ltb_irrefl in E. discriminate.
Qed.
(** Two threads, two constructions: both return. *)
Example C75_nonvacuous : exists s, reachable (cstep 2) (cinit 2) s /\ constructed s 0 /\ constructed s 1 /\ counter s <= 2.
Proof.
  apply reach_by with (ls := [Count 1; Count 0; Once 0; Register 0; Bar (Enter 0); Once 1; Register 1; Bar (Enter 1); Bar (NotifyAll 1); Bar (Check 0)]).
  vm_compute. splits; auto; eexists; auto.
Qed.

Print Assumptions C74_nobody_early.
Print Assumptions C74_no_underflow.
Print Assumptions C74_zero_rejected.
Print Assumptions C74_released_partial.
Print Assumptions C74_refuted.
Print Assumptions C74_refuted_for_ever.
Print Assumptions C75_registered.
Print Assumptions C75_in_bounds_partial.
Print Assumptions C75_refuted.
