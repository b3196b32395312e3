(** C14-C16: theorems about barrier. *)
From Coq Require Import List Arith Bool Lia.
From Verif Require Import Base Kernel KernelFacts CondVar CondVarSpec CondVarProofs CondVarProps Client ClientProofs Barrier BarrierSpec BarrierProofs.
Import ListNotations.

(** ** C14 *)
Theorem C14_zero_rejected : make_barrier 0 = None /\ forall n, n <> 0 -> make_barrier n = Some (barrier n).
Proof. split; auto. intros [|n]; [congruence|auto]. Qed.

Theorem C14_no_underflow : forall n s, n <> 0 -> reachable (bstep n) (binit n) s -> 1 <= current (dat s) <= n.
Proof. intros n s Hn R. apply (b_cur _ _ (binv_reachable n s Hn R)). Qed.

Lemma barrier_ok_split n h1 h0 : barrier_ok n (h1 ++ h0) -> barrier_ok n h0.
Proof. induction h1 as [|[f o|f r a|f x] h1 IH]; simpl; auto; intros H; apply IH; tauto. Qed.

(** A call returns only when all n calls of its round (rounds: consecutive blocks of n arrivals) have arrived;
    wait() never throws. *)
Theorem C14_nobody_early : forall n s h1 f r a h0, n <> 0 -> reachable (bstep n) (binit n) s ->
  clog s = h1 ++ CRet f r a :: h0 ->
  exists t b, ticket h0 f = Some t /\ n * (t / n + 1) <= arrivals h0 /\ r = RB b.
Proof.
  intros n s h1 f r a h0 Hn R E. pose proof (b_log _ _ (binv_reachable n s Hn R)) as L. rewrite E in L.
  apply barrier_ok_split in L. simpl in L. destruct L as ((t & A & B & C) & _). eauto.
Qed.

(** Arrivals: every call arrives at most once, between its call and its return. *)
Theorem C14_arrival_once : forall n s h1 f x h0, n <> 0 -> reachable (bstep n) (binit n) s ->
  clog s = h1 ++ CX f x :: h0 -> in_wait h0 f = true /\ ticket h0 f = None.
Proof.
  intros n s h1 f x h0 Hn R E. pose proof (b_log _ _ (binv_reachable n s Hn R)) as L. rewrite E in L.
  apply barrier_ok_split in L. simpl in L. tauto.
Qed.

(** Auxiliary: tickets of the calls that have arrived and not returned; calls that have not arrived. *)
Fixpoint rm (x : nat) (l : list nat) : list nat :=
  match l with [] => [] | y :: l' => if Nat.eqb y x then rm x l' else y :: rm x l' end.
Lemma rm_in x y l : In y (rm x l) <-> In y l /\ y <> x.
Proof.
  induction l as [|z l IH]; simpl; [tauto|]. destruct (Nat.eqb_spec z x) as [->|]; simpl; rewrite IH; intuition congruence.
Qed.
Lemma rm_none x l : ~ In x l -> rm x l = l.
Proof.
  induction l as [|z l IH]; simpl; auto. intros H. destruct (Nat.eqb_spec z x) as [->|]; [exfalso; auto|].
  f_equal. auto.
Qed.
Lemma rm_nodup x l : NoDup l -> NoDup (rm x l).
Proof.
  induction l as [|z l IH]; simpl; intros H; auto. inversion H; subst. destruct (Nat.eqb_spec z x); auto.
  constructor; auto. rewrite rm_in. tauto.
Qed.
Lemma rm_len x l : NoDup l -> In x l -> length l = S (length (rm x l)).
Proof.
  induction l as [|z l IH]; simpl; intros H Hi; [tauto|]. inversion H; subst. destruct (Nat.eqb_spec z x) as [->|Hne].
  - now rewrite rm_none.
  - simpl. destruct Hi as [|Hi]; [congruence|]. f_equal. auto.
Qed.
Lemma rm_filter x p l : NoDup l -> In x l -> length (filter p l) = (if p x then 1 else 0) + length (filter p (rm x l)).
Proof.
  induction l as [|z l IH]; simpl; intros H Hi; [tauto|]. inversion H; subst. destruct (Nat.eqb_spec z x) as [->|Hne].
  - rewrite rm_none by auto. destruct (p x); reflexivity.
  - destruct Hi as [|Hi]; [congruence|]. simpl. destruct (p z); simpl; rewrite IH by auto; lia.
Qed.

Fixpoint tks (h : list bevent) : list nat :=
  match h with
  | [] => []
  | CX _ _ :: h' => arrivals h' :: tks h'
  | CRet f _ _ :: h' => match ticket h' f with Some t => rm t (tks h') | None => tks h' end
  | CCall _ _ :: h' => tks h'
  end.
Fixpoint early (h : list bevent) : list nat :=
  match h with
  | [] => []
  | CX f _ :: h' => rm f (early h')
  | CRet _ _ _ :: h' => early h'
  | CCall f _ :: h' => f :: early h'
  end.

Lemma ticket_in_wait n : forall h f t, barrier_ok n h -> ticket h f = Some t -> in_wait h f = true /\ t < arrivals h.
Proof.
  induction h as [|[g o|g r a|g x] h IH]; simpl; intros f t L E; [discriminate|..];
    destruct (Nat.eqb_spec g f) as [->|]; try discriminate; try (apply IH; tauto).
  - inversion E; subst. split; [tauto|lia].
  - destruct (IH f t); [tauto|auto|]. split; auto.
Qed.

Lemma tks_spec n : n <> 0 -> forall h, barrier_ok n h ->
  NoDup (tks h) /\ (forall t, In t (tks h) <-> exists f, ticket h f = Some t) /\
  (forall f g t, ticket h f = Some t -> ticket h g = Some t -> f = g) /\
  arrivals h = returns h + length (tks h) /\
  trues h + length (filter (fun t => Nat.eqb (t mod n) (n - 1)) (tks h)) = arrivals h / n /\
  (forall t, t < arrivals h -> In t (tks h) \/ n * (t / n + 1) <= arrivals h).
Proof.
  intros Hn. induction h as [|[g o|g r a|g x] h IH]; simpl; intros L.
  - splits; auto; try (constructor; fail).
    + intros t. split; [tauto|]. intros (f & E). discriminate.
    + intros f g t E. discriminate.
    + now rewrite Nat.div_0_l.
    + intros t Ht. lia.
  - destruct L as [L0 L]. destruct (IH L) as (A & B & C & D & E & F).
    assert (Tn : ticket h g = None).
    { destruct (ticket h g) eqn:Eq; auto. destruct (ticket_in_wait n _ _ _ L Eq). congruence. }
    assert (T : forall f, (if Nat.eqb g f then None else ticket h f) = ticket h f).
    { intros f. destruct (Nat.eqb_spec g f); congruence. }
    splits; auto.
    + intros t. rewrite B. split; intros (f & Ef); exists f; [now rewrite T|now rewrite T in Ef].
    + intros f f' t. rewrite !T. apply C.
  - destruct L as ((t & Lt & Lc & ->) & L0 & L). destruct (IH L) as (A & B & C & D & E & F). rewrite Lt.
    assert (Hin : In t (tks h)) by (apply B; eauto).
    splits.
    + now apply rm_nodup.
    + intros t'. rewrite rm_in, B. split.
      * intros ((f & Ef) & Hne). exists f. destruct (Nat.eqb_spec g f); congruence.
      * intros (f & Ef). destruct (Nat.eqb_spec g f); [discriminate|]. split; [eauto|]. intros ->.
        apply n0. apply (C g f t); auto.
    + intros f f' t'. destruct (Nat.eqb g f); [discriminate|]. destruct (Nat.eqb g f'); [discriminate|]. apply C.
    + rewrite D, (rm_len t) by auto. lia.
    + rewrite <- E. pose proof (rm_filter t (fun t => Nat.eqb (t mod n) (n - 1)) (tks h) A Hin) as X. cbv beta in X. destruct (Nat.eqb (t mod n) (n - 1)); lia.
    + intros t' Ht. destruct (F t' Ht) as [F1|F1]; auto. rewrite rm_in. destruct (Nat.eq_dec t' t) as [->|]; auto.
  - destruct x. destruct L as (L0 & L1 & L). destruct (IH L) as (A & B & C & D & E & F).
    assert (Hlt : forall t, In t (tks h) -> t < arrivals h).
    { intros t Ht. apply B in Ht. destruct Ht as (f & Hf). eapply ticket_in_wait; eauto. }
    splits.
    + constructor; auto. intros Hi. apply Hlt in Hi. lia.
    + intros t. split.
      * intros [<-|Hi]; [exists g; now rewrite Nat.eqb_refl|]. apply B in Hi. destruct Hi as (f & Hf).
        exists f. destruct (Nat.eqb_spec g f); congruence.
      * intros (f & Hf). destruct (Nat.eqb_spec g f); [inversion Hf; auto|right; apply B; eauto].
    + intros f f' t. destruct (Nat.eqb_spec g f), (Nat.eqb_spec g f'); intros E1 E2; subst; auto.
      * inversion E1; subst. destruct (ticket_in_wait n _ _ _ L E2). lia.
      * inversion E2; subst. destruct (ticket_in_wait n _ _ _ L E1). lia.
      * eapply C; eauto.
    + lia.
    + pose proof (Nat.div_mod (arrivals h) n Hn) as DM. pose proof (Nat.mod_upper_bound (arrivals h) n Hn) as MU.
      destruct (Nat.eqb_spec (arrivals h mod n) (n - 1)) as [Em|Em]; simpl.
      * rewrite <- (Nat.div_unique (S (arrivals h)) n (S (arrivals h / n)) 0); lia.
      * rewrite <- (Nat.div_unique (S (arrivals h)) n (arrivals h / n) (S (arrivals h mod n))); lia.
    + intros t Ht. destruct (Nat.eq_dec t (arrivals h)) as [->|]; auto.
      destruct (F t) as [F1|F1]; [lia|auto|right; lia].
Qed.

Lemma early_spec n : forall h, barrier_ok n h ->
  NoDup (early h) /\ (forall f, In f (early h) <-> (in_wait h f = true /\ ticket h f = None)) /\
  calls h = arrivals h + length (early h).
Proof.
  induction h as [|[g o|g r a|g x] h IH]; simpl; intros L.
  - splits; auto; try (constructor; fail). intros f. split; [tauto|]. intros [E _]. discriminate.
  - destruct L as [L0 L]. destruct (IH L) as (A & B & C). splits; [|intros f|lia].
    + constructor; auto. rewrite B. intros [X _]. congruence.
    + destruct (Nat.eqb_spec g f) as [->|]; [tauto|]. rewrite B. intuition congruence.
  - destruct L as ((t & Lt & _) & L0 & L). destruct (IH L) as (A & B & C). splits; [auto|intros f|lia].
    destruct (Nat.eqb_spec g f) as [->|]; [|apply B]. rewrite B, Lt. intuition congruence.
  - destruct L as (L0 & L1 & L). destruct (IH L) as (A & B & C). splits; [now apply rm_nodup|intros f|].
    + rewrite rm_in, B. destruct (Nat.eqb_spec g f) as [->|]; intuition congruence.
    + pose proof (rm_len g (early h) A (proj2 (B g) (conj L0 L1))). lia.
Qed.

(** In terms of calls and returns only: the number of returns never exceeds n times the number of full rounds called. *)
Theorem C14_returns_bounded : forall n s, n <> 0 -> reachable (bstep n) (binit n) s ->
  returns (clog s) <= n * (calls (clog s) / n).
Proof.
  intros n s Hn R. pose proof (b_log _ _ (binv_reachable n s Hn R)) as L.
  destruct (tks_spec n Hn _ L) as (A & B & C & D & E & F). destruct (early_spec n _ L) as (_ & _ & G).
  set (h := clog s) in *.
  assert (length (seq (n * (arrivals h / n)) (arrivals h mod n)) <= length (tks h)) as Hl.
  { apply NoDup_incl_length; [apply seq_NoDup|]. intros t Ht. apply in_seq in Ht.
    pose proof (Nat.div_mod (arrivals h) n Hn). destruct (F t) as [F1|F1]; [lia|auto|]. exfalso.
    assert (Hd : arrivals h / n <= t / n) by (apply Nat.div_le_lower_bound; [auto|apply Ht]).
    pose proof (Nat.mod_upper_bound (arrivals h) n Hn) as MU.
    revert Hd F1 H MU. generalize (arrivals h / n), (t / n), (arrivals h mod n), (arrivals h). intros q q' m ar. nia. }
  rewrite seq_length in Hl. pose proof (Nat.div_mod (arrivals h) n Hn).
  assert (Hd : arrivals h / n <= calls h / n) by (apply Nat.div_le_mono; lia).
  revert Hd H D Hl. generalize (arrivals h / n), (calls h / n), (arrivals h mod n), (arrivals h), (returns h), (length (tks h)).
  intros q q' m ar rr l. nia.
Qed.

(** Two fibers, three rounds overlapping: fiber 1 re-enters for round 2 before fiber 2 has left round 1. *)
Definition crit (f : fid) : list (clabel unit) := [CLCall f tt; CLCv (LRun f); CLCont f].
Definition c14_run : list (clabel unit) :=
  [CLCv (LK (Pick 1 1)); CLCv (LK (Pick 2 2))] ++ crit 1 ++ [CLCv (LRun 1); CLCv (LRun 1); CLCv (LRun 1)] ++
  crit 2 ++ [CLCv (LRun 2); CLCont 2; CLCv (LRun 2); CLCont 2] ++ crit 2 ++ [CLCv (LRun 2); CLCv (LRun 2); CLCv (LRun 2)].
Example C14_ex : exists s, reachable (bstep 2) (binit 2) s /\
  clog s = [CX 2 XArrive; CCall 2 tt; CRet 2 (RB true) 0; CX 2 XArrive; CCall 2 tt; CX 1 XArrive; CCall 1 tt] /\
  runnable (kn (cv s)) 1 /\ blocked (kn (cv s)) 2.
Proof. apply (reach_by _ _ c14_run). vm_compute. auto. Qed.

(** ** C15 *)
(** wait() returns true exactly for the call that completed the round... *)
Theorem C15_serial_is_last : forall n s h1 f r a h0, n <> 0 -> reachable (bstep n) (binit n) s ->
  clog s = h1 ++ CRet f r a :: h0 ->
  exists t, ticket h0 f = Some t /\ (r = RB true <-> t mod n = n - 1).
Proof.
  intros n s h1 f r a h0 Hn R E. pose proof (b_log _ _ (binv_reachable n s Hn R)) as L. rewrite E in L.
  apply barrier_ok_split in L. simpl in L. destruct L as ((t & A & B & ->) & _). exists t. split; auto.
  rewrite <- (Nat.eqb_eq (t mod n)). destruct (Nat.eqb (t mod n) (n - 1)); split; congruence.
Qed.

(** ... so, counted at any time, there is one true per completed round, returned or still to be returned by the fiber
    that completed it, and when nobody is inside wait() the number of calls is exactly n times the number of trues. *)
Theorem C15_one_serial_per_round : forall n s, n <> 0 -> reachable (bstep n) (binit n) s ->
  trues (clog s) <= calls (clog s) / n /\
  ((forall f, in_wait (clog s) f = false) -> calls (clog s) = n * trues (clog s)).
Proof.
  intros n s Hn R. pose proof (b_log _ _ (binv_reachable n s Hn R)) as L.
  destruct (tks_spec n Hn _ L) as (A & B & C & D & E & F). destruct (early_spec n _ L) as (_ & G1 & G).
  set (h := clog s) in *. split.
  - assert (arrivals h / n <= calls h / n) by (apply Nat.div_le_mono; lia). lia.
  - intros Q. assert (early h = []) as E1.
    { destruct (early h) as [|f l]; auto. destruct (proj1 (G1 f)) as [X _]; [now left|]. rewrite Q in X. discriminate. }
    assert (tks h = []) as E2.
    { destruct (tks h) as [|t l]; auto. destruct (proj1 (B t)) as (f & X); [now left|].
      destruct (ticket_in_wait n _ _ _ L X). rewrite Q in H. discriminate. }
    rewrite E1 in G. rewrite E2 in E, F. simpl in *. rewrite G, Nat.add_0_r. rewrite Nat.add_0_r in E. rewrite E.
    pose proof (Nat.div_mod (arrivals h) n Hn) as DM. pose proof (Nat.mod_upper_bound (arrivals h) n Hn) as MU.
    destruct (Nat.eq_dec (arrivals h mod n) 0) as [Z|Z]; [lia|]. exfalso.
    destruct (F (n * (arrivals h / n))) as [[]|X]; [lia|]. rewrite (Nat.mul_comm n (arrivals h / n)), Nat.div_mul in X by auto. lia.
Qed.

Definition c15_run : list (clabel unit) :=
  [CLCv (LK (Pick 1 1)); CLCv (LK (Pick 2 2))] ++ crit 1 ++ [CLCv (LRun 1); CLCv (LRun 1); CLCv (LRun 1)] ++
  crit 2 ++ [CLCv (LRun 2); CLCont 2; CLCv (LRun 2); CLCont 2; CLCv (LK (Pick 1 1)); CLCv (LRun 1); CLCv (LRun 1); CLCont 1; CLCv (LRun 1); CLCont 1].
Example C15_ex : exists s, reachable (bstep 2) (binit 2) s /\
  clog s = [CRet 1 (RB false) 0; CRet 2 (RB true) 0; CX 2 XArrive; CCall 2 tt; CX 1 XArrive; CCall 1 tt].
Proof. apply (reach_by _ _ c15_run). vm_compute. reflexivity. Qed.

(** ** C16 *)
(** A fiber of a completed round is able to run, or blocked on the mutex with another fiber inside wait() able to run,
    or about to be notified by the fiber that completed this very round, which is able to run. *)
Theorem C16_nobody_stranded : forall n s f t, n <> 0 -> reachable (bstep n) (binit n) s ->
  ticket (clog s) f = Some t -> n * (t / n + 1) <= arrivals (clog s) ->
  runnable (kn (cv s)) f \/
  exists g, g <> f /\ in_wait (clog s) g = true /\ runnable (kn (cv s)) g /\
    (ticket (clog s) g = Some (n * (t / n) + (n - 1)) \/ woken (log (cv s)) f = true).
Proof.
  intros n s f t Hn R Ht Hc. pose proof (binv_reachable n s Hn R) as B. pose proof (cinv_reachable _ (proj_reachable _ _ R)) as I.
  pose proof (fstat_reachable _ _ _ (barrier_wb n) s R f) as F.
  destruct (ticket_in_wait n _ _ _ (b_log _ _ B) Ht) as [Hw _].
  pose proof (b_tk _ _ B f) as T. destruct (cpc s f) as [p|] eqn:Ep; simpl in T, F; [|congruence].
  assert (NB : match pending (log (cv s)) f with None | Some Unlock | Some NotifyOne | Some NotifyAll => True | _ => False end ->
               runnable (kn (cv s)) f) by (intros X; apply nonblocking; auto).
  destruct F as [(F1 & F2 & F3)|(F1 & _)]; [|left; apply NB; rewrite F1; exact Logic.I].
  destruct p as [|c|c|c|c]; simpl in F1; try (left; apply NB; rewrite F1; exact Logic.I).
  - destruct T as [_ T]. congruence.
  - destruct T as (_ & i & T1 & T2 & T3).
    assert (running (fib (kn (cv s)) f) = true \/ queued (fib (kn (cv s)) f) = true \/ xblocked (fib (kn (cv s)) f)) as Cs.
    { unfold xblocked. destruct (running (fib (kn (cv s)) f)), (queued (fib (kn (cv s)) f)); auto. }
    destruct Cs as [Cs|[Cs|Hb]]; [left; left; auto|left; right; auto|]. right.
    assert (t = c * n + i) by congruence. subst t. rewrite div_lt in * by lia.
    assert (c < cycle (dat s)).
    { destruct (Nat.eq_dec c (cycle (dat s))) as [->|]; [|lia]. rewrite (b_arr _ _ B) in Hc. pose proof (b_cur _ _ B). nia. }
    destruct (woken (log (cv s)) f) eqn:Ew.
    + assert (Lk : locking (pcs (cv s) f) = true).
      { destruct (c_l _ I f) as (_ & X & _ & Y). rewrite F1 in X.
        pose proof (ki_f _ _ _ (c_k _ I) f) as K. unfold fok in K. cbv beta in K.
        destruct (pcs (cv s) f) as [|o' r|o' r e| |tp|tp|tp|e|tp e|tp e|all] eqn:Epc; simpl in *; auto; try discriminate;
          try (exfalso; destruct K as (_ & _ & [K|K] & _); destruct Hb; congruence);
          try (destruct all; discriminate).
        exfalso. destruct Y as [[_ Y]|[[Y|Y] _]]; [congruence|destruct Hb; congruence..]. }
      destruct (blocked_relock _ _ _ (barrier_wb n) s f R Hb Lk) as (g & G1 & G2). exists g.
      assert (g <> f) by (intros ->; destruct Hb, G2; congruence). splits; auto.
      pose proof (b_tk _ _ B g) as Tg. destruct (cpc s g); [apply Tg|congruence].
    + destruct (b_srv _ _ B f c Ep F1 Ew H) as (g & G0 & G). exists g. pose proof (b_tk _ _ B g) as Tg.
      pose proof (fstat_reachable _ _ _ (barrier_wb n) s R g) as Fg.
      destruct G as [(G1 & _)|(G1 & G2 & _)]; rewrite G1 in Tg; destruct Tg as (T5 & T6 & _); splits; auto;
        try (left; rewrite T6; f_equal; lia); apply nonblocking; auto.
      * rewrite G1 in Fg. destruct Fg as [(Fg & _)|(Fg & _)]; rewrite Fg; exact Logic.I.
      * rewrite G2. exact Logic.I.
Qed.

(** Fiber 2 has completed the round and unlocked, but not notified yet; fiber 1 is still blocked. *)
Example C16_ex : exists s, reachable (bstep 2) (binit 2) s /\
  ticket (clog s) 1 = Some 0 /\ arrivals (clog s) = 2 /\ blocked (kn (cv s)) 1 /\ in_wait (clog s) 2 = true /\ runnable (kn (cv s)) 2.
Proof.
  apply (reach_by _ _ ([CLCv (LK (Pick 1 1)); CLCv (LK (Pick 2 2))] ++ crit 1 ++ [CLCv (LRun 1); CLCv (LRun 1); CLCv (LRun 1)] ++
    crit 2 ++ [CLCv (LRun 2)])). vm_compute. splits; auto.
Qed.

(** All theorems of this file at once: their assumptions. *)
Definition all_barrier :=
  (@C14_zero_rejected, @C14_no_underflow, @C14_nobody_early, @C14_arrival_once, @C14_returns_bounded,
   @C15_serial_is_last, @C15_one_serial_per_round, @C16_nobody_stranded).
Print Assumptions all_barrier.
