(** C29-C31, C62: theorems about the shared state of promise and future. *)
From Coq Require Import List Arith Bool Lia.
From Verif Require Import Base Kernel KernelFacts CondVar CondVarSpec CondVarProofs CondVarProps Client ClientProofs SharedState SharedStateSpec SharedStateProofs.
Import ListNotations.

Section Props.
Context {V E : Type}.
Notation state := (sstate V E).
Notation event := (cevent (sop V E) (sres V E) (sx V E)).

Lemma shared_ok_split (h1 h0 : list event) : shared_ok (h1 ++ h0) -> shared_ok h0.
Proof. induction h1 as [|[f o|f r a|f [x]] h1 IH]; simpl; auto; intros H; apply IH; tauto. Qed.

Lemma one_store (h1 h0 : list event) f x : stored h0 <> None -> shared_ok (h1 ++ h0) -> ~ In (CX f x) h1.
Proof.
  intros Hs. induction h1 as [|e h1 IH]; simpl; [tauto|]. intros H [->|Hi].
  - destruct x. destruct H as [H _]. revert H. clear - Hs. induction h1 as [|e h1 IH]; simpl; auto.
    destruct e as [g o|g r a|g [y]]; auto. destruct (stored (h1 ++ h0)); [discriminate|auto].
  - destruct e as [g o|g r a|g [y]]; apply IH; auto; tauto.
Qed.

Lemma my_store_split (h : list event) f : my_store h f = true -> exists a x b, h = a ++ CX f x :: b /\ forall o, ~ In (CCall f o) a.
Proof.
  induction h as [|e h IH]; simpl; [discriminate|]. destruct e as [g o|g r t|g y].
  - destruct (Nat.eqb_spec g f) as [->|Hne]; [discriminate|]. intros H. destruct (IH H) as (a & x & b & -> & N).
    exists (CCall g o :: a), x, b. split; auto. intros o' [X|X]; [congruence|eapply N; eauto].
  - intros H. destruct (IH H) as (a & x & b & -> & N). exists (CRet g r t :: a), x, b. split; auto. intros o' [X|X]; [congruence|eapply N; eauto].
  - destruct (Nat.eqb_spec g f) as [->|Hne].
    + intros _. exists [], y, h. split; auto.
    + intros H. destruct (IH H) as (a & x & b & -> & N). exists (CX g y :: a), x, b. split; auto. intros o' [X|X]; [congruence|eapply N; eauto].
Qed.

Lemma no_call_pend (h2 h1 : list event) f r t : (forall o, ~ In (CCall f o) h2) -> spend (h2 ++ CRet f r t :: h1) f = None.
Proof.
  induction h2 as [|e h2 IH]; simpl; intros N; [now rewrite Nat.eqb_refl|].
  destruct e as [g o|g r' t'|g y].
  - destruct (Nat.eqb_spec g f) as [->|]; [exfalso; eapply N; eauto|]. apply IH. intros o' X. eapply N; eauto.
  - destruct (Nat.eqb g f); auto. apply IH. intros o' X. eapply N; eauto.
  - apply IH. intros o' X. eapply N; eauto.
Qed.

Lemma store_stored (a b : list event) f x : stored (a ++ CX f x :: b) <> None.
Proof. induction a as [|e a IH]; simpl; [destruct x, (stored b); discriminate|]. now apply stored_mono'. Qed.

Lemma app_eq_split {A} (u v : list A) p q (x y : A) : u ++ x :: p = v ++ y :: q ->
  (exists w, v = u ++ x :: w /\ p = w ++ y :: q) \/ (u = v /\ x = y /\ p = q) \/ (exists w, u = v ++ y :: w /\ q = w ++ x :: p).
Proof.
  revert v. induction u as [|a u IH]; intros [|b v] H; simpl in H; inversion H; subst; auto.
  - left. exists v. auto.
  - right. right. exists u. auto.
  - destruct (IH v H2) as [(w & -> & ->)|[(-> & -> & ->)|(w & -> & ->)]]; auto; [left|right; right]; exists w; auto.
Qed.

Definition is_set (o : sop V E) : Prop := match o with SetValue _ | SetExc _ => True | _ => False end.

(** ** C29 *)
(** At most one set_value/set_exception call returns normally. *)
Theorem C29_one_success : forall (s : state) h3 g t2 h2 f t1 h1 o o',
  reachable sstep sinit s ->
  clog s = h3 ++ CRet g RVoid t2 :: h2 ++ CRet f RVoid t1 :: h1 ->
  spend h1 f = Some o -> is_set o -> spend (h2 ++ CRet f RVoid t1 :: h1) g = Some o' -> is_set o' -> False.
Proof.
  intros s h3 g t2 h2 f t1 h1 o o' R El Ho Hs Ho' Hs'. pose proof (s_log _ (si_reachable _ R)) as L. rewrite El in L.
  apply shared_ok_split in L. simpl in L. destruct L as [(o1 & E1 & K1) L]. pose proof L as L2. apply shared_ok_split in L.
  simpl in L. destruct L as [(o2 & E2 & K2) L].
  assert (M1 : my_store h1 f = true).
  { rewrite Ho in E2. inversion E2; subst o2. destruct o; simpl in K2, Hs; try contradiction; destruct K2 as [[_ K]|[K _]]; auto; discriminate. }
  assert (M2 : my_store (h2 ++ CRet f RVoid t1 :: h1) g = true).
  { rewrite Ho' in E1. inversion E1; subst o1. destruct o'; simpl in K1, Hs'; try contradiction; destruct K1 as [[_ K]|[K _]]; auto; discriminate. }
  destruct (my_store_split _ _ M1) as (a & x & b & Ea & Na). destruct (my_store_split _ _ M2) as (a' & x' & b' & Ea' & Na').
  rewrite Ea in Ea'. change (h2 ++ CRet f RVoid t1 :: a ++ CX f x :: b) with (h2 ++ (CRet f RVoid t1 :: a) ++ CX f x :: b) in Ea'. rewrite app_assoc in Ea'.
  destruct (app_eq_split _ _ _ _ _ _ Ea') as [(w & X & Y)|[(X & Y & Z)|(w & X & Y)]].
  - (* two stores *)
    subst. eapply (one_store ((h2 ++ CRet f RVoid t1 :: a) ++ [CX f x]) (w ++ CX g x' :: b') f x); [apply store_stored| |].
    + rewrite <- !app_assoc. simpl. exact L2.
    + apply in_or_app. right. now left.
  - inversion Y; subst g x'. rewrite no_call_pend in Ho'; [discriminate|]. intros o3 Hi. eapply (Na' o3). rewrite <- X. apply in_or_app. now left.
  - subst. eapply (one_store (a' ++ [CX g x']) (w ++ CX f x :: b) g x'); [apply store_stored| |].
    + assert (Q : (a' ++ CX g x' :: w) ++ CX f x :: b = h2 ++ CRet f RVoid t1 :: a ++ CX f x :: b) by (rewrite <- X, <- app_assoc; reflexivity).
      rewrite <- app_assoc in *. simpl in *. rewrite Q. exact L2.
    + apply in_or_app. right. now left.
Qed.

(** Every other one fails with promise_already_satisfied; it stored nothing and the state had an outcome already. *)
Theorem C29_others_fail : forall (s : state) h2 f r t h1 o, reachable sstep sinit s ->
  clog s = h2 ++ CRet f r t :: h1 -> spend h1 f = Some o -> is_set o ->
  (r = RVoid /\ my_store h1 f = true) \/ (r = RSatisfied /\ my_store h1 f = false /\ stored h1 <> None).
Proof.
  intros s h2 f r t h1 o R El Ho Hs. pose proof (s_log _ (si_reachable _ R)) as L. rewrite El in L.
  apply shared_ok_split in L. simpl in L. destruct L as [(o1 & E1 & K1) L]. rewrite Ho in E1. inversion E1; subst o1.
  destruct o; simpl in Hs; try contradiction; exact K1.
Qed.

(** An outcome is stored once, by a call that stores this outcome, and what is in memory is this outcome. *)
Theorem C29_stored_once : forall (s : state) h2 f x h1, reachable sstep sinit s ->
  clog s = h2 ++ CX f (XStore x) :: h1 ->
  stored h1 = None /\ (forall g y, ~ In (CX g y) h2) /\ exists o, spend h1 f = Some o /\ outcome_of o = Some x.
Proof.
  intros s h2 f x h1 R El. pose proof (s_log _ (si_reachable _ R)) as L. rewrite El in L. pose proof L as L2.
  apply shared_ok_split in L. simpl in L. destruct L as (A & B & C). splits; auto.
  intros g y. eapply one_store; eauto. apply (store_stored [] h1 f (XStore x)).
Qed.
Theorem C29_memory : forall s : state, reachable sstep sinit s ->
  match stored (clog s) with
  | None => ready (dat s) = false
  | Some (OVal v) => ready (dat s) = true /\ except (dat s) = None /\ storage (dat s) = Some v
  | Some (OExc x) => ready (dat s) = true /\ except (dat s) = x
  end.
Proof.
  intros s R. pose proof (s_dat _ (si_reachable _ R)) as D. unfold dat_ok in D. destruct (stored (clog s)) as [[v|x]|]; tauto.
Qed.

(** ** C30 *)
(** get() and get_exception_ptr() return only after an outcome was stored, and give this outcome. *)
Theorem C30_get : forall (s : state) h2 f r t h1, reachable sstep sinit s ->
  clog s = h2 ++ CRet f r t :: h1 ->
  (spend h1 f = Some Get -> exists x, stored h1 = Some x /\ r = get_result x) /\
  (spend h1 f = Some GetExc -> exists x, stored h1 = Some x /\ r = eptr_result x) /\
  (spend h1 f = Some WaitS -> stored h1 <> None /\ r = RReady).
Proof.
  intros s h2 f r t h1 R El. pose proof (s_log _ (si_reachable _ R)) as L. rewrite El in L.
  apply shared_ok_split in L. simpl in L. destruct L as [(o1 & E1 & K1) L].
  splits; intros Ho; rewrite Ho in E1; inversion E1; subst o1; exact K1.
Qed.

(** All readers agree: any two get() calls have the same result. *)
Theorem C30_readers_agree : forall (s : state) h2 f r t h1 h2' g r' t' h1', reachable sstep sinit s ->
  clog s = h2 ++ CRet f r t :: h1 -> spend h1 f = Some Get ->
  clog s = h2' ++ CRet g r' t' :: h1' -> spend h1' g = Some Get -> r = r'.
Proof.
  intros s h2 f r t h1 h2' g r' t' h1' R E1 P1 E2 P2.
  destruct (proj1 (C30_get _ _ _ _ _ _ R E1) P1) as (x & X1 & ->). destruct (proj1 (C30_get _ _ _ _ _ _ R E2) P2) as (y & Y1 & ->).
  assert (G : forall (u v : list event) z, stored v = Some z -> stored (u ++ v) = Some z).
  { induction u as [|e u IH]; simpl; auto. intros v z Hz. now apply stored_mono, IH. }
  assert (stored (clog s) = Some x) by (rewrite E1; apply G; simpl; auto).
  assert (stored (clog s) = Some y) by (rewrite E2; apply G; simpl; auto). congruence.
Qed.

(** wait_until: ready only if an outcome is stored; timeout only when the deadline is reached, and never if the
    outcome had been stored before the call. *)
Theorem C30_wait_until : forall (s : state) h2 f r t h1 tp, reachable sstep sinit s ->
  clog s = h2 ++ CRet f r t :: h1 -> spend h1 f = Some (WaitUntilS tp) ->
  (r = RReady /\ stored h1 <> None) \/ (r = RTimedOut /\ tp <= t /\ stored_at_call h1 f = None).
Proof.
  intros s h2 f r t h1 tp R El Ho. pose proof (s_log _ (si_reachable _ R)) as L. rewrite El in L.
  apply shared_ok_split in L. simpl in L. destruct L as [(o1 & E1 & K1) L]. rewrite Ho in E1; inversion E1; subst o1; exact K1.
Qed.

(** Once the outcome is stored nobody stays blocked: a blocked fiber was notified and waits for the mutex while another fiber
    inside an operation can run; or another fiber inside an operation can run and is going to notify it; or its deadline has passed, so that
    the timer wakes it. *)
Theorem C30_nobody_stranded : forall (s : state) f o, reachable sstep sinit s ->
  stored (clog s) <> None -> spend (clog s) f = Some o -> blocked (kn (cv s)) f ->
  (exists g, g <> f /\ spend (clog s) g <> None /\ runnable (kn (cv s)) g) \/
  (exists tp, o = WaitUntilS tp /\ tp <= now (kn (cv s))).
Proof.
  intros s f o R Hst Ho Hb. pose proof (si_reachable _ R) as B. pose proof (cinv_reachable _ (proj_reachable _ _ R)) as I.
  pose proof (fstat_reachable _ _ _ ss_wb s R) as F.
  assert (Hr : ready (dat s) = true) by (eapply dat_ready; eauto; apply (s_dat _ B)).
  assert (NB : forall g, match pending (log (cv s)) g with None | Some Unlock | Some NotifyOne | Some NotifyAll => True | _ => False end ->
               runnable (kn (cv s)) g) by (intros g X; apply nonblocking; auto).
  assert (Sp : forall g, cpc s g <> None -> spend (clog s) g <> None).
  { intros g X. pose proof (s_pk _ B g) as P. destruct (cpc s g); [|congruence]. destruct P as (o' & P & _). congruence. }
  assert (Rel : locking (pcs (cv s) f) = true -> exists g, g <> f /\ spend (clog s) g <> None /\ runnable (kn (cv s)) g).
  { intros Lk. destruct (blocked_relock _ _ _ ss_wb s f R Hb Lk) as (g & G1 & G2). exists g. splits; auto. intros ->. destruct Hb, G2; congruence. }
  pose proof (s_pk _ B f) as P. destruct (cpc s f) as [p|] eqn:Ep; [|simpl in P; congruence]. simpl in P. destruct P as (o' & Po & P).
  rewrite Ho in Po. inversion Po; subst o'.
  pose proof (F f) as Ff. rewrite Ep in Ff. simpl in Ff.
  destruct Ff as [(F1 & F2 & F3)|(F1 & _)]; [|exfalso; destruct (NB f); [rewrite F1; exact Logic.I|destruct Hb; congruence..]].
  assert (W : waiting p \/ locking (pcs (cv s) f) = true).
  { destruct p; simpl; auto; right; simpl in F1.
    all: try (exfalso; destruct (NB f); [rewrite F1; exact Logic.I|destruct Hb; congruence..]).
    destruct (c_l _ I f) as (_ & X & _ & Y). rewrite F1 in X.
    destruct (pcs (cv s) f) as [|o' r|o' r e| |tp|tp|tp|e|tp e|tp e|all] eqn:Epc; simpl in *; auto; try discriminate; try (destruct tp; discriminate); try (destruct all; discriminate). }
  destruct W as [W|W]; [|left; auto].
  destruct (woken (log (cv s)) f) eqn:Ew.
  - assert (Lk : locking (pcs (cv s) f) = true \/ exists tp, o = WaitUntilS tp /\ tp <= now (kn (cv s))).
    { left. destruct (c_l _ I f) as (_ & X & _ & Y). rewrite F1 in X.
      pose proof (ki_f _ _ _ (c_k _ I) f) as K. unfold fok in K. cbv beta in K.
      destruct (pcs (cv s) f) as [|o' r|o' r e| |tp|tp|tp|e|tp e|tp e|all] eqn:Epc; simpl in *; auto; try (destruct p; discriminate);
        try (exfalso; destruct K as (_ & _ & [K|K] & _); destruct Hb; congruence);
        try (destruct all; destruct p; discriminate).
      all: exfalso; destruct Hb; unfold xblocked, xrunnable in *; intuition congruence. }
    destruct Lk; auto.
  - destruct (s_srv _ B f p Ep W F1 Ew Hr) as [(tp & T1 & T2)|(g & G0 & G)].
    + right. subst p. destruct P as [-> _]. eauto.
    + left. exists g. pose proof (F g) as Fg. splits; auto.
      * apply Sp. destruct G as [(G1 & _)|(G1 & _)]; congruence.
      * destruct G as [(G1 & _)|(G1 & G2 & _)].
        -- rewrite G1 in Fg. apply NB. destruct Fg as [(Fg & _)|(Fg & _)]; rewrite Fg; exact Logic.I.
        -- apply NB. rewrite G2. exact Logic.I.
Qed.
(** ** C31, the part of the shared state *)
(** owner_destroyed() returns only when an outcome is stored; it stores broken_promise, and only where there was none. *)
Theorem C31_owner_destroyed : forall (s : state) h2 f r t h1, reachable sstep sinit s ->
  clog s = h2 ++ CRet f r t :: h1 -> spend h1 f = Some OwnerDestroyed ->
  r = RVoid /\ stored h1 <> None /\ (my_store h1 f = true -> stored h1 = Some (OExc (Some Broken))).
Proof.
  intros s h2 f r t h1 R El Ho. pose proof (s_log _ (si_reachable _ R)) as L. rewrite El in L.
  apply shared_ok_split in L. simpl in L. destruct L as [(o1 & E1 & K1) L]. rewrite Ho in E1; inversion E1; subst o1. destruct K1 as [-> K1].
  splits; auto. intros M. destruct (my_store_split _ _ M) as (a & [x] & b & -> & N). clear El.
  apply shared_ok_split in L. simpl in L. destruct L as (L1 & (o & L2 & L3) & L4).
  assert (Q : spend (a ++ CX f (XStore x) :: b) f = Some OwnerDestroyed -> spend b f = Some OwnerDestroyed).
  { clear - N. induction a as [|[g o|g r t|g y] a IH]; simpl; auto; intros H.
    - destruct (Nat.eqb_spec g f) as [->|]; [exfalso; eapply N; left; eauto|]. apply IH; auto. intros o' X. eapply N; right; eauto.
    - destruct (Nat.eqb g f); [discriminate|]. apply IH; auto. intros o' X. eapply N; right; eauto.
    - apply IH; auto. intros o' X. eapply N; right; eauto. }
  rewrite (Q Ho) in L2. inversion L2; subst o. simpl in L3.
  assert (G : forall (u v : list event) z, stored v = Some z -> stored (u ++ v) = Some z).
  { induction u as [|e u IH]; simpl; auto. intros v z Hz. now apply stored_mono, IH. }
  apply G. simpl. now rewrite L1, L3.
Qed.

(** ** C62: full statement: get() on a satisfied state never reads storage without a value in it. It is false: *)
(** a null exception_ptr passed to set_exception() makes the state ready without exception and without value. *)
Theorem C62_partial : forall (s : state) h2 f t h1, reachable sstep sinit s ->
  clog s = h2 ++ CRet f RUninit t :: h1 ->
  spend h1 f = Some Get /\ exists g a b, h1 = a ++ CX g (XStore (OExc None)) :: b /\ spend b g = Some (SetExc None).
Proof.
  intros s h2 f t h1 R El. pose proof (s_log _ (si_reachable _ R)) as L. rewrite El in L.
  apply shared_ok_split in L. simpl in L. destruct L as [(o & E1 & K1) L].
  destruct o; simpl in K1; try (destruct K1 as [[? _]|[? _]]; discriminate); try (destruct K1; discriminate);
    [|destruct K1 as ([?|[?|]] & _ & ?); discriminate].
  split; auto. destruct K1 as (x & K1 & K2). destruct x as [v|[x|]]; try discriminate. clear El K2.
  revert L K1. clear. induction h1 as [|[g o|g r t|g [y]] h1 IH]; simpl; intros L K; try discriminate.
  - destruct (IH (proj2 L) K) as (g' & a & b & -> & Q). exists g', (CCall g o :: a), b. auto.
  - destruct (IH (proj2 L) K) as (g' & a & b & -> & Q). exists g', (CRet g r t :: a), b. auto.
  - destruct L as (L1 & (o & L2 & L3) & L4). rewrite L1 in K. inversion K; subst y. exists g, [], h1. split; auto.
    rewrite L2. destruct o as [|[x|]| | | | |]; simpl in L3; try discriminate. reflexivity.
Qed.
End Props.

(** ** Examples *)
Definition picks (l : list fid) : list (clabel (sop nat nat)) := map (fun f => CLCv (LK (Pick f f))) l.
(** Lock the mutex and do the critical section; unlock; notify. *)
Definition crit (f : fid) (o : sop nat nat) : list (clabel (sop nat nat)) := [CLCall f o; CLCv (LRun f); CLCont f].
Definition unl (f : fid) : list (clabel (sop nat nat)) := [CLCv (LRun f); CLCont f].
Definition slp (f : fid) : list (clabel (sop nat nat)) := [CLCv (LRun f); CLCv (LRun f); CLCv (LRun f)].
Definition wak (f : fid) : list (clabel (sop nat nat)) := [CLCv (LK (Pick f f)); CLCv (LRun f); CLCv (LRun f); CLCont f].

(** Fiber 1 waits in get(), fiber 2 sets 7, fiber 3 fails to set an exception, fibers 1 and 3 get 7. *)
Definition run1 : list (clabel (sop nat nat)) :=
  picks [1; 2; 3] ++ crit 1 Get ++ slp 1 ++ crit 2 (SetValue 7) ++ unl 2 ++ crit 3 (SetExc (Some 5)) ++ unl 3 ++ unl 2 ++
  wak 1 ++ unl 1 ++ crit 3 Get ++ unl 3.
Example C29_ex : exists s : sstate nat nat, reachable sstep sinit s /\
  clog s = [CRet 3 (RVal 7) 0; CCall 3 Get; CRet 1 (RVal 7) 0; CRet 2 RVoid 0; CRet 3 RSatisfied 0; CCall 3 (SetExc (Some 5));
            CX 2 (XStore (OVal 7)); CCall 2 (SetValue 7); CCall 1 Get].
Proof. apply (reach_by _ _ run1). vm_compute. reflexivity. Qed.
(** Fiber 1 is blocked in wait(), the value is stored, fiber 2 has not notified yet. *)
Example C30_ex : exists s : sstate nat nat, reachable sstep sinit s /\
  stored (clog s) = Some (OVal 7) /\ spend (clog s) 1 = Some WaitS /\ blocked (kn (cv s)) 1 /\ spend (clog s) 2 = Some (SetValue 7) /\ runnable (kn (cv s)) 2.
Proof.
  apply (reach_by _ _ (picks [1; 2] ++ crit 1 WaitS ++ slp 1 ++ crit 2 (SetValue 7))). vm_compute. splits; auto.
Qed.
(** wait_until() times out, then finds the outcome at once. *)
Example C30_ex_timed : exists s : sstate nat nat, reachable sstep sinit s /\
  clog s = [CRet 1 RReady 4; CCall 1 (WaitUntilS 3); CRet 2 RVoid 4; CX 2 (XStore (OExc (Some Broken))); CCall 2 OwnerDestroyed; CRet 1 RTimedOut 4; CCall 1 (WaitUntilS 3)].
Proof.
  apply (reach_by _ _ (picks [1; 2] ++ crit 1 (WaitUntilS 3) ++ slp 1 ++ [CLCv (LK (Tick 3)); CLCv (LK (Timer 1)); CLCv (LK (Pick 1 1)); CLCv (LRun 1); CLCv (LRun 1); CLCv (LRun 1); CLCont 1] ++ unl 1 ++
    crit 2 OwnerDestroyed ++ unl 2 ++ unl 2 ++ crit 1 (WaitUntilS 3) ++ unl 1)).
  vm_compute. reflexivity.
Qed.
Theorem C62_refuted : exists s : sstate nat nat, reachable sstep sinit s /\
  clog s = [CRet 2 RUninit 0; CCall 2 Get; CRet 1 RVoid 0; CX 1 (XStore (OExc None)); CCall 1 (SetExc None)].
Proof. apply (reach_by _ _ (picks [1; 2] ++ crit 1 (SetExc None) ++ unl 1 ++ unl 1 ++ crit 2 Get ++ unl 2)). vm_compute. reflexivity. Qed.

(** All of the above at once. *)
Definition all_shared_state := (@C29_one_success, @C29_others_fail, @C29_stored_once, @C29_memory, @C30_get, @C30_readers_agree, @C30_wait_until,
  @C30_nobody_stranded, @C31_owner_destroyed, @C62_partial, C62_refuted).
Print Assumptions all_shared_state.
