(** C49, C50, C71 for detail::spinlock_ttas_futex and detail::spinlock_ttas_adaptive_futex. *)
From Coq Require Import List Arith Bool ZArith Lia.
From Verif Require Import Base FutexLock FutexLockSpec.
Import ListNotations.

Definition holds (p : pc_t) : bool := match p with Inside _ | Store0 => true | _ => false end.
Definition awaking (s : st) : Prop := exists u, waking s u \/ taking s u.
(** [h]: the holder. *)
Record inv (s : st) (h : option nat) : Prop := {
  i_in : forall t n, pc s t = Inside n <-> inside (log s) t = Some n;
  i_held : forall t, holds (pc s t) = held (log s) t;
  i_h : forall t, holds (pc s t) = true <-> h = Some t;
  i_val : match h with None => value s = 0%Z | Some t => value s = 2%Z \/ value s = 1%Z end;
  i_hist : In (value s) (hist s) /\ forall v, In v (hist s) -> (v = 0 \/ v = 1 \/ v = 2)%Z;
  i_sleep : forall t, In t (sleepers s) <-> pc s t = Asleep;
  i_wake : sleepers s <> [] -> value s = 2%Z \/ awaking s;
  i_s0 : forall t, pc s t = Store0 -> exists n, last_release (log s) = Some (n, true) /\ In n (view s t);
  i_rel : forall n, last_release (log s) = Some (n, true) -> (exists t, pc s t = Store0) \/ In n (mview s);
  i_try : forall l1 t l2, log s = l1 ++ ETryFail t :: l2 -> exists u, held l2 u = true;
  i_acq : forall l1 t n v l2, log s = l1 ++ EAcquire t n v :: l2 -> (forall u, held l2 u = false) /\ forall m, last_release l2 = Some (m, true) -> In m v
}.
Ltac splitlog H := match type of H with _ :: _ = ?l1 ++ _ :: _ => destruct l1 as [|? ?]; simpl in H; [inversion H; subst; clear H|injection H as ? H; subst] end.

Section F.
Variable threshold : nat.
Notation step := (step threshold).
(** The steps that move a thread that does not hold the lock, and write at most 2 to a lock that is held. *)
Lemma quiet s h s' t p e : inv s h -> holds (pc s t) = false -> holds p = false -> (e = [] \/ e = [ETryFail t] /\ h <> None) ->
  pc s' = upd (pc s) t p -> log s' = e ++ log s -> mview s' = mview s -> (forall u, holds (pc s u) = true -> view s' u = view s u) ->
  (value s' = value s /\ hist s' = hist s \/ h <> None /\ value s' = 2%Z /\ hist s' = 2%Z :: hist s) -> (forall u, In u (sleepers s') <-> upd (pc s) t p u = Asleep) -> (sleepers s' <> [] -> value s' = 2%Z \/ awaking s') -> inv s' h.
Proof.
  intros I Ht Hp He Ep El Em Ev Evl Es Ew. assert (Nt : forall n, pc s t <> Inside n) by (intros n E; now rewrite E in Ht). assert (Np : forall n, p <> Inside n) by (intros n E; now rewrite E in Hp).
  assert (Nt0 : pc s t <> Store0) by (intros E; now rewrite E in Ht). assert (Np0 : p <> Store0) by (intros E; now rewrite E in Hp).
  assert (L1 : forall u, inside (log s') u = inside (log s) u) by (intros u; rewrite El; destruct He as [->|[-> _]]; reflexivity).
  assert (L2 : forall u, held (log s') u = held (log s) u) by (intros u; rewrite El; destruct He as [->|[-> _]]; reflexivity).
  assert (L3 : last_release (log s') = last_release (log s)) by (rewrite El; destruct He as [->|[-> _]]; reflexivity).
  constructor.
  - intros u n. rewrite L1, Ep. upds; [|apply I]. split; [intros E; now apply Np in E|]. intros E. apply (i_in _ _ I) in E. now apply Nt in E.
  - intros u. rewrite L2, Ep. upds; [|apply I]. rewrite Hp, <- Ht. apply I.
  - intros u. rewrite Ep. upds; [|apply I]. rewrite Hp, <- Ht. apply I.
  - pose proof (i_val _ _ I) as V. destruct Evl as [[-> _]|(N & -> & _)]; auto. destruct h; [auto|congruence].
  - destruct (i_hist _ _ I) as [H1 H2]. destruct Evl as [[-> ->]|(_ & -> & ->)]; [auto|]. split; [now left|]. intros v [<-|Hv]; auto.
  - intros u. rewrite Ep. apply Es.
  - auto.
  - intros u. rewrite Ep, L3. upds; [congruence|]. intros E. rewrite Ev; [now apply I|]. now rewrite E.
  - intros n. rewrite L3, Em. intros E. destruct (i_rel _ _ I n E) as [[u U]|U]; auto. left. exists u. rewrite Ep. upds; congruence.
  - intros l1 u l2 E. rewrite El in E. destruct He as [->|[-> Hh]]; simpl in E; [now apply (i_try _ _ I) in E|]. splitlog E; [|now apply (i_try _ _ I) in E]. destruct h as [w|]; [|congruence]. exists w. rewrite <- (i_held _ _ I). now apply I.
  - intros l1 u n v l2 E. rewrite El in E. destruct He as [->|[-> Hh]]; simpl in E; [now apply (i_acq _ _ I) in E|]. splitlog E. now apply (i_acq _ _ I) in E.
Qed.
Lemma took s h t v : inv s h -> holds (pc s t) = false -> pc s t <> Asleep -> value s = 0%Z -> (v = 2 \/ v = 1 /\ pc s t <> Xchg /\ pc s t <> Wake)%Z -> inv (take s t v) (Some t).
Proof.
  intros I Ht Na V0 Hv. assert (h = None). { destruct h as [u|]; auto. pose proof (i_val _ _ I). simpl in *. lia. } subst h.
  assert (Nh : forall u, holds (pc s u) = false). { intros u. destruct (holds (pc s u)) eqn:E; auto. now apply (i_h _ _ I) in E. }
  constructor; simpl.
  - intros u n. destruct (Nat.eqb_spec u t) as [->|N]; updt; [split; congruence|]. apply I.
  - intros u. destruct (Nat.eqb_spec u t) as [->|N]; updt; [reflexivity|]. apply I.
  - intros u. upds; simpl; [split; auto|]. rewrite Nh. split; [discriminate|congruence].
  - destruct Hv as [->|[-> _]]; auto.
  - destruct (i_hist _ _ I) as [H1 H2]. split; auto. intros w [<-|Hw]; auto. destruct Hv as [->|[-> _]]; auto.
  - intros u. upds; [|apply I]. split; [|discriminate]. intros X. now apply (i_sleep _ _ I) in X.
  - intros X. destruct (i_wake _ _ I X) as [X1|(u & Hu)]; [congruence|]. destruct Hv as [->|(-> & Hx & Hy)]; [now left|]. right. exists u. unfold waking, taking in *. simpl. upds; auto.
    exfalso. destruct Hu as [[E|E]|E]; [now rewrite E in Ht|contradiction|contradiction].
  - intros u. upds; [discriminate|]. intros E. specialize (Nh u). now rewrite E in Nh.
  - intros n E. destruct (i_rel _ _ I n E) as [[u U]|U]; auto. specialize (Nh u). now rewrite U in Nh.
  - intros l1 u l2 E. splitlog E. now apply (i_try _ _ I) in E.
  - intros l1 u n w l2 E. splitlog E; [|now apply (i_acq _ _ I) in E]. split; [intros x; rewrite <- (i_held _ _ I); apply Nh|]. intros m E. apply in_or_app. right. destruct (i_rel _ _ I m E) as [[x U]|U]; auto. specialize (Nh x). now rewrite U in Nh.
Qed.
Lemma remove_in u t l : In u (remove t l) <-> In u l /\ u <> t.
Proof. unfold remove. rewrite filter_In. destruct (Nat.eqb_spec t u); simpl; intuition congruence. Qed.
Lemma quiet' s h s' t p e : inv s h -> holds (pc s t) = false -> holds p = false -> (e = [] \/ e = [ETryFail t] /\ h <> None) -> pc s t <> Asleep -> p <> Asleep ->
  pc s' = upd (pc s) t p -> log s' = e ++ log s -> mview s' = mview s -> (forall u, u <> t -> view s' u = view s u) -> value s' = value s -> hist s' = hist s -> sleepers s' = sleepers s ->
  (waking s t \/ taking s t -> p = Xchg \/ p = Wake) -> inv s' h.
Proof.
  intros I Ht Hp He Na Np Ep El Em Ev Evl Eh Es H. apply (quiet s h s' t p e); auto.
  - intros u Hu. apply Ev. intros ->. congruence.
  - intros u. rewrite Es, (i_sleep _ _ I). upds; tauto.
  - intros X. rewrite Evl. rewrite Es in X. destruct (i_wake _ _ I X) as [?|(u & Hu)]; auto. right. unfold awaking, waking, taking in *. rewrite Ep. destruct (Nat.eq_dec u t) as [->|N]; [|exists u; updt; auto]. destruct (H Hu); exists t; updt; auto.
Qed.
Ltac qt P := try assumption; simpl; rewrite ?P; auto; try discriminate; try (intros; updt; reflexivity); try (unfold waking, taking; rewrite P; intuition discriminate).
Lemma inv_step s h l s' : inv s h -> step s l = Some s' -> exists h', inv s' h'.
Proof.
  intros I St. pose proof (i_sleep _ _ I) as Sl. pose proof (i_wake _ _ I) as Wk.
  assert (Ar : forall r e, holds (after_round threshold r e) = false /\ after_round threshold r e <> Asleep) by (intros r e; unfold after_round; destruct (_ <? _); [|destruct (_ =? _)%Z]; split; auto; discriminate).
  destruct l as [t|t|t v|t|t|t o|t]; simpl in St.
  - destruct (pc s t) eqn:P; try discriminate. injection St as <-. exists h. assert (X : holds (if 0 <? threshold then Load 0 else Xchg) = false /\ (if 0 <? threshold then Load 0 else Xchg) <> Asleep) by (destruct (0 <? threshold); split; auto; discriminate). destruct X as [X1 X2].
    set (p := if 0 <? threshold then Load 0 else Xchg) in *. clearbody p. eapply (quiet' s h _ t p []); qt P.
  - destruct (pc s t) eqn:P; try discriminate. injection St as <-. exists h. eapply (quiet' s h _ t Try []); qt P.
  - destruct (pc s t) as [|r| | | | | | | |] eqn:P; try discriminate. destruct (existsb _ _); [|discriminate]. injection St as <-. exists h. destruct (Ar r v). assert (X : holds (if (v =? 0)%Z then Cas r else after_round threshold r v) = false /\ (if (v =? 0)%Z then Cas r else after_round threshold r v) <> Asleep) by (destruct (v =? 0)%Z; split; auto; discriminate). destruct X as [X1 X2].
    set (p := if (v =? 0)%Z then Cas r else after_round threshold r v) in *. clearbody p. eapply (quiet' s h _ t p []); qt P.
  - assert (Hn : value s <> 0%Z -> h <> None) by (intros X ->; apply X; apply (i_val _ _ I)).
    assert (Vw : forall x, holds (pc s t) = false -> forall u, holds (pc s u) = true -> upd (view s) t x u = view s u) by (intros x X u Y; upds; congruence).
    destruct (pc s t) as [|r|r| | | | |n| |] eqn:P; try discriminate.
    + destruct (Z.eqb_spec (value s) 0) as [V|V]; injection St as <-; [exists (Some t); apply (took s h); auto; rewrite P; auto; try discriminate; right; splits; auto; discriminate|]. exists h. destruct (Ar r (value s)). eapply (quiet' s h _ t (after_round threshold r (value s)) []); qt P.
    + destruct (Z.eqb_spec (value s) 0) as [V|V]; injection St as <-; [exists (Some t); apply (took s h); auto; rewrite P; auto; discriminate|]. exists h. eapply (quiet s h _ t Wait []); simpl; auto; [now rewrite P|]. intros u. rewrite Sl. upds; intuition congruence.
    + destruct (Z.eqb_spec (value s) 2) as [V|V]; injection St as <-; exists h.
      * eapply (quiet s h _ t Asleep []); simpl; auto; [now rewrite P|]. intros u. rewrite Sl. upds; intuition congruence.
      * eapply (quiet' s h _ t Xchg []); qt P.
    + destruct (Z.eqb_spec (value s) 0) as [V|V]; injection St as <-; [exists (Some t); apply (took s h); auto; rewrite P; auto; try discriminate; right; splits; auto; discriminate|]. exists h. eapply (quiet' s h _ t Out [ETryFail t]); qt P.
    + injection St as <-. exists None. assert (h = Some t) by (apply (i_h _ _ I); now rewrite P). subst h. destruct (i_s0 _ _ I t P) as (m & Lr & Hm).
      assert (Oth : forall u, u <> t -> holds (pc s u) = false). { intros u N. destruct (holds (pc s u)) eqn:E; auto. apply (i_h _ _ I) in E. congruence. }
      constructor; simpl.
      * intros u n. upds; [|apply I]. split; [discriminate|]. intros E. apply (i_in _ _ I) in E. congruence.
      * intros u. destruct (Nat.eqb_spec u t) as [->|N]; updt; [reflexivity|]. apply I.
      * intros u. upds; [split; discriminate|]. rewrite Oth; auto. split; discriminate.
      * reflexivity.
      * split; auto. intros v [<-|Hv]; auto. now apply (i_hist _ _ I).
      * intros u. rewrite Sl. upds; [|tauto]. rewrite P. split; discriminate.
      * intros _. right. exists t. left. right. simpl. now updt.
      * intros u. upds; [discriminate|]. intros E. specialize (Oth u). rewrite E in Oth. discriminate Oth. auto.
      * intros n E. rewrite Lr in E. injection E as <-. auto.
      * intros l1 u l2 E. splitlog E. now apply (i_try _ _ I) in E.
      * intros l1 u n w l2 E. splitlog E. now apply (i_acq _ _ I) in E.
  - destruct (pc s t) as [| | | | | | |n| |] eqn:P; try discriminate. injection St as <-. assert (h = Some t) by (apply (i_h _ _ I); now rewrite P). subst h. pose proof (i_val _ _ I) as V. simpl in V.
    assert (Oth : forall u, u <> t -> holds (pc s u) = false). { intros u N. destruct (holds (pc s u)) eqn:E; auto. apply (i_h _ _ I) in E. congruence. }
    exists (if (value s =? 1)%Z then None else Some t). destruct V as [V|V]; rewrite V; simpl; constructor; simpl; rewrite ?V.
    * intros u m. destruct (Nat.eqb_spec u t) as [->|N]; updt; [split; discriminate|]. apply I.
    * intros u. rewrite <- (i_held _ _ I). upds; auto. now rewrite P.
    * intros u. rewrite <- (i_h _ _ I). upds; [rewrite P|]; tauto.
    * auto.
    * split; auto. intros v [<-|Hv]; auto. now apply (i_hist _ _ I).
    * intros u. rewrite Sl. upds; [|tauto]. rewrite P. split; discriminate.
    * intros _. right. exists t. left. left. simpl. now updt.
    * intros u. upds; [|intros E; specialize (Oth u); rewrite E in Oth; discriminate Oth; auto]. intros _. exists n. simpl. auto.
    * intros m E. left. exists t. now updt.
    * intros l1 u l2 E. splitlog E. now apply (i_try _ _ I) in E.
    * intros l1 u m w l2 E. splitlog E. now apply (i_acq _ _ I) in E.
    * intros u m. destruct (Nat.eqb_spec u t) as [->|N]; updt; [split; discriminate|]. apply I.
    * intros u. destruct (Nat.eqb_spec u t) as [->|N]; updt; [reflexivity|]. apply I.
    * intros u. upds; [split; discriminate|]. rewrite Oth; auto. split; discriminate.
    * reflexivity.
    * split; auto. intros v [<-|Hv]; auto. now apply (i_hist _ _ I).
    * intros u. rewrite Sl. upds; [|tauto]. rewrite P. split; discriminate.
    * intros X. destruct (Wk X) as [?|(u & Hu)]; [congruence|]. right. exists u. unfold waking, taking in *. simpl. upds; auto. rewrite P in Hu. intuition discriminate.
    * intros u. upds; [discriminate|]. intros E. specialize (Oth u). rewrite E in Oth. discriminate Oth. auto.
    * discriminate.
    * intros l1 u l2 E. splitlog E. now apply (i_try _ _ I) in E.
    * intros l1 u m w l2 E. splitlog E. now apply (i_acq _ _ I) in E.
  - destruct (pc s t) eqn:P; try discriminate. exists h. destruct o as [u|].
    + destruct (existsb _ _) eqn:E; [|discriminate]. injection St as <-. apply existsb_exists in E. destruct E as (u' & Hu & E). apply Nat.eqb_eq in E. subst u'. apply Sl in Hu. assert (u <> t) by congruence.
      assert (I1 : inv (mkSt (value s) (hist s) (mview s) (view s) (next s) (remove u (sleepers s)) (upd (pc s) u Xchg) (log s)) h).
      { apply (quiet s h _ u Xchg []); simpl; auto; [now rewrite Hu| |].
        - intros v. rewrite remove_in, Sl. upds; intuition congruence.
        - intros _. right. exists u. right. unfold taking. simpl. now updt. }
      eapply (quiet _ h _ t Out [] I1); simpl; auto; [updt; now rewrite P| |].
      * intros v. rewrite remove_in, Sl. upds; intuition congruence.
      * intros _. right. exists u. right. unfold taking. simpl. now updt.
    + destruct (sleepers s) eqn:E; [|discriminate]. injection St as <-. eapply (quiet s h _ t Out []); simpl; auto; [now rewrite P| |congruence]. intros u. rewrite ?E. specialize (Sl u). simpl in *. rewrite ?E in Sl. upds; [rewrite P in Sl; intuition congruence|exact Sl].
  - destruct (pc s t) eqn:P; try discriminate. injection St as <-. exists h. eapply (quiet s h _ t Xchg []); simpl; auto; [now rewrite P| |].
    + intros u. rewrite remove_in, Sl. upds; intuition congruence.
    + intros _. right. exists t. right. unfold taking. simpl. now updt.
Qed.
Notation reach := (reachable step init_state).
Lemma inv_reach s : reach s -> exists h, inv s h.
Proof.
  revert s. apply reachable_inv.
  - exists None. constructor; simpl; try discriminate; auto; try (intros; now destruct l1); try (intros; split; discriminate); try tauto; [split; [auto|intuition]|intros t; split; [tauto|discriminate]].
  - intros s l s' [h I] St. eapply inv_step; eauto.
Qed.

(** ** C49: at most one thread holds the lock, from lock()/successful try_lock() to the access of unlock() that frees it. *)
Theorem C49_futex_exclusion s : reach s -> forall t u, held (log s) t = true -> held (log s) u = true -> t = u.
Proof. intros R t u H1 H2. destruct (inv_reach s R) as [h I]. rewrite <- (i_held _ _ I) in H1, H2. apply (i_h _ _ I) in H1, H2. congruence. Qed.
(** So at most one thread is between lock()/successful try_lock() and unlock(). *)
Theorem C49_futex_inside s : reach s -> forall t u n m, inside (log s) t = Some n -> inside (log s) u = Some m -> t = u.
Proof. intros R t u n m H1 H2. destruct (inv_reach s R) as [h I]. apply (i_in _ _ I) in H1, H2. assert (X : forall x k, pc s x = Inside k -> h = Some x) by (intros x k E; apply (i_h _ _ I); now rewrite E). apply X in H1, H2. congruence. Qed.
(** Nobody holds it at the moment of an acquisition, and somebody does when try_lock() fails. *)
Theorem C49_futex_exact s : reach s ->
  (forall l1 t n v l2, log s = l1 ++ EAcquire t n v :: l2 -> forall u, held l2 u = false) /\
  (forall l1 t l2, log s = l1 ++ ETryFail t :: l2 -> exists u, held l2 u = true).
Proof. intros R. destruct (inv_reach s R) as [h I]. split; [intros l1 t n v l2 E; apply (i_acq _ _ I _ _ _ _ _ E)|apply I]. Qed.
Theorem C49_futex_values s : reach s -> (value s = 0 \/ value s = 1 \/ value s = 2)%Z.
Proof. intros R. destruct (inv_reach s R) as [h I]. apply (i_hist _ _ I), (i_hist _ _ I). Qed.

(** ** C50: while a thread sleeps in the kernel, somebody is about to call futex_wake() or to take the lock, or a thread holds the lock whose unlock() will call futex_wake(). *)
Theorem C50_no_lost_wakeup s t : reach s -> asleep s t ->
  (exists u, waking s u \/ taking s u) \/ (exists u n, inside (log s) u = Some n /\ exists s', step s (Unlock u) = Some s' /\ waking s' u).
Proof.
  intros R A. destruct (inv_reach s R) as [h I]. destruct (i_wake _ _ I) as [V|V]; [intros E; unfold asleep in A; now rewrite E in A| |now left].
  pose proof (i_val _ _ I) as Vh. destruct h as [u|]; [|congruence]. assert (Hu : holds (pc s u) = true) by now apply (i_h _ _ I). destruct (pc s u) as [| | | | | | |n| |] eqn:P; try discriminate.
  - right. exists u, n. split; [now apply (i_in _ _ I)|]. simpl. rewrite P, V. simpl. eexists. split; [reflexivity|]. left. simpl. now updt.
  - left. exists u. left. now left.
Qed.
(** futex_wake() wakes a thread if one sleeps, and this thread goes on to take the lock. *)
Theorem C50_wakes s t o s' : reach s -> step s (WakeOne t o) = Some s' -> sleepers s <> [] -> exists u, asleep s u /\ taking s' u /\ ~ asleep s' u.
Proof.
  intros R St N. destruct (inv_reach s R) as [h I]. simpl in St. destruct (pc s t) eqn:P; try discriminate. destruct o as [u|]; [|destruct (sleepers s); congruence]. destruct (existsb _ _) eqn:E; [|discriminate]. injection St as <-.
  apply existsb_exists in E. destruct E as (u' & Hu & E). apply Nat.eqb_eq in E. subst u'. exists u. assert (P' := Hu). apply (i_sleep _ _ I) in P'. unfold asleep, taking. simpl. rewrite remove_in. updt. splits; auto; [|tauto]. upds; congruence.
Qed.
(** A lock that nobody holds and somebody wants can be taken with at most three steps, without spurious wake-ups. *)
Theorem C50_progress s t : reach s -> wants s t -> (forall u, held (log s) u = false) ->
  exists ls s' u n v, exec step s ls = Some s' /\ length ls <= 3 /\ (forall x, ~ In (Spurious x) ls) /\ log s' = EAcquire u n v :: log s.
Proof.
  intros R W F. destruct (inv_reach s R) as [h I]. assert (V : value s = 0%Z). { pose proof (i_val _ _ I) as V. destruct h as [u|]; auto. assert (X : holds (pc s u) = true) by now apply (i_h _ _ I). now rewrite (i_held _ _ I), F in X. }
  assert (T : forall s0 u, pc s0 u = Xchg -> value s0 = 0%Z -> exists s' n v, step s0 (Go u) = Some s' /\ log s' = EAcquire u n v :: log s0) by (intros s0 u P V0; simpl; rewrite P, V0; simpl; do 3 eexists; split; reflexivity).
  unfold wants in W. destruct (pc s t) as [|r|r| | | | |n| |] eqn:P; try contradiction.
  - exists [Read t 0; Go t]. cbn [exec FutexLock.step]. rewrite P. assert (X : existsb (Z.eqb 0) (hist s) = true). { apply existsb_exists. exists 0%Z. split; auto. rewrite <- V. apply (i_hist _ _ I). } rewrite X. cbn [pc with_pc Z.eqb]. updt. cbn [value with_pc]. rewrite V. cbn [Z.eqb]. do 4 eexists. splits; [reflexivity|auto|simpl; intuition discriminate|reflexivity].
  - exists [Go t]. cbn [exec FutexLock.step]. rewrite P, V. cbn [Z.eqb]. do 4 eexists. splits; [reflexivity|auto|simpl; intuition discriminate|reflexivity].
  - destruct (T s t P V) as (s' & n & v & St & L). exists [Go t], s', t, n, v. cbn [exec]. rewrite St. splits; auto. simpl; intuition discriminate.
  - destruct (T (with_pc s t Xchg) t) as (s' & n & v & St & L); [simpl; now updt|auto|]. exists [Go t; Go t], s', t, n, v. cbn [exec]. assert (X : step s (Go t) = Some (with_pc s t Xchg)) by (simpl; now rewrite P, V). rewrite X, St. splits; auto. simpl; intuition discriminate.
  - assert (Hs : In t (sleepers s)) by now apply (i_sleep _ _ I). destruct (i_wake _ _ I) as [X|(u & [[Hu|Hu]|Hu])]; [intros X; now rewrite X in Hs|congruence| | |].
    + exfalso. specialize (F u). rewrite <- (i_held _ _ I), Hu in F. discriminate.
    + set (s1 := mkSt (value s) (hist s) (mview s) (view s) (next s) (remove t (sleepers s)) (upd (upd (pc s) t Xchg) u Out) (log s)). assert (X : step s (WakeOne u (Some t)) = Some s1). { simpl. rewrite Hu. assert (Y : existsb (Nat.eqb t) (sleepers s) = true) by (apply existsb_exists; exists t; split; auto; apply Nat.eqb_refl). now rewrite Y. }
      destruct (T s1 t) as (s' & n & v & St & L); [simpl; upds; auto; congruence|auto|]. exists [WakeOne u (Some t); Go t], s', t, n, v. cbn [exec]. rewrite X, St. splits; auto. simpl; intuition discriminate.
    + destruct (T s u Hu V) as (s' & n & v & St & L). exists [Go u], s', u, n, v. cbn [exec]. rewrite St. splits; auto. simpl; intuition discriminate.
Qed.

(** ** C71: a critical section happens before the next one if unlock() found that others may be waiting. *)
Theorem C71_futex_partial s : reach s -> forall l1 t n v l2 m, log s = l1 ++ EAcquire t n v :: l2 -> last_release l2 = Some (m, true) -> In m v.
Proof. intros R l1 t n v l2 m E. destruct (inv_reach s R) as [h I]. apply (i_acq _ _ I _ _ _ _ _ E). Qed.
End F.

Lemma ran threshold ls (P : st -> Prop) : match exec (step threshold) init_state ls with Some s => P s | None => False end -> exists s, exec (step threshold) init_state ls = Some s /\ P s.
Proof. destruct (exec _ _ ls) as [s|]; [eauto|tauto]. Qed.
(** ... but not in general: unlock() without waiters is fetch_sub( 1, memory_order_acquire), which releases nothing. *)
Theorem C71_refuted_futex : exists s, exec (step 64) init_state [Lock 1; Read 1 0; Go 1; Unlock 1; Lock 2; Read 2 0; Go 2] = Some s /\
  log s = [EAcquire 2 1 []; ERelease 1 0 false; EAcquire 1 0 []].
Proof. apply ran. vm_compute. auto. Qed.
(** Thread 2 sleeps while thread 1 has the lock; unlock() of thread 1 wakes it; its critical section knows the first one. Thread 3 fails twice, the second time while unlock() is under way. *)
Example C49_futex_ex : exists s, exec (step 1) init_state [Lock 1; Read 1 0; Go 1; Lock 2; Read 2 1; Go 2; Go 2; TryLock 3; Go 3; Unlock 1; TryLock 3; Go 3; Go 1; WakeOne 1 (Some 2); Go 2] = Some s /\
  rev (log s) = [EAcquire 1 0 []; ETryFail 3; ERelease 1 0 true; ETryFail 3; EFreed 1; EAcquire 2 1 [0]].
Proof. apply ran. vm_compute. auto. Qed.
Example C50_ex : exists s, exec (step 1) init_state [Lock 1; Read 1 0; Go 1; Lock 2; Read 2 1; Go 2; Go 2; Unlock 1; Go 1] = Some s /\ asleep s 2 /\ wants s 2 /\ waking s 1 /\ forall u, held (log s) u = false.
Proof.
  destruct (ran 1 [Lock 1; Read 1 0; Go 1; Lock 2; Read 2 1; Go 2; Go 2; Unlock 1; Go 1] (fun s => In 2 (sleepers s) /\ pc s 2 = Asleep /\ pc s 1 = Wake /\ log s = [EFreed 1; ERelease 1 0 true; EAcquire 1 0 []])) as (s & E & A & P2 & P1 & L); [vm_compute; auto|].
  exists s. split; [exact E|]. split; [exact A|]. split; [unfold wants; now rewrite P2|]. split; [now right|]. intros u. rewrite L. simpl. destruct (u =? 1); reflexivity.
Qed.

Print Assumptions C49_futex_exclusion.
Print Assumptions C49_futex_inside.
Print Assumptions C49_futex_exact.
Print Assumptions C49_futex_values.
Print Assumptions C50_no_lost_wakeup.
Print Assumptions C50_wakes.
Print Assumptions C50_progress.
Print Assumptions C71_futex_partial.
Print Assumptions C71_refuted_futex.
