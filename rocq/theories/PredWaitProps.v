(** C12 for the waits with predicate. *)
From Coq Require Import List Arith Bool Lia.
From Verif Require Import Base Kernel KernelFacts CondVar CondVarSpec CondVarProofs CondVarProps Client ClientProofs PredWait.
Import ListNotations.

Fixpoint last_ret (h : list event) (f : fid) : option (op * res * nat) :=
  match h with
  | [] => None
  | ERet g o r a :: h' => if Nat.eqb g f then Some (o, r, a) else last_ret h' f
  | _ :: h' => last_ret h' f
  end.
Lemma last_ret_wevs f fs g : forall h, last_ret (rev (map (EWake f) fs) ++ h) g = last_ret h g.
Proof. induction fs as [|x fs IH]; intros h; auto. rewrite wevs_cons. now rewrite IH. Qed.
Lemma last_ret_res h f o r a : last_ret h f = Some (o, r, a) -> last_res h f = r.
Proof.
  induction h as [|[g o'|g x|g o' r' a'] h IH]; simpl; auto; [discriminate|]. destruct (Nat.eqb g f); auto. congruence.
Qed.
Lemma last_ret_inside h f o r a : last_ret h f = Some (o, r, a) -> pending h f = None -> acquires o r = true -> inside h f = true.
Proof.
  induction h as [|[g o'|g x|g o' r' a'] h IH]; simpl; intros E Hp Ha; auto; try discriminate.
  - destruct (Nat.eqb_spec g f); [discriminate|]. simpl. auto.
  - destruct (Nat.eqb_spec g f); simpl; [|auto]. inversion E; subst. now rewrite Ha.
Qed.
Lemma last_ret_timeout h f tp r a : cv_ok h -> last_ret h f = Some (WaitUntil tp, r, a) -> r = RTimeout -> tp <= a.
Proof.
  induction h as [|[g o'|g x|g o' r' a'] h IH]; simpl; intros L E Hr; try discriminate; try (apply IH; tauto).
  destruct (Nat.eqb g f); [|apply IH; tauto]. inversion E; subst. destruct L as [L _]. intuition discriminate.
Qed.

Section Props.
Context {V : Type}.
Variable v0 : V.

Definition p_op (p : upc V) : op := match p with PSimple o => o | PWaitP _ => Wait | PWaitU tp _ => WaitUntil tp end.
Definition p_matches (p : upc V) (o : uop V) : Prop :=
  match p, o with
  | PSimple Lock, ULock | PSimple Unlock, UUnlock => True
  | PSimple NotifyAll, UNotify true | PSimple NotifyOne, UNotify false => True
  | PWaitP a, UWait b => a = b
  | PWaitU t a, UWaitUntil u b => t = u /\ a = b
  | _, _ => False
  end.
Definition pinv (s : pstate V) : Prop := forall f,
  match cpc s f with
  | None => upend (clog s) f = None
  | Some p => (exists o, upend (clog s) f = Some o /\ p_matches p o) /\
              (pending (log (cv s)) f = Some (p_op p) \/
               (pending (log (cv s)) f = None /\ exists r a, last_ret (log (cv s)) f = Some (p_op p, r, a) /\ a <= now (kn (cv s))))
  end.

Lemma cv_now s l s' : CInv s -> CondVar.step s l = Some s' -> now (kn s) <= now (kn s').
Proof.
  intros I Hs. unfold step in Hs. destruct l as [kl|f o|f|f|f].
  - destruct (kstep (kn s) kl) as [k|] eqn:E; inversion Hs; subst; simpl. eapply kstep_now; eauto.
  - destruct (pcs s f); try discriminate. destruct (running (fib (kn s) f)); inversion Hs; auto.
  - destruct (running (fib (kn s) f)) eqn:Er; [|discriminate]. unfold run_step in Hs.
    destruct (pcs s f) as [|o r|o r e| |tp|tp|tp|e|tp e|tp e|all].
    + discriminate.
    + inversion Hs. unfold lock_step. destruct (is_owner (mx s) f).
      * destruct o; simpl; auto.
      * destruct (is_free (mx s)); [simpl; auto|]. destruct (suspend_and_wait (kn s) f (mwaiters (mx s))) as [[k q] e] eqn:E.
        destruct (WakeFacts.suspend_and_wait_facts _ _ _ _ _ _ _ _ (c_k _ I) Er E) as (_ & _ & _ & _ & _ & En). simpl. lia.
    + inversion Hs. simpl. unfold suspend_and_wait_end, kassert. simpl. auto.
    + destruct (is_owner (mx s) f); inversion Hs; auto. unfold release.
      destruct (notify_one (kn s) (mwaiters (mx s))) as [k q] eqn:E. apply notify_one_now in E. simpl. lia.
    + destruct (splk s); inversion Hs; auto.
    + destruct (is_owner (mx s) f); inversion Hs; auto. unfold release.
      destruct (notify_one (kn s) (mwaiters (mx s))) as [k q] eqn:E. apply notify_one_now in E. simpl. lia.
    + destruct tp as [tp|].
      * destruct (suspend_and_wait_until (kn s) f (cvq s) tp) as [[k q] e] eqn:E.
        destruct (WakeFacts.suspend_and_wait_until_facts _ _ _ _ _ _ _ _ _ (c_k _ I) Er E) as (_ & _ & _ & _ & _ & En).
        inversion Hs; simpl; lia.
      * destruct (suspend_and_wait (kn s) f (cvq s)) as [[k q] e] eqn:E.
        destruct (WakeFacts.suspend_and_wait_facts _ _ _ _ _ _ _ _ (c_k _ I) Er E) as (_ & _ & _ & _ & _ & En).
        inversion Hs; simpl; lia.
    + inversion Hs. simpl. unfold suspend_and_wait_end, kassert. simpl. auto.
    + destruct (wait_until_result (kn s) tp); inversion Hs; auto.
    + destruct (splk s); inversion Hs; auto.
    + destruct (splk s); inversion Hs. unfold notify_step.
      destruct (if all then notify_all (kn s) (cvq s) else notify_one (kn s) (cvq s)) as [k q] eqn:En. simpl.
      assert (now k = now (kn s)); [|lia]. destruct all; [eapply notify_all_now|eapply notify_one_now]; eauto.
  - destruct (pcs s f); try discriminate. destruct (running (fib (kn s) f)); inversion Hs; auto.
  - destruct (pcs s f); try discriminate. destruct (running (fib (kn s) f)); inversion Hs; auto.
Qed.

Lemma pinv_do (s s' : pstate V) f d a ev : pinv s -> do_act s f (d, [], a) ev = Some s' ->
  (ev = [] /\ (exists p0 o, upend (clog s) f = Some o /\ p_matches p0 o /\
      match a with ACall o' p => o' = p_op p /\ p_matches p o | ARet _ => True end)) \/
  (exists o, ev = [CCall f o] /\ match a with ACall o' p => o' = p_op p /\ p_matches p o | ARet _ => True end) ->
  pinv s'.
Proof.
  intros P Hd Hev g. unfold do_act in Hd. cbn [map app] in Hd. destruct a as [o' p'|r].
  - destruct (CondVar.step (cv s) (LCall f o')) as [v|] eqn:E; [|discriminate]. inversion Hd; subst s'; clear Hd. simpl.
    apply call_shape in E. destruct E as (_ & _ & ->). simpl. specialize (P g).
    destruct (Nat.eq_dec g f) as [->|Hne]; updt.
    + destruct Hev as [(-> & p0 & o & E1 & E2 & E3)|(o & -> & E3)]; simpl; rewrite ?Nat.eqb_refl; destruct E3 as [-> E3];
        (split; [eauto|auto]).
    + assert (upend (ev ++ clog s) g = upend (clog s) g) as ->.
      { destruct Hev as [(-> & _)|(o & -> & _)]; simpl; auto. now rewrite (proj2 (Nat.eqb_neq f g)) by auto. }
      rewrite (proj2 (Nat.eqb_neq f g)) by auto. exact P.
  - inversion Hd; subst s'; clear Hd. simpl. specialize (P g). destruct (Nat.eq_dec g f) as [->|Hne]; updt.
    + now rewrite Nat.eqb_refl.
    + rewrite (proj2 (Nat.eqb_neq f g)) by auto.
      assert (upend (ev ++ clog s) g = upend (clog s) g) as ->; [|exact P].
      destruct Hev as [(-> & _)|(o & -> & _)]; simpl; auto. now rewrite (proj2 (Nat.eqb_neq f g)) by auto.
Qed.

Lemma pinv_reachable s : reachable (pstep V v0) (pinit V v0) s -> pinv s.
Proof.
  revert s. apply reachable_inv2; [intros f; simpl; auto|].
  intros s l s' R0 P Hs. pose proof (cinv_reachable _ (proj_reachable _ _ R0)) as I. unfold pstep, cstep in Hs. destruct l as [f o|f|l].
  - destruct (cpc s f) eqn:Ec; [discriminate|]. destruct (can_go s f); [|discriminate].
    unfold begin, puser in Hs. destruct (ubegin V (is_owner (mx (cv s)) f) (dat s) o) as [[[d xs] a]|] eqn:Eb; [|discriminate].
    destruct xs as [|[]]. eapply pinv_do; eauto. right. exists o. split; auto.
    destruct o as [| |all|v|pred|tp pred]; simpl in Eb; unfold wait_loop, until_loop in Eb; simpl in Eb.
    + inversion Eb; simpl; auto.
    + inversion Eb; simpl; auto.
    + destruct all; inversion Eb; simpl; auto.
    + destruct (is_owner (mx (cv s)) f); inversion Eb; auto.
    + destruct (pred (dat s)); inversion Eb; simpl; auto.
    + destruct (pred (dat s)); inversion Eb; simpl; auto.
  - destruct (cpc s f) as [p|] eqn:Ec; [|discriminate]. destruct (can_go s f); [|discriminate].
    unfold cont, puser in Hs. destruct (ucont V (dat s) p (last_res (log (cv s)) f)) as [[d xs] a] eqn:Eb.
    destruct xs as [|[]]. eapply pinv_do; eauto. left. split; auto.
    pose proof (P f) as Pf. rewrite Ec in Pf. destruct Pf as ((o & Po & Pm) & _). exists p, o. splits; auto.
    destruct p as [o'|pred|tp pred]; simpl in Eb.
    + inversion Eb; auto.
    + unfold wait_loop in Eb. destruct o; try contradiction. simpl in Pm. subst.
      destruct (last_res (log (cv s)) f); try destruct (pred0 (dat s)); inversion Eb; simpl; auto.
    + unfold until_loop in Eb. destruct o; try contradiction. simpl in Pm. destruct Pm; subst.
      destruct (last_res (log (cv s)) f); try destruct (pred0 (dat s)); inversion Eb; simpl; auto.
  - destruct (allowed s l) eqn:Ea; [|discriminate]. destruct (CondVar.step (cv s) l) as [v|] eqn:Ev; [|discriminate].
    inversion Hs; subst s'; clear Hs. intros g. simpl. specialize (P g).
    pose proof (cv_now _ _ _ I Ev) as Hn.
    destruct (cpc s g) as [p|] eqn:Ec; auto. destruct P as [P1 P2]. split; auto.
    destruct (cv_step_log _ _ _ I Ev) as [->|(f & o & r & fs & -> & El & Hp & _)].
    { intros f o ->. discriminate. }
    { destruct P2 as [P2|(P2 & r & a & P3 & P4)]; auto. right. split; auto. exists r, a. split; auto. lia. }
    rewrite El. simpl. destruct (Nat.eqb_spec f g) as [->|Hne].
    + right. split; auto. destruct P2 as [P2|(P2 & _)]; [|congruence]. exists r, (now (kn (cv s))). split; [congruence|auto].
    + rewrite wevs_pending, last_ret_wevs. destruct P2 as [P2|(P2 & r' & a & P3 & P4)]; auto.
      right. split; auto. exists r', a. split; auto. lia.
Qed.

(** The fiber owns the mutex, or it returned without waiting, with the mutex in the state of the call. *)
Definition owning_or_immediate (s s' : pstate V) (f : fid) (o : uop V) : Prop :=
  owner (mx (cv s')) = Some f \/
  (cv s' = cv s /\ exists r a, clog s' = CRet f r a :: CCall f o :: clog s).

Lemma completed_owner s f : CInv s -> pcs s f = Idle -> inside (log s) f = true -> owner (mx s) = Some f.
Proof.
  intros I Hi H. destruct (c_l _ I f) as (A & _). rewrite H, Hi in A. simpl in A. rewrite andb_true_r in A. now apply is_owner_spec.
Qed.

Lemma pstep_ret s l s' f b a h o : reachable (pstep V v0) (pinit V v0) s -> pstep V v0 s l = Some s' ->
  clog s' = CRet f (UBool b) a :: h -> clog s <> clog s' -> upend h f = Some o ->
  dat s' = dat s /\ a = now (kn (cv s')) /\ owning_or_immediate s s' f o /\
  match o with
  | UWait pred => b = true /\ pred (dat s') = true
  | UWaitUntil tp pred => b = pred (dat s') /\ (b = false -> tp <= a)
  | _ => False
  end.
Proof.
  intros R0 Hs El Hne Hu. pose proof (cinv_reachable _ (proj_reachable _ _ R0)) as I. pose proof (pinv_reachable _ R0) as P.
  unfold pstep, cstep in Hs. destruct l as [x o'|x|l].
  - destruct (cpc s x) eqn:Ec; [discriminate|]. destruct (can_go s x); [|discriminate].
    unfold begin, puser in Hs. destruct (ubegin V (is_owner (mx (cv s)) x) (dat s) o') as [[[d xs] ac]|] eqn:Eb; [|discriminate].
    destruct xs as [|[]]. unfold do_act in Hs. cbn [map app] in Hs. destruct ac as [oo p'|r].
    { destruct (CondVar.step (cv s) (LCall x oo)); inversion Hs; subst s'. discriminate El. }
    inversion Hs; subst s'; clear Hs. cbn [clog] in El. inversion El; subst. simpl in Hu. rewrite Nat.eqb_refl in Hu. inversion Hu; subst o'.
    assert (O : forall r, owning_or_immediate s (mkC (cv s) d (upd (cpc s) f None) (CRet f r (now (kn (cv s))) :: CCall f o :: clog s)) f o).
    { intros r. right. simpl. split; auto. eauto. }
    destruct o as [| |all|v|pred|tp pred]; simpl in Eb; unfold wait_loop, until_loop in Eb; simpl in Eb; try discriminate.
    + destruct (is_owner (mx (cv s)) f); discriminate.
    + destruct (pred (dat s)) eqn:Ep; inversion Eb; subst. simpl. splits; auto.
    + destruct (pred (dat s)) eqn:Ep; inversion Eb; subst. simpl. splits; auto. discriminate.
  - destruct (cpc s x) as [p|] eqn:Ec; [|discriminate]. destruct (can_go s x) eqn:Eg; [|discriminate].
    apply can_go_spec in Eg. destruct Eg as [Er Ei]. pose proof (pend_idle _ _ I Ei) as Hpi.
    unfold cont, puser in Hs. destruct (ucont V (dat s) p (last_res (log (cv s)) x)) as [[d xs] ac] eqn:Eb.
    destruct xs as [|[]]. unfold do_act in Hs. cbn [map app] in Hs. destruct ac as [oo p'|r].
    { destruct (CondVar.step (cv s) (LCall x oo)); inversion Hs; subst s'. simpl in *. congruence. }
    inversion Hs; subst s'; clear Hs. cbn [clog] in El. inversion El; subst.
    pose proof (P f) as Pf. rewrite Ec in Pf. destruct Pf as ((o' & Po & Pm) & [Pl|(_ & r & a & Pl & Pa)]); [congruence|].
    rewrite Hu in Po. inversion Po; subst o'. pose proof (last_ret_res _ _ _ _ _ Pl) as Hr.
    pose proof (last_ret_inside _ _ _ _ _ Pl Hpi) as Hin. unfold owning_or_immediate. simpl.
    assert (Own : acquires (p_op p) r = true -> owner (mx (cv s)) = Some f) by (intros X; apply completed_owner; auto).
    destruct p as [oo|pred|tp pred]; simpl in Eb.
    + discriminate.
    + rewrite Hr in Eb. unfold wait_loop in Eb. destruct o; try contradiction. simpl in Pm, Own. subst pred0.
      pose proof (c_log _ I) as L.
      assert (r <> RTimeout).
      { intros ->. clear - Pl L. revert L Pl. generalize (log (cv s)). induction l as [|[g o'|g x|g o' r' a'] h IH]; simpl; intros L E; try discriminate; try (apply IH; tauto).
        destruct (Nat.eqb g f); [|apply IH; tauto]. inversion E; subst. destruct L as [L _]. intuition discriminate. }
      destruct r; try congruence; destruct (pred (dat s)) eqn:Ep; inversion Eb; subst. splits; auto.
    + rewrite Hr in Eb. unfold until_loop in Eb. destruct o; try contradiction. simpl in Pm, Own. destruct Pm as [<- <-].
      destruct r; try discriminate.
      * destruct (pred (dat s)) eqn:Ep; inversion Eb; subst. splits; auto. discriminate.
      * inversion Eb; subst. splits; auto. intros _.
        pose proof (last_ret_timeout _ _ _ _ _ (c_log _ I) Pl eq_refl). lia.
  - destruct (allowed s l); [|discriminate]. destruct (CondVar.step (cv s) l) as [v|]; [|discriminate].
    inversion Hs; subst s'. simpl in Hne. congruence.
Qed.

(** wait(lk, pred): at the return, pred holds of the shared data and the caller owns the mutex (if it waited at all,
    otherwise the mutex is as at the call). *)
Theorem C12_wait_pred : forall s l s' f b a h pred, reachable (pstep V v0) (pinit V v0) s -> pstep V v0 s l = Some s' ->
  clog s' = CRet f (UBool b) a :: h -> clog s <> clog s' -> upend h f = Some (UWait pred) ->
  b = true /\ pred (dat s') = true /\ owning_or_immediate s s' f (UWait pred).
Proof. intros s l s' f b a h pred R0 Hs El Hn Hu. destruct (pstep_ret _ _ _ _ _ _ _ _ R0 Hs El Hn Hu) as (A & B & C & D & E). auto. Qed.

(** wait_until(lk, tp, pred): the result is the value of pred; false is returned only when the deadline has passed. *)
Theorem C12_wait_until_pred : forall s l s' f b a h tp pred, reachable (pstep V v0) (pinit V v0) s -> pstep V v0 s l = Some s' ->
  clog s' = CRet f (UBool b) a :: h -> clog s <> clog s' -> upend h f = Some (UWaitUntil tp pred) ->
  b = pred (dat s') /\ (b = false -> tp <= now (kn (cv s'))) /\ owning_or_immediate s s' f (UWaitUntil tp pred).
Proof.
  intros s l s' f b a h tp pred R0 Hs El Hn Hu. destruct (pstep_ret _ _ _ _ _ _ _ _ R0 Hs El Hn Hu) as (A & -> & C & D & E). auto.
Qed.

(** The shared data changes only by an assignment of the fiber that owns the mutex. *)
Theorem C12_data_protected : forall s l s', reachable (pstep V v0) (pinit V v0) s -> pstep V v0 s l = Some s' -> dat s' <> dat s ->
  exists f v, l = CLCall f (UWrite v) /\ owner (mx (cv s)) = Some f.
Proof.
  intros s l s' R0 Hs Hd. unfold pstep, cstep in Hs. destruct l as [f o|f|l].
  - destruct (cpc s f) eqn:Ec; [discriminate|]. destruct (can_go s f); [|discriminate].
    unfold begin, puser in Hs. destruct (ubegin V (is_owner (mx (cv s)) f) (dat s) o) as [[[d xs] ac]|] eqn:Eb; [|discriminate].
    assert (dat s' = d). { unfold do_act in Hs. destruct ac as [oo p'|r]; [destruct (CondVar.step (cv s) (LCall f oo))|]; inversion Hs; auto. }
    destruct o as [| |all|v|pred|tp pred]; simpl in Eb; try (inversion Eb; subst; congruence).
    exists f, v. split; auto. destruct (is_owner (mx (cv s)) f) eqn:Eo; [|discriminate]. now apply is_owner_spec.
  - destruct (cpc s f) as [p|] eqn:Ec; [|discriminate]. destruct (can_go s f) eqn:Eg; [|discriminate].
    unfold cont, puser in Hs. destruct (ucont V (dat s) p (last_res (log (cv s)) f)) as [[d xs] ac] eqn:Eb.
    assert (dat s' = d). { unfold do_act in Hs. destruct ac as [oo p'|r]; [destruct (CondVar.step (cv s) (LCall f oo))|]; inversion Hs; auto. }
    exfalso. apply Hd. destruct p; simpl in Eb; destruct (last_res (log (cv s)) f); inversion Eb; congruence.
  - destruct (allowed s l); [|discriminate]. destruct (CondVar.step (cv s) l) as [v|]; [|discriminate].
    inversion Hs; subst s'. simpl in Hd. congruence.
Qed.
End Props.

(** Fiber 1 waits until the shared number is positive, fiber 2 sets it. *)
Definition c12_run : list (clabel (uop nat)) :=
  let pos := fun n => Nat.ltb 0 n in
  [CLCv (LK (Pick 1 1)); CLCv (LK (Pick 2 2)); CLCall 1 ULock; CLCv (LRun 1); CLCont 1; CLCall 1 (UWait pos); CLCv (LRun 1); CLCv (LRun 1); CLCv (LRun 1);
   CLCall 2 (UNotify false); CLCv (LRun 2); CLCont 2; CLCv (LK (Pick 1 1)); CLCv (LRun 1); CLCv (LRun 1); CLCont 1; CLCv (LRun 1); CLCv (LRun 1); CLCv (LRun 1);
   CLCall 2 ULock; CLCv (LRun 2); CLCont 2; CLCall 2 (UWrite 7); CLCall 2 (UNotify true); CLCv (LRun 2); CLCont 2; CLCall 2 UUnlock; CLCv (LRun 2); CLCont 2;
   CLCv (LK (Pick 1 1)); CLCv (LRun 1); CLCv (LRun 1)].
Example C12_ex_pred : exists s, reachable (pstep nat 0) (pinit nat 0) s /\ upend (clog s) 1 <> None /\ dat s = 7 /\
  exists s', pstep nat 0 s (CLCont 1) = Some s' /\ clog s' = CRet 1 (UBool true) 0 :: clog s /\ owner (mx (cv s')) = Some 1.
Proof.
  apply (reach_by _ _ c12_run). vm_compute. splits; auto; [discriminate|]. eexists. splits; reflexivity.
Qed.

(** All theorems of this file at once: their assumptions. *)
Definition all_predWait :=
  (@C12_wait_pred, @C12_wait_until_pred, @C12_data_protected).
Print Assumptions all_predWait.
