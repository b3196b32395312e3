From Coq Require Import List Arith Bool Lia.
From Verif Require Import Base Kernel KernelFacts WakeFacts CondVar CondVarSpec CondVarProofs CondVarProps Client.
Import ListNotations.

Definition res_rel (h : list event) (f : fid) (o : op) (r : res) : Prop :=
  match o with
  | Lock => r = if inside h f then RErr else ROk
  | Unlock => r = if called_inside h f then ROk else RErr
  | Wait => r = ROk \/ (r = RErr /\ called_inside h f = false)
  | WaitUntil _ => r = ROk \/ r = RTimeout \/ (r = RErr /\ called_inside h f = false)
  | NotifyOne | NotifyAll => r = ROk
  end.

(** What a step of CondVar.v other than a call does to the log. *)
Lemma cv_step_log s l s' : CInv s -> step s l = Some s' -> (forall f o, l <> LCall f o) ->
  log s' = log s \/
  exists f o r fs, l = LRun f /\ log s' = ERet f o r (now (kn s)) :: rev (map (EWake f) fs) ++ log s /\
    pending (log s) f = Some o /\ running (fib (kn s) f) = true /\ running (fib (kn s') f) = true /\ pcs s' f = Idle /\
    res_rel (log s) f o r /\ (fs <> [] -> o = NotifyOne \/ o = NotifyAll).
Proof.
  intros I Hs Hl. pose proof (cinv_step _ _ _ I Hs) as I'. unfold step in Hs. destruct l as [kl|f o|f|f|f].
  - destruct (kstep (kn s) kl); inversion Hs; auto.
  - exfalso. eapply Hl; eauto.
  - destruct (running (fib (kn s) f)) eqn:Er; [|discriminate].
    destruct (c_l _ I f) as (A & B & C & D). unfold run_step in Hs.
    destruct (pcs s f) as [|o r|o r e| |tp|tp|tp|e|tp e|tp e|all] eqn:Ep; simpl in A, B, C, D.
    + discriminate.
    + inversion Hs; subst s'; clear Hs. revert I'. unfold lock_step. rewrite andb_true_r in A. destruct (is_owner (mx s) f) eqn:Eo.
      * intros I'. destruct o; simpl in C, D; try (specialize (C eq_refl); discriminate); try contradiction.
        right. exists f, Lock, RErr, []. simpl. updt. rewrite A. splits; auto. congruence.
      * destruct (is_free (mx s)).
        -- intros _. right. exists f, o, r, []. simpl. updt. splits; auto; try congruence.
           unfold lock_res in D. destruct o; simpl in *; try tauto. now rewrite A.
        -- destruct (suspend_and_wait _ _ _) as [[k q] e]. auto.
    + inversion Hs; auto.
    + right. destruct (is_owner (mx s) f) eqn:Eo; inversion Hs; subst s'; clear Hs.
      * unfold release in *. destruct (notify_one (kn s) (mwaiters (mx s))) as [k q] eqn:En.
        pose proof (notify_one_now _ _ _ _ En) as Hn.
        exists f, Unlock, ROk, []. simpl. updt. rewrite Hn, D. splits; auto; try congruence.
        destruct (release_facts s k q I En) as (_ & _ & F & _). rewrite F; auto. now rewrite Ep.
      * exists f, Unlock, RErr, []. simpl. updt. rewrite D. splits; auto. congruence.
    + destruct (splk s); inversion Hs; auto.
    + destruct (is_owner (mx s) f) eqn:Eo; inversion Hs; subst s'; clear Hs.
      * left. unfold release. destruct (notify_one (kn s) (mwaiters (mx s))) as [k q]. reflexivity.
      * right. destruct D as (D1 & D2 & D3).
        exists f, (wait_op tp), RErr, []. simpl. updt. splits; auto; try congruence. destruct tp; simpl; auto.
    + destruct tp as [tp|]; [destruct (suspend_and_wait_until _ _ _ _) as [[k q] e]|destruct (suspend_and_wait _ _ _) as [[k q] e]];
        inversion Hs; auto.
    + inversion Hs; auto.
    + destruct (wait_until_result (kn s) tp); inversion Hs; auto.
    + destruct (splk s); inversion Hs; auto.
    + destruct (splk s); inversion Hs; subst s'; clear Hs. right. unfold notify_step in *.
      destruct (if all then notify_all (kn s) (cvq s) else notify_one (kn s) (cvq s)) as [k q] eqn:En.
      destruct (notify_facts s all k q I En) as (K & Hn & F1 & F2 & F3 & _).
      exists f, (if all then NotifyAll else NotifyOne), ROk, (flips (kn s) k (map fst (cvq s))). simpl. updt. rewrite Hn.
      splits; auto.
      * rewrite F2; auto. intros X. destruct (F1 _ X) as (_ & X' & _). rewrite Ep in X'. discriminate.
      * destruct all; reflexivity.
      * destruct all; auto.
  - destruct (pcs s f); try discriminate. destruct (running (fib (kn s) f)); inversion Hs; auto.
  - destruct (pcs s f); try discriminate. destruct (running (fib (kn s) f)); inversion Hs; auto.
Qed.

Lemma last_res_wevs f fs g : forall h, last_res (rev (map (EWake f) fs) ++ h) g = last_res h g.
Proof. induction fs as [|x fs IH]; intros h; auto. rewrite wevs_cons. now rewrite IH. Qed.

Section Gen.
Context {D P O R X : Type}.
Variable c : client D P O R X.

Lemma call_shape s f o v : CondVar.step s (LCall f o) = Some v ->
  pcs s f = Idle /\ running (fib (kn s) f) = true /\
  v = mkState (kn s) (mx s) (splk s) (cvq s) (upd (pcs s) f (start_pc o)) (ECall f o :: log s).
Proof.
  unfold step. destruct (pcs s f); try discriminate. destruct (running (fib (kn s) f)); [|discriminate].
  intros H. inversion H. auto.
Qed.

Lemma do_act_reach (s : cstate D P O R X) f x ev s' : reachable CondVar.step CondVar.init (cv s) -> do_act s f x ev = Some s' ->
  reachable CondVar.step CondVar.init (cv s').
Proof.
  intros Hr. unfold do_act. destruct x as [[d xs] [o p|r]].
  - destruct (CondVar.step (cv s) (LCall f o)) as [v|] eqn:E; [|discriminate]. intros H. inversion H; subst.
    eapply reachable_step; eauto.
  - intros H. inversion H; subst. exact Hr.
Qed.

(** Every execution of a client contains an execution of CondVar.v. *)
Lemma proj_reachable (s : cstate D P O R X) : reachable (cstep c) (cinit c) s -> reachable CondVar.step CondVar.init (cv s).
Proof.
  apply (reachable_inv (cstep c) (fun s => reachable CondVar.step CondVar.init (cv s))); [apply reachable_refl|]. clear s. intros s l s' Hr. unfold cstep. destruct l as [f o|f|l].
  - destruct (cpc s f); [discriminate|]. destruct (can_go s f); [|discriminate].
    destruct (begin c _ _ _); [|discriminate]. apply do_act_reach; auto.
  - destruct (cpc s f); [|discriminate]. destruct (can_go s f); [|discriminate]. apply do_act_reach; auto.
  - destruct (allowed s l); [|discriminate]. destruct (CondVar.step (cv s) l) as [v|] eqn:E; [|discriminate].
    intros H. inversion H; subst. eapply reachable_step; eauto.
Qed.

Lemma can_go_spec (s : cstate D P O R X) f : can_go s f = true <-> running (fib (kn (cv s)) f) = true /\ pcs (cv s) f = Idle.
Proof.
  unfold can_go. rewrite andb_true_iff. destruct (pcs (cv s) f); split; intros [? ?]; split; auto; discriminate.
Qed.

(** Clients that lock, unlock and wait in the proper order. *)
Variable opP : P -> op.      (* the call outstanding at a program point *)
Variable hold : P -> bool.   (* the mutex is owned when that call is made *)
Definition hold_after (p : P) : bool :=
  match opP p with Lock | Wait | WaitUntil _ => true | Unlock => false | NotifyOne | NotifyAll => hold p end.

Record wellbehaved : Prop := {
  wb_begin : forall d o d' xs o' p, begin c false d o = Some (d', xs, ACall o' p) -> o' = opP p /\ hold p = false;
  wb_cont : forall d p r d' xs o' p', r <> RErr -> cont c d p r = (d', xs, ACall o' p') -> o' = opP p' /\ hold p' = hold_after p;
  wb_ret : forall d p r d' xs r', r <> RErr -> cont c d p r = (d', xs, ARet r') -> hold_after p = false;
  wb_hold : forall p, match opP p with Lock => hold p = false | Unlock | Wait | WaitUntil _ => hold p = true | _ => True end
}.

(** Program point [p] outstanding (called) or completed, as seen in the log of CondVar.v. *)
Definition outstanding (h : list event) (f : fid) (p : P) : Prop :=
  pending h f = Some (opP p) /\ called_inside h f = hold p /\ inside h f = hold p && negb (leaves (opP p)).
Definition completed (h : list event) (f : fid) (p : P) : Prop :=
  pending h f = None /\ inside h f = hold_after p /\ last_res h f <> RErr /\
  (last_res h f = RTimeout -> exists tp, opP p = WaitUntil tp).
Definition fstat (h : list event) (f : fid) (x : option P) : Prop :=
  match x with
  | None => pending h f = None /\ inside h f = false
  | Some p => outstanding h f p \/ completed h f p
  end.

Lemma fstat_call h g o f x : f <> g -> fstat h f x -> fstat (ECall g o :: h) f x.
Proof.
  intros Hne. unfold fstat, outstanding, completed. simpl. rewrite (proj2 (Nat.eqb_neq g f)) by auto. simpl. auto.
Qed.
Lemma fstat_ret h g o r a fs f x : f <> g -> fstat h f x -> fstat (ERet g o r a :: rev (map (EWake g) fs) ++ h) f x.
Proof.
  intros Hne. unfold fstat, outstanding, completed. simpl. rewrite (proj2 (Nat.eqb_neq g f)) by auto. simpl.
  now rewrite wevs_pending, wevs_inside, wevs_called, last_res_wevs.
Qed.

Hypothesis WB : wellbehaved.

Lemma pend_idle s f : CInv s -> pcs s f = Idle -> pending (log s) f = None.
Proof. intros I E. destruct (c_l _ I f) as (_ & B & _). now rewrite E in B. Qed.

Lemma idle_pend s f : CInv s -> pending (log s) f = None -> pcs s f = Idle.
Proof.
  intros I E. destruct (c_l _ I f) as (_ & B & _). rewrite E in B. destruct (pcs s f); simpl in B; congruence.
Qed.

Lemma fstat_do (s : cstate D P O R X) f p : CInv (cv s) -> (forall g, fstat (log (cv s)) g (cpc s g)) ->
  forall d xs a ev s', do_act s f (d, xs, a) ev = Some s' -> pcs (cv s) f = Idle ->
  (match p with None => inside (log (cv s)) f = false | Some p => completed (log (cv s)) f p end) ->
  (match a with
   | ACall o' p' => o' = opP p' /\ hold p' = match p with None => false | Some p => hold_after p end
   | ARet _ => match p with None => True | Some p => hold_after p = false end
   end) ->
  forall g, fstat (log (cv s')) g (cpc s' g).
Proof.
  intros I F d xs a ev s' Hd Hi Hp Ha g. unfold do_act in Hd. destruct a as [o' p'|r].
  - destruct (CondVar.step (cv s) (LCall f o')) as [v|] eqn:E; [|discriminate]. inversion Hd; subst s'; clear Hd. simpl.
    apply call_shape in E. destruct E as (_ & _ & ->). simpl. destruct (Nat.eq_dec g f) as [->|Hne]; updt.
    + left. destruct Ha as [-> Hh]. unfold outstanding. simpl. rewrite Nat.eqb_refl. simpl.
      assert (inside (log (cv s)) f = hold p') as <-.
      { destruct p as [p|]; [destruct Hp as (_ & Hp & _)|]; congruence. }
      splits; auto. destruct (leaves (opP p')); [now rewrite andb_false_r|now rewrite andb_true_r].
    + apply fstat_call; auto.
  - inversion Hd; subst s'; clear Hd. simpl. destruct (Nat.eq_dec g f) as [->|Hne]; updt; auto. simpl. split.
    + apply pend_idle; auto.
    + destruct p as [p|]; [destruct Hp as (_ & Hp & _)|]; congruence.
Qed.

Theorem fstat_reachable (s : cstate D P O R X) : reachable (cstep c) (cinit c) s -> forall f, fstat (log (cv s)) f (cpc s f).
Proof.
  revert s. apply (reachable_inv2 (cstep c) (fun s : cstate D P O R X => forall f, fstat (log (cv s)) f (cpc s f))); [intros f; simpl; auto|].
  intros s l s' R0 F Hs. pose proof (cinv_reachable _ (proj_reachable _ R0)) as I.
  unfold cstep in Hs. destruct l as [f o|f|l].
  - destruct (cpc s f) eqn:Ec; [discriminate|]. destruct (can_go s f) eqn:Eg; [|discriminate]. apply can_go_spec in Eg. destruct Eg as [Er Ei].
    pose proof (F f) as Ff. rewrite Ec in Ff. simpl in Ff. destruct Ff as [_ Ff].
    assert (is_owner (mx (cv s)) f = false) as E.
    { destruct (c_l _ I f) as (A & _). rewrite Ff, Ei in A. simpl in A. now rewrite andb_true_r in A. }
    rewrite E in Hs. destruct (begin c false (dat s) o) as [[[d xs] a]|] eqn:Eb; [|discriminate].
    eapply (fstat_do s f None); eauto. destruct a as [o' p'|r]; auto. eapply wb_begin; eauto.
  - destruct (cpc s f) as [p|] eqn:Ec; [|discriminate]. destruct (can_go s f) eqn:Eg; [|discriminate]. apply can_go_spec in Eg. destruct Eg as [Er Ei].
    pose proof (F f) as Ff. rewrite Ec in Ff. simpl in Ff. destruct Ff as [(Ff & _)|Ff].
    { rewrite (pend_idle _ _ I Ei) in Ff. discriminate. }
    destruct (cont c (dat s) p (last_res (log (cv s)) f)) as [[d xs] a] eqn:Eb.
    pose proof Ff as (_ & _ & Fr & _).
    eapply (fstat_do s f (Some p)); eauto. destruct a as [o' p'|r].
    + eapply wb_cont; eauto.
    + eapply wb_ret; eauto.
  - destruct (allowed s l) eqn:Ea; [|discriminate]. destruct (CondVar.step (cv s) l) as [v|] eqn:Ev; [|discriminate].
    inversion Hs; subst s'; clear Hs. simpl. intros g.
    destruct (cv_step_log _ _ _ I Ev) as [->|(f & o & r & fs & -> & El & Hp & Er & Er' & _ & Hr & Hfs)].
    { intros f o ->. discriminate. }
    { apply F. }
    rewrite El. destruct (Nat.eq_dec g f) as [->|Hne]; [|apply fstat_ret; auto].
    pose proof (F f) as Ff. destruct (cpc s f) as [p|]; simpl in Ff; [|destruct Ff; congruence].
    destruct Ff as [(F1 & F2 & F3)|(F1 & _)]; [|congruence]. rewrite Hp in F1. inversion F1; subst o.
    right. unfold completed. simpl. rewrite Nat.eqb_refl. simpl. rewrite wevs_inside. unfold hold_after.
    pose proof (wb_hold WB p) as Hh.
    destruct (opP p) as [| | |tp| |] eqn:Eo; simpl in *; rewrite ?Hh in *; simpl in *;
      rewrite ?F2, ?F3 in Hr; simpl in Hr; subst; splits; auto; try congruence; try discriminate;
      try (rewrite F3; apply andb_true_r); try (destruct r; intuition (try congruence; try discriminate); eauto).
Qed.

(** A fiber that is not inside lock() or wait() can run. *)
Lemma nonblocking s f : CInv s ->
  match pending (log s) f with None | Some Unlock | Some NotifyOne | Some NotifyAll => True | _ => False end -> xrunnable (fib (kn s) f).
Proof.
  intros I Hp. destruct (c_l _ I f) as (_ & B & _ & E). pose proof (ki_f _ _ _ (c_k _ I) f) as F. unfold fok in F. cbv beta in F.
  destruct (pcs s f) as [|o r|o r e| |tp|tp|tp|e|tp e|tp e|all] eqn:Ep; simpl in *; rewrite B in Hp; try contradiction;
    try apply F; try (destruct tp; contradiction).
  simpl in E. unfold lock_res in E. destruct o; contradiction.
Qed.

(** The owner of the mutex is a fiber in the middle of a client call, and it can run. *)
Lemma owner_runs (s : cstate D P O R X) g : reachable (cstep c) (cinit c) s -> owner (mx (cv s)) = Some g ->
  cpc s g <> None /\ xrunnable (fib (kn (cv s)) g).
Proof.
  intros R0 Ho. pose proof (cinv_reachable _ (proj_reachable _ R0)) as I. pose proof (fstat_reachable _ R0 g) as F.
  destruct (c_l _ I g) as (A & B & C & E). apply is_owner_spec in Ho. rewrite Ho in A, C, E. split.
  - intros Hc. rewrite Hc in F. destruct F as [F1 F2]. rewrite (idle_pend _ _ I F1), F2 in A. discriminate.
  - pose proof (ki_f _ _ _ (c_k _ I) g) as K. unfold fok in K. cbv beta in K.
    destruct (pcs (cv s) g) as [|o r|o r e| |tp|tp|tp|e|tp e|tp e|all] eqn:Ep; simpl in *; try apply K;
      try (specialize (C eq_refl); discriminate).
    destruct (is_wait o) eqn:Ew; [specialize (C eq_refl); discriminate|]. destruct o; try discriminate; try contradiction.
    destruct (cpc s g) as [p|]; simpl in F; [|destruct F; congruence].
    destruct F as [(F1 & F2 & F3)|(F1 & _)]; [|congruence]. rewrite B in F1. inversion F1 as [F1']. rewrite <- F1' in F3.
    pose proof (wb_hold WB p) as Hh. rewrite <- F1' in Hh. rewrite Hh in F3. simpl in F3. congruence.
Qed.

(** If a fiber is blocked in a client call on the mutex, another fiber in a client call can run. *)
Lemma blocked_relock (s : cstate D P O R X) f : reachable (cstep c) (cinit c) s -> xblocked (fib (kn (cv s)) f) ->
  locking (pcs (cv s) f) = true -> exists g, cpc s g <> None /\ xrunnable (fib (kn (cv s)) g).
Proof.
  intros R0 Hb Hl. pose proof (cinv_reachable _ (proj_reachable _ R0)) as I.
  destruct (owner (mx (cv s))) as [g|] eqn:Eo; [exists g; apply owner_runs; auto|].
  destruct (c_live _ I Eo) as (g & G1 & G2); [eauto|]. exists g. split; auto.
  destruct (c_l _ I g) as (_ & B & _). pose proof (fstat_reachable _ R0 g) as F. intros Hc. rewrite Hc in F. destruct F as [F _].
  rewrite F in B. destruct (pcs (cv s) g); simpl in *; discriminate.
Qed.
End Gen.

(** While [f] is inside wait() having owned the mutex, another fiber is in its critical section only if it
    acquired the mutex after that call. *)
Definition acq_later (h : list event) : Prop := forall f g o, g <> f -> called_inside h f = true -> pending h f = Some o ->
  is_wait o = true -> inside h g = true -> since_acq h f = true.
Lemma acq_later_ret h x o r a fs : acq_later h -> acq_later (ERet x o r a :: rev (map (EWake x) fs) ++ h).
Proof.
  intros A f g o' Hne. simpl. rewrite wevs_called, wevs_pending, wevs_inside, wevs_since. intros H1 H2 H3 H4.
  destruct (Nat.eqb_spec x f) as [->|Hx]; simpl in *; [discriminate|].
  destruct (acquires o r) eqn:E; auto. rewrite andb_false_r in H4. exact (A f g o' Hne H1 H2 H3 H4).
Qed.
Lemma acq_later_reachable s : reachable CondVar.step CondVar.init s -> acq_later (log s).
Proof.
  revert s. apply (reachable_inv2 CondVar.step (fun s => acq_later (log s))).
  - intros f g o _ H. discriminate.
  - intros s l s' R0 A Hs. pose proof (cinv_reachable _ R0) as I.
    assert (X : (forall f o, l <> LCall f o) -> acq_later (log s')).
    { intros Hl. destruct (cv_step_log _ _ _ I Hs Hl) as [->|(x & o & r & fs & _ & -> & Hp & _)]; auto. now apply acq_later_ret. }
    destruct l as [kl|f o|f|f|f]; try (apply X; intros; discriminate).
    apply call_shape in Hs. destruct Hs as (_ & _ & ->). simpl.
    intros f' g o' Hne; simpl. destruct (Nat.eqb_spec f f') as [->|Hx]; simpl.
    + intros H1 _ _ H4. rewrite (proj2 (Nat.eqb_neq f' g)) in H4 by auto. simpl in H4.
      exfalso. apply Hne. eapply C12_mutual_exclusion; eauto.
    + intros H1 H2 H3 H4. apply (A f' g o'); auto. destruct (Nat.eqb f g && leaves o); [discriminate|auto].
Qed.
