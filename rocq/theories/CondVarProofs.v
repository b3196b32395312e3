From Coq Require Import List Arith Bool Lia.
From Verif Require Import Base Kernel KernelFacts WakeFacts.
From Verif Require Mutex MutexProofs.
From Verif Require Import CondVar CondVarSpec.
Import ListNotations.

Definition wst (p : pc) : wstat :=
  match p with
  | LockWait _ _ e => WUntimed 0 e
  | CvWait e => WUntimed 1 e
  | CvTimed tp e => WTimed 1 tp e
  | CvRelock tp e => WRelock 1 tp e
  | _ => WNone
  end.

Definition qsof (m : mtx) (q : wq) : nat -> wq :=
  fun i => match i with 0 => mwaiters m | 1 => q | _ => [] end.

Definition op_of (p : pc) : option op :=
  match p with
  | Idle => None
  | LockTop o _ | LockWait o _ _ => Some o
  | UnlockTop => Some Unlock
  | WaitA tp | WaitB tp | WaitC tp => Some (wait_op tp)
  | CvWait _ => Some Wait
  | CvTimed tp _ | CvRelock tp _ => Some (WaitUntil tp)
  | NotifyTop all => Some (if all then NotifyAll else NotifyOne)
  end.

Definition leaving (p : pc) : bool :=
  match p with UnlockTop | WaitA _ | WaitB _ => true | _ => false end.
Definition notowner (p : pc) : bool :=
  match p with
  | WaitC _ | CvWait _ | CvTimed _ _ | CvRelock _ _ => true
  | LockTop o _ | LockWait o _ _ => is_wait o
  | _ => false
  end.
Definition holding (p : pc) : bool := match p with WaitB _ | WaitC _ => true | _ => false end.
Definition locking (p : pc) : bool := match p with LockTop _ _ | LockWait _ _ _ => true | _ => false end.
Definition kdep (p : pc) : bool := match p with CvWait _ | CvTimed _ _ => true | _ => false end.

Definition lock_res (k : kern) (h : list event) (f : fid) (o : op) (r : res) : Prop :=
  match o with
  | Lock => r = ROk
  | Wait => r = ROk /\ woken h f = true
  | WaitUntil tp => (r = ROk /\ woken h f = true) \/ (r = RTimeout /\ tp <= now k)
  | _ => False
  end.

Definition lst (k : kern) (ow : bool) (h : list event) (f : fid) (p : pc) : Prop :=
  match p with
  | Idle => True
  | UnlockTop => called_inside h f = ow
  | LockTop o r | LockWait o r _ => lock_res k h f o r
  | WaitA _ | WaitB _ => woken h f = false /\ called_inside h f = ow /\ (ow = true -> since_acq h f = false)
  | WaitC _ => woken h f = false
  | CvWait _ => (xblocked (fib k f) /\ woken h f = false) \/ (xrunnable (fib k f) /\ woken h f = true)
  | CvTimed tp _ => (xblocked (fib k f) /\ woken h f = false) \/
                    (xrunnable (fib k f) /\ (woken h f = true \/ tp <= now k))
  | CvRelock tp _ => tp <= now k
  | NotifyTop _ => used h f = false
  end.

Definition LI (k : kern) (m : mtx) (h : list event) (f : fid) (p : pc) : Prop :=
  inside h f = is_owner m f && negb (leaving p) /\
  pending h f = op_of p /\
  (notowner p = true -> is_owner m f = false) /\
  lst k (is_owner m f) h f p.

Record CInv (s : state) : Prop := {
  c_k : KInv (kn s) (qsof (mx s) (cvq s)) (fun f => wst (pcs s f));
  c_l : forall f, LI (kn s) (mx s) (log s) f (pcs s f);
  c_splk : forall f, splk s = Some f <-> holding (pcs s f) = true;
  c_run : forall f, holding (pcs s f) = true -> running (fib (kn s) f) = true;
  c_log : cv_ok (log s);
  c_live : owner (mx s) = None -> (exists f, xblocked (fib (kn s) f) /\ locking (pcs s f) = true) ->
           exists g, xrunnable (fib (kn s) g) /\ locking (pcs s g) = true
}.

Lemma is_owner_spec m f : is_owner m f = true <-> owner m = Some f.
Proof. apply MutexProofs.is_owner_spec. Qed.
Lemma is_owner_false m f : is_owner m f = false <-> owner m <> Some f.
Proof. apply MutexProofs.is_owner_false. Qed.
Lemma is_free_spec m : is_free m = true <-> owner m = None.
Proof. apply MutexProofs.is_free_spec. Qed.
Lemma is_free_false m : is_free m = false <-> owner m <> None.
Proof. apply MutexProofs.is_free_false. Qed.

Definition agree (h h' : list event) (g : fid) : Prop :=
  inside h' g = inside h g /\ pending h' g = pending h g /\ called_inside h' g = called_inside h g /\
  used h' g = used h g /\ woken h' g = woken h g.

Lemma agree_refl h g : agree h h g.
Proof. unfold agree. auto. Qed.

Lemma agree_trans h1 h2 h3 g : agree h1 h2 g -> agree h2 h3 g -> agree h1 h3 g.
Proof. unfold agree. intros (A & B & C & D & E) (A' & B' & C' & D' & E'). splits; congruence. Qed.

Lemma agree_call h f o g : g <> f -> agree h (ECall f o :: h) g /\ since_acq (ECall f o :: h) g = since_acq h g.
Proof.
  intros H. unfold agree. simpl. rewrite (proj2 (Nat.eqb_neq f g)) by auto. simpl. splits; auto.
Qed.
Lemma agree_ret h f o r a g : g <> f -> agree h (ERet f o r a :: h) g.
Proof.
  intros H. unfold agree. simpl. rewrite (proj2 (Nat.eqb_neq f g)) by auto. simpl. splits; auto.
Qed.
Lemma since_ret h f o r a g : acquires o r = false -> since_acq (ERet f o r a :: h) g = since_acq h g.
Proof. intros H. simpl. now rewrite H, andb_false_r. Qed.

Notation wevs f fs := (rev (map (EWake f) fs)).
Lemma wevs_cons f x fs h : wevs f (x :: fs) ++ h = wevs f fs ++ EWake f x :: h.
Proof. simpl. now rewrite <- app_assoc. Qed.

Lemma wevs_inside f fs g : forall h, inside (wevs f fs ++ h) g = inside h g.
Proof. induction fs as [|x fs IH]; intros h; auto. now rewrite wevs_cons, IH. Qed.
Lemma wevs_pending f fs g : forall h, pending (wevs f fs ++ h) g = pending h g.
Proof. induction fs as [|x fs IH]; intros h; auto. now rewrite wevs_cons, IH. Qed.
Lemma wevs_called f fs g : forall h, called_inside (wevs f fs ++ h) g = called_inside h g.
Proof. induction fs as [|x fs IH]; intros h; auto. now rewrite wevs_cons, IH. Qed.
Lemma wevs_since f fs g : forall h, since_acq (wevs f fs ++ h) g = since_acq h g.
Proof. induction fs as [|x fs IH]; intros h; auto. now rewrite wevs_cons, IH. Qed.
Lemma wevs_after f fs x y : forall h, after_acq (wevs f fs ++ h) x y = after_acq h x y.
Proof. induction fs as [|z fs IH]; intros h; auto. now rewrite wevs_cons, IH. Qed.
Lemma wevs_used_other f fs g : g <> f -> forall h, used (wevs f fs ++ h) g = used h g.
Proof.
  intros H. induction fs as [|x fs IH]; intros h; auto. rewrite wevs_cons, IH. simpl.
  now rewrite (proj2 (Nat.eqb_neq f g)) by auto.
Qed.
Lemma wevs_used f fs : forall h, fs <> [] -> used (wevs f fs ++ h) f = true.
Proof.
  induction fs as [|x fs IH]; intros h H; [congruence|]. rewrite wevs_cons. destruct fs.
  - simpl. now rewrite Nat.eqb_refl.
  - apply IH. discriminate.
Qed.
Lemma wevs_woken_other f fs g : ~ In g fs -> forall h, woken (wevs f fs ++ h) g = woken h g.
Proof.
  induction fs as [|x fs IH]; intros Hn h; auto. rewrite wevs_cons, IH by (intros X; apply Hn; now right). simpl.
  destruct (Nat.eqb_spec x g) as [->|]; auto. exfalso. apply Hn. now left.
Qed.
Lemma wevs_woken f fs g : forall h, In g fs -> woken (wevs f fs ++ h) g = true.
Proof.
  induction fs as [|x fs IH]; intros h Hi; [destruct Hi|]. rewrite wevs_cons.
  destruct (in_dec Nat.eq_dec g fs) as [Hg|Hg]; [auto|].
  rewrite wevs_woken_other by auto. destruct Hi as [->|Hi]; [|contradiction]. simpl. now rewrite Nat.eqb_refl.
Qed.
Lemma agree_wevs h f fs g : g <> f -> ~ In g fs -> agree h (wevs f fs ++ h) g.
Proof.
  intros H1 H2. unfold agree.
  rewrite wevs_inside, wevs_pending, wevs_called, wevs_used_other, wevs_woken_other by auto. auto 6.
Qed.

Lemma after_since h f g : f <> g -> after_acq h f g = true -> since_acq h f = true.
Proof.
  intros Hne. induction h as [|[x o|x y|x o r a] h IH]; simpl; auto.
  - destruct (Nat.eqb_spec x g) as [->|].
    + rewrite (proj2 (Nat.eqb_neq g f)) by auto. auto.
    + destruct (Nat.eqb_spec x f) as [->|]; [discriminate|auto].
  - intros H. rewrite (IH H). now destruct (negb (Nat.eqb x f) && acquires o r).
Qed.

(** Frame: fiber [g] is not affected. *)
Lemma LI_frame k m h k' m' h' g p :
  LI k m h g p -> is_owner m' g = is_owner m g -> now k <= now k' ->
  (kdep p = true -> fib k' g = fib k g) -> agree h h' g ->
  (since_acq h' g = since_acq h g \/ is_owner m' g = false) ->
  LI k' m' h' g p.
Proof.
  intros (A & B & C & D) Ho Hn Hf (E1 & E2 & E3 & E4 & E5) Hs. unfold LI. rewrite E1, E2, Ho. splits; auto.
  unfold lst, lock_res in *. destruct p as [|o r|o r e| |tp|tp|tp|e|tp e|tp e|all]; rewrite ?E3, ?E4, ?E5; auto.
  - destruct o; auto. destruct D as [D|[D1 D2]]; auto. right. split; auto. lia.
  - destruct o; auto. destruct D as [D|[D1 D2]]; auto. right. split; auto. lia.
  - destruct D as (D1 & D2 & D3). splits; auto. intros Ht. destruct Hs as [Hs|Hs]; [rewrite Hs; auto|congruence].
  - destruct D as (D1 & D2 & D3). splits; auto. intros Ht. destruct Hs as [Hs|Hs]; [rewrite Hs; auto|congruence].
  - rewrite Hf by auto. auto.
  - rewrite Hf by auto. destruct D as [D|[D1 [D2|D2]]]; auto. right. split; auto. right. lia.
  - lia.
Qed.

Lemma qsof_m m o c q w i : qsof (Mutex.mkMtx o c w) q i = upd (qsof m q) 0 w i.
Proof. destruct i as [|[|i]]; reflexivity. Qed.
Lemma qsof_q m q w i : qsof m w i = upd (qsof m q) 1 w i.
Proof. destruct i as [|[|i]]; reflexivity. Qed.
Lemma qsof_own m o c q i : qsof (Mutex.mkMtx o c (mwaiters m)) q i = qsof m q i.
Proof. destruct i as [|[|i]]; reflexivity. Qed.

Lemma kinv_pc k qs pcs0 f p :
  KInv k qs (fun g => wst (pcs0 g)) -> wst p = wst (pcs0 f) -> KInv k qs (fun g => wst (upd pcs0 f p g)).
Proof. intros H E. eapply KInv_ext; [exact H| |]; auto. intros g. upds; auto. Qed.
Lemma kinv_pcw k qs pcs0 f p w :
  KInv k qs (upd (fun g => wst (pcs0 g)) f w) -> wst p = w -> KInv k qs (fun g => wst (upd pcs0 f p g)).
Proof. intros H E. eapply KInv_ext; [exact H| |]; auto. intros g. cbv beta. upds; auto. Qed.

Lemma cinv_init : CInv init.
Proof.
  constructor; simpl; auto.
  - eapply KInv_ext; [apply kinv_init| |]; auto. intros [|[|i]]; reflexivity.
  - intros f. unfold LI. simpl. splits; auto; try discriminate.
  - intros f. split; discriminate.
  - intros _ (f & _ & H). discriminate.
Qed.

(** Only the program counter (and possibly the log) of the running fiber changes. *)
Lemma cinv_local s f p h' :
  CInv s -> running (fib (kn s) f) = true -> wst p = wst (pcs s f) -> holding p = holding (pcs s f) ->
  LI (kn s) (mx s) h' f p -> cv_ok h' ->
  (forall g, g <> f -> agree (log s) h' g /\ since_acq h' g = since_acq (log s) g) ->
  (locking (pcs s f) = true -> locking p = true \/ owner (mx s) <> None) ->
  CInv (mkState (kn s) (mx s) (splk s) (cvq s) (upd (pcs s) f p) h').
Proof.
  intros [] Hr Hw Hh Hl Hok Hag Hlk. constructor; simpl; auto.
  - apply kinv_pc; auto.
  - intros g. destruct (Nat.eq_dec g f) as [->|Hne]; updt; auto.
    destruct (Hag g Hne). eapply LI_frame; eauto.
  - intros g. destruct (Nat.eq_dec g f) as [->|Hne]; updt; auto. rewrite Hh. auto.
  - intros g. destruct (Nat.eq_dec g f) as [->|Hne]; updt; auto.
  - intros Ho (b & Hb1 & Hb2).
    destruct (c_live0 Ho) as (g & Hg1 & Hg2).
    { exists b. split; auto. destruct (Nat.eq_dec b f) as [->|Hne]; updt; auto.
      destruct Hb1. congruence. }
    exists g. split; auto. destruct (Nat.eq_dec g f) as [->|Hne]; updt; auto.
    destruct (Hlk Hg2); auto.
Qed.

Lemma release_eq s : exists k q,
  notify_one (kn s) (mwaiters (mx s)) = (k, q) /\
  release s = mkState k (Mutex.mkMtx None (Mutex.count (mx s)) q) (splk s) (cvq s) (pcs s) (log s).
Proof.
  unfold release. destruct (notify_one (kn s) (mwaiters (mx s))) as [k q]. exists k, q. auto.
Qed.

Lemma release_facts s k q : CInv s -> notify_one (kn s) (mwaiters (mx s)) = (k, q) ->
  KInv k (qsof (Mutex.mkMtx None (Mutex.count (mx s)) q) (cvq s)) (fun f => wst (pcs s f)) /\
  now k = now (kn s) /\
  (forall g, locking (pcs s g) = false -> fib k g = fib (kn s) g) /\
  (forall g, running (fib (kn s) g) = true -> fib k g = fib (kn s) g) /\
  ((exists f, xblocked (fib k f) /\ locking (pcs s f) = true) ->
   exists g, xrunnable (fib k g) /\ locking (pcs s g) = true /\ running (fib k g) = false).
Proof.
  intros [] En.
  destruct (notify_one_inv 0 _ (kn s) (qsof (mx s) (cvq s)) _ k q c_k0 eq_refl En) as (K & N1 & _ & _ & N4).
  assert (Hlk : forall g, In (g, epoch (fib (kn s) g)) (mwaiters (mx s)) -> locking (pcs s g) = true).
  { intros g Hg. pose proof (proj2 (ki_q _ _ _ c_k0 0) _ _ Hg) as W. cbv beta in W.
    destruct W as [W|[[tp W]|[tp W]]]; destruct (pcs s g); simpl in W; inversion W; auto. }
  splits; auto.
  - eapply KInv_ext; [exact K| |]; auto. intros i. now rewrite (qsof_m (mx s)).
  - intros g Hg. destruct N4 as [(x & X1 & X2 & X3 & X4 & _)|(-> & _ & _)]; auto.
    apply X4. intros ->. rewrite (Hlk x X1) in Hg. discriminate.
  - intros g Hg. destruct N4 as [(x & X1 & X2 & X3 & X4 & _)|(-> & _ & _)]; auto.
    apply X4. intros ->. destruct X2. congruence.
  - intros (b & Hb1 & Hb2). destruct N4 as [(x & X1 & X2 & X3 & X4 & _)|(-> & _ & N)].
    + exists x. rewrite X3. simpl. splits; auto. now right.
    + exfalso. destruct (blocked_live _ _ _ _ c_k0 Hb1) as (i & Hi & W). cbv beta in W.
      destruct (pcs s b); simpl in Hb2, W; try discriminate;
        (destruct W as [W|[tp W]]; inversion W; subst; eapply N; eauto).
Qed.

Lemma is_owner_none c q f : is_owner (Mutex.mkMtx None c q) f = false.
Proof. reflexivity. Qed.

Lemma cinv_unlock s f :
  CInv s -> running (fib (kn s) f) = true -> pcs s f = UnlockTop -> is_owner (mx s) f = true ->
  CInv (ret (release s) f Unlock ROk).
Proof.
  intros I Hr Hp Ho. destruct (release_eq s) as (k & q & En & ->).
  destruct (release_facts s k q I En) as (K & N1 & N2 & N3 & N4).
  pose proof I as I0. destruct I0. apply is_owner_spec in Ho.
  unfold ret. simpl. constructor; simpl.
  - apply kinv_pc; auto. now rewrite Hp.
  - intros g. destruct (Nat.eq_dec g f) as [->|Hne]; updt.
    + destruct (c_l0 f) as (A & B & C & D). rewrite Hp in *. simpl in *.
      unfold LI. simpl. rewrite Nat.eqb_refl. simpl. rewrite A, andb_false_r. splits; auto.
    + eapply LI_frame; [apply c_l0| |rewrite N1; auto| |apply agree_ret; auto|left; apply since_ret; auto].
      * rewrite is_owner_none. symmetry. apply is_owner_false. congruence.
      * intros Hk. apply N2. destruct (pcs s g); simpl in *; congruence.
  - intros g. destruct (Nat.eq_dec g f) as [->|Hne]; updt; auto. rewrite (c_splk0 f), Hp. simpl. tauto.
  - intros g. destruct (Nat.eq_dec g f) as [->|Hne]; updt; [discriminate|]. intros Hh. rewrite N3; auto.
  - auto.
  - intros _ (b & Hb1 & Hb2). destruct N4 as (g & G1 & G2 & G3).
    { exists b. destruct (Nat.eq_dec b f) as [->|Hne]; updt; [discriminate|auto]. }
    exists g. split; auto. destruct (Nat.eq_dec g f) as [->|Hne]; updt; auto. rewrite Hp in G2. discriminate.
Qed.

Lemma cinv_waitb s f tp :
  CInv s -> running (fib (kn s) f) = true -> pcs s f = WaitB tp -> is_owner (mx s) f = true ->
  CInv (goto (release s) f (WaitC tp)).
Proof.
  intros I Hr Hp Ho. destruct (release_eq s) as (k & q & En & ->).
  destruct (release_facts s k q I En) as (K & N1 & N2 & N3 & N4).
  pose proof I as I0. destruct I0. apply is_owner_spec in Ho.
  unfold goto. simpl. constructor; simpl.
  - apply kinv_pc; auto. now rewrite Hp.
  - intros g. destruct (Nat.eq_dec g f) as [->|Hne]; updt.
    + destruct (c_l0 f) as (A & B & C & D). rewrite Hp in *. simpl in *.
      unfold LI. simpl. rewrite A, andb_false_r. splits; auto. tauto.
    + eapply LI_frame; [apply c_l0| |rewrite N1; auto| |apply agree_refl|left; auto].
      * rewrite is_owner_none. symmetry. apply is_owner_false. congruence.
      * intros Hk. apply N2. destruct (pcs s g); simpl in *; congruence.
  - intros g. destruct (Nat.eq_dec g f) as [->|Hne]; updt; auto. rewrite (c_splk0 f), Hp. simpl. tauto.
  - intros g. destruct (Nat.eq_dec g f) as [->|Hne]; updt.
    + intros _. rewrite N3; auto.
    + intros Hh. rewrite N3; auto.
  - auto.
  - intros _ (b & Hb1 & Hb2). destruct N4 as (g & G1 & G2 & G3).
    { exists b. destruct (Nat.eq_dec b f) as [->|Hne]; updt; [discriminate|auto]. }
    exists g. split; auto. destruct (Nat.eq_dec g f) as [->|Hne]; updt; auto. rewrite Hp in G2. discriminate.
Qed.

Lemma cinv_lock s f o r :
  CInv s -> running (fib (kn s) f) = true -> pcs s f = LockTop o r -> CInv (lock_step s f o r).
Proof.
  intros I Hr Hp. pose proof I as I0. destruct I0.
  destruct (c_l0 f) as (A & B & C & D). rewrite Hp in A, B, C, D. simpl in A, B, C, D.
  unfold lock_step. destruct (is_owner (mx s) f) eqn:Eo.
  - assert (o = Lock) as ->.
    { destruct o; simpl in *; auto; try contradiction; specialize (C eq_refl); discriminate. }
    unfold ret. apply cinv_local; auto; rewrite ?Hp; simpl; auto.
    + unfold LI. simpl. rewrite Nat.eqb_refl, Eo. simpl. splits; auto; try discriminate.
    + intros g Hg. split; [apply agree_ret; auto|now rewrite andb_false_r].
    + intros _. right. apply is_owner_spec in Eo. congruence.
  - destruct (is_free (mx s)) eqn:Ef.
    + apply is_free_spec in Ef.
      assert (Hacq : acquires o r = true).
      { destruct o; simpl in *; try contradiction; subst; auto.
        - destruct D as [-> _]. auto.
        - destruct D as [[-> _]|[-> _]]; auto. }
      unfold ret. simpl. constructor; simpl.
      * apply kinv_pc; [|now rewrite Hp]. eapply KInv_ext; [exact c_k0|intros i; apply (qsof_own (mx s))|auto].
      * intros g. destruct (Nat.eq_dec g f) as [->|Hne]; updt.
        -- unfold LI. simpl. rewrite Nat.eqb_refl, Hacq. simpl. splits; auto; try discriminate.
           unfold is_owner, Mutex.is_owner, Mutex.take. simpl. now rewrite Nat.eqb_refl.
        -- assert (is_owner (Mutex.take Mutex.KMutex (mx s) f) g = false) as Hog.
           { apply is_owner_false. unfold owner, Mutex.take. simpl. congruence. }
           eapply LI_frame; [apply c_l0| |auto|auto|apply agree_ret; auto|right; auto].
           rewrite Hog. symmetry. apply is_owner_false. congruence.
      * intros g. destruct (Nat.eq_dec g f) as [->|Hne]; updt; auto. rewrite (c_splk0 f), Hp. simpl. tauto.
      * intros g. destruct (Nat.eq_dec g f) as [->|Hne]; updt; [discriminate|auto].
      * split; auto. destruct o; simpl in *; try contradiction; auto. tauto.
      * discriminate.
    + destruct (suspend_and_wait (kn s) f (mwaiters (mx s))) as [[k q] e] eqn:Es.
      assert (K := kinv_block (kn s) (qsof (mx s) (cvq s)) _ f 0 k q e c_k0 ltac:(cbv beta; now rewrite Hp) Hr Es).
      destruct (suspend_and_wait_facts _ _ _ _ _ _ _ _ c_k0 Hr Es) as (Hfk & He & _ & Hb & Hq & Hn).
      unfold goto. simpl. constructor; simpl.
      * eapply kinv_pcw; [|reflexivity]. eapply KInv_ext; [exact K| |]; auto. intros i. apply qsof_m.
      * intros g. destruct (Nat.eq_dec g f) as [->|Hne]; updt.
        -- unfold LI. simpl. splits; auto.
           ++ rewrite A. unfold is_owner, Mutex.is_owner, owner in *. simpl in *. now rewrite Eo.
           ++ unfold lock_res in *. destruct o; auto. rewrite Hn. auto.
        -- eapply LI_frame; [apply c_l0|reflexivity|lia|rewrite (Hfk g Hne); auto|apply agree_refl|left; auto].
      * intros g. destruct (Nat.eq_dec g f) as [->|Hne]; updt; auto. rewrite (c_splk0 f), Hp. simpl. tauto.
      * intros g. destruct (Nat.eq_dec g f) as [->|Hne]; updt; [discriminate|]. rewrite (Hfk g Hne). auto.
      * auto.
      * apply is_free_false in Ef. intros. contradiction.
Qed.

Lemma cinv_waitc s f tp s' :
  CInv s -> running (fib (kn s) f) = true -> pcs s f = WaitC tp -> run_step s f = Some s' -> CInv s'.
Proof.
  intros I Hr Hp Hs. pose proof I as I0. destruct I0.
  destruct (c_l0 f) as (A & B & C & D). rewrite Hp in A, B, C, D. simpl in A, B, C, D.
  assert (Hsp : splk s = Some f) by (apply c_splk0; now rewrite Hp).
  assert (X : forall k q p, (forall g, g <> f -> fib k g = fib (kn s) g) -> xblocked (fib k f) -> now k = now (kn s) ->
     wst p <> WNone -> (exists e, p = CvWait e /\ tp = None \/ exists t, p = CvTimed t e /\ tp = Some t) ->
     KInv k (upd (qsof (mx s) (cvq s)) 1 q) (upd (fun g => wst (pcs s g)) f (wst p)) ->
     CInv (goto (set_splk (set_cvq (set_kn s k) q) None) f p)).
  { intros k q p Hfk Hb Hn Hw Hpe K. unfold goto. simpl. constructor; simpl.
    - eapply kinv_pcw; [|reflexivity]. eapply KInv_ext; [exact K| |]; auto. intros i. apply qsof_q.
    - intros g. destruct (Nat.eq_dec g f) as [->|Hne]; updt.
      + destruct Hpe as (e & [(-> & ->)|(t & -> & ->)]); unfold LI; simpl; splits; auto.
      + eapply LI_frame; [apply c_l0|reflexivity|lia|rewrite (Hfk g Hne); auto|apply agree_refl|left; auto].
    - intros g. destruct (Nat.eq_dec g f) as [->|Hne]; updt.
      + destruct Hpe as (e & [(-> & _)|(t & -> & _)]); simpl; split; discriminate.
      + split; [discriminate|]. intros Hg. apply c_splk0 in Hg. congruence.
    - intros g. destruct (Nat.eq_dec g f) as [->|Hne]; updt.
      + destruct Hpe as (e & [(-> & _)|(t & -> & _)]); simpl; discriminate.
      + rewrite (Hfk g Hne). auto.
    - auto.
    - intros Ho (b & Hb1 & Hb2).
      assert (Hbf : b <> f).
      { intros ->. rewrite upd_same in Hb2. destruct Hpe as (e & [(-> & _)|(t & -> & _)]); discriminate. }
      updt. rewrite (Hfk b Hbf) in Hb1.
      destruct (c_live0 Ho) as (g & Hg1 & Hg2); [eauto|].
      exists g. assert (g <> f) by (intros ->; rewrite Hp in Hg2; discriminate). updt.
      rewrite Hfk; auto. }
  unfold run_step in Hs. rewrite Hp in Hs. destruct tp as [tp|].
  - destruct (suspend_and_wait_until (kn s) f (cvq s) tp) as [[k q] e] eqn:Es. inversion Hs; subst s'; clear Hs.
    assert (K := kinv_block_until (kn s) (qsof (mx s) (cvq s)) _ f 1 tp k q e c_k0 ltac:(cbv beta; now rewrite Hp) Hr Es).
    destruct (suspend_and_wait_until_facts _ _ _ _ _ _ _ _ _ c_k0 Hr Es) as (Hfk & He & _ & Hb & Hq & Hn).
    apply X; auto; [discriminate|]. exists e. right. eauto.
  - destruct (suspend_and_wait (kn s) f (cvq s)) as [[k q] e] eqn:Es. inversion Hs; subst s'; clear Hs.
    assert (K := kinv_block (kn s) (qsof (mx s) (cvq s)) _ f 1 k q e c_k0 ltac:(cbv beta; now rewrite Hp) Hr Es).
    destruct (suspend_and_wait_facts _ _ _ _ _ _ _ _ c_k0 Hr Es) as (Hfk & He & _ & Hb & Hq & Hn).
    apply X; auto; [discriminate|]. exists e. left. auto.
Qed.

(** At most one wake-up: the list is empty or a singleton. *)
Lemma cv_ok_wevs1 f fs h : cv_ok h -> length fs <= 1 ->
  pending h f = Some NotifyOne -> used h f = false ->
  (forall g, In g fs -> (exists o, pending h g = Some o /\ is_wait o = true) /\ woken h g = false) ->
  cv_ok (wevs f fs ++ h).
Proof.
  intros Hok Hl Hp Hu Hg. destruct fs as [|x [|y fs]]; simpl in *; auto; [|lia].
  destruct (Hg x (or_introl eq_refl)) as [G1 G2]. splits; auto.
Qed.
Lemma cv_ok_wevs_all f fs : forall h, NoDup fs -> cv_ok h -> pending h f = Some NotifyAll ->
  (forall g, In g fs -> (exists o, pending h g = Some o /\ is_wait o = true) /\ woken h g = false) ->
  cv_ok (wevs f fs ++ h).
Proof.
  induction fs as [|x fs IH]; intros h Hn Hok Hf Hg; auto. rewrite wevs_cons. inversion Hn; subst.
  destruct (Hg x (or_introl eq_refl)) as [G1 G2].
  apply IH; auto.
  - simpl. splits; auto.
  - intros y Hy. simpl. destruct (Hg y (or_intror Hy)) as [Y1 Y2]. split; auto.
    destruct (Nat.eqb_spec x y) as [->|]; [contradiction|auto].
Qed.

Lemma notify_facts s (all : bool) k q :
  CInv s -> (if all then notify_all (kn s) (cvq s) else notify_one (kn s) (cvq s)) = (k, q) ->
  let fs := flips (kn s) k (map fst (cvq s)) in
  KInv k (qsof (mx s) q) (fun g => wst (pcs s g)) /\ now k = now (kn s) /\
  (forall g, In g fs -> xblocked (fib (kn s) g) /\ kdep (pcs s g) = true /\ running (fib k g) = false /\ queued (fib k g) = true) /\
  (forall g, ~ In g fs -> fib k g = fib (kn s) g) /\ NoDup fs /\
  (if all then (forall g, xblocked (fib (kn s) g) -> kdep (pcs s g) = true -> In g fs)
   else length fs <= 1 /\ (fs = [] -> forall g, xblocked (fib (kn s) g) -> kdep (pcs s g) = false)).
Proof.
  intros [] En.
  assert (Hin : forall g, In (g, epoch (fib (kn s) g)) (cvq s) -> xblocked (fib (kn s) g) -> kdep (pcs s g) = true).
  { intros g Hg Hb. destruct (live_blocked _ _ _ 1 _ _ c_k0 Hg eq_refl) as [_ W]. cbv beta in W.
    destruct W as [W|[tp W]]; destruct (pcs s g); simpl in W; inversion W; auto. }
  assert (Hbl : forall g, xblocked (fib (kn s) g) -> kdep (pcs s g) = true -> In (g, epoch (fib (kn s) g)) (cvq s)).
  { intros g Hb Hk. destruct (blocked_live _ _ _ _ c_k0 Hb) as (i & Hi & W). cbv beta in W.
    destruct (pcs s g); simpl in Hk; try discriminate; (destruct W as [W|[tp' W]]; inversion W; subst; auto). }
  destruct all.
  - destruct (notify_all_flips (kn s) (qsof (mx s) (cvq s)) _ 1 k q c_k0 En) as (K & -> & N1 & N2 & N3 & N4 & N5 & N6).
    simpl qsof in N3, N4, N5, N6. cbv zeta. splits; auto.
    + eapply KInv_ext; [exact K|intros i; apply qsof_q|auto].
    + intros g Hg. destruct (N3 g Hg) as (A & B & C & D). splits; auto.
    + intros g Hb Hk. eapply N6; eauto.
  - destruct (notify_one_flips (kn s) (qsof (mx s) (cvq s)) _ 1 k q c_k0 En) as (K & N1 & N2 & N3 & N4 & N5 & N6).
    simpl qsof in N3, N4, N5, N6. cbv zeta. splits; auto.
    + eapply KInv_ext; [exact K|intros i; apply qsof_q|auto].
    + intros g Hg. destruct (N3 g Hg) as (A & B & C & D). splits; auto.
    + destruct (flips (kn s) k (map fst (cvq s))) as [|x [|y l]]; simpl in *; try lia; repeat constructor; auto.
    + intros E g Hb. destruct (kdep (pcs s g)) eqn:Ek; auto. exfalso. eapply N6; eauto.
Qed.

Lemma cinv_notify s f (all : bool) :
  CInv s -> running (fib (kn s) f) = true -> pcs s f = NotifyTop all -> splk s = None ->
  CInv (notify_step s f all).
Proof.
  intros I Hr Hp Hsp. unfold notify_step.
  destruct (if all then notify_all (kn s) (cvq s) else notify_one (kn s) (cvq s)) as [k q] eqn:En.
  destruct (notify_facts s all k q I En) as (K & Hn & F1 & F2 & F3 & F4). clear En.
  set (fs := flips (kn s) k (map fst (cvq s))) in *.
  pose proof I as I0. destruct I0.
  destruct (c_l0 f) as (A & B & C & D). rewrite Hp in A, B, C, D. simpl in A, B, C, D.
  assert (Hff : ~ In f fs) by (intros X; destruct (F1 f X) as (_ & X2 & _); rewrite Hp in X2; discriminate).
  assert (Hfs : forall g, In g fs -> (exists o, pending (log s) g = Some o /\ is_wait o = true) /\ woken (log s) g = false).
  { intros g Hg. destruct (F1 g Hg) as (Hb & Hk & _). destruct (c_l0 g) as (_ & B' & _ & D').
    destruct (pcs s g); simpl in Hk, B', D'; try discriminate.
    - split; [eauto|]. destruct D' as [[_ D']|[[X|X] _]]; auto; destruct Hb; congruence.
    - split; [eauto|]. destruct D' as [[_ D']|[[X|X] _]]; auto; destruct Hb; congruence. }
  assert (Hok : cv_ok (wevs f fs ++ log s)).
  { destruct all.
    - apply cv_ok_wevs_all; auto.
    - apply cv_ok_wevs1; auto. tauto. }
  assert (Hrun : forall g, running (fib (kn s) g) = true -> fib k g = fib (kn s) g).
  { intros g Hg. apply F2. intros X. destruct (F1 g X) as ([X1 _] & _). congruence. }
  (* what the return of the notify call has to satisfy *)
  assert (Hret : forall g o', g <> f -> pending (wevs f fs ++ log s) g = Some o' -> is_wait o' = true ->
     called_inside (wevs f fs ++ log s) g = true -> after_acq (wevs f fs ++ log s) g f = true ->
     woken (wevs f fs ++ log s) g = true \/ deadline_passed o' (now k) \/
       (all = false /\ fs <> [])).
  { intros g o' Hg Ho' Hw Hci Haf. rewrite wevs_pending in Ho'. rewrite wevs_called in Hci. rewrite wevs_after in Haf.
    apply after_since in Haf; auto.
    destruct (in_dec Nat.eq_dec g fs) as [Hi|Hi]; [left; now apply wevs_woken|].
    rewrite wevs_woken_other by auto.
    assert (Hnb : xblocked (fib (kn s) g) -> kdep (pcs s g) = true -> all = false /\ fs <> []).
    { intros Hb Hk. destruct all; [exfalso; auto|]. split; auto. intros E. destruct F4 as [_ F4]. rewrite (F4 E g Hb) in Hk. discriminate. }
    destruct (c_l0 g) as (A' & B' & C' & D'). rewrite B' in Ho'. rewrite Hn.
    destruct (pcs s g) as [|o r|o r e| |tp|tp|tp|e|tp e|tp e|al] eqn:Eg; simpl in Ho'; try discriminate; inversion Ho'; subst o';
      simpl in D', C', Hw; try discriminate.
    - destruct o; try discriminate; simpl in D'; [tauto|]. simpl. tauto.
    - destruct o; try discriminate; simpl in D'; [tauto|]. simpl. tauto.
    - destruct D' as (_ & D1 & D2). rewrite Hci in D1. rewrite D2 in Haf by auto. discriminate.
    - destruct D' as (_ & D1 & D2). rewrite Hci in D1. rewrite D2 in Haf by auto. discriminate.
    - assert (splk s = Some g) by (apply c_splk0; now rewrite Eg). congruence.
    - destruct D' as [[D1 D2]|[D1 D2]]; auto.
    - destruct D' as [[D1 D2]|[D1 [D2|D2]]]; auto.
    - auto.
    - destruct al; discriminate. }
  constructor; simpl.
  - apply kinv_pc; auto. now rewrite Hp.
  - intros g. destruct (Nat.eq_dec g f) as [->|Hne]; updt.
    + unfold LI. simpl. rewrite Nat.eqb_refl. simpl.
      assert (acquires (if all then NotifyAll else NotifyOne) ROk = false) as -> by (destruct all; auto).
      rewrite wevs_inside, A. splits; auto; try discriminate.
    + destruct (in_dec Nat.eq_dec g fs) as [Hi|Hi].
      * destruct (F1 g Hi) as (Hb & Hk & Hr1 & Hr2). destruct (c_l0 g) as (A' & B' & C' & D').
        unfold LI. simpl. rewrite (proj2 (Nat.eqb_neq f g)) by auto. simpl. rewrite wevs_inside, wevs_pending.
        splits; auto. destruct (pcs s g); simpl in Hk; try discriminate; simpl.
        -- right. split; [now right|]. now apply wevs_woken.
        -- right. split; [now right|]. left. now apply wevs_woken.
      * eapply LI_frame; [apply c_l0|auto|lia|rewrite (F2 g Hi); auto| |].
        -- eapply agree_trans; [apply agree_wevs; eauto|apply agree_ret; auto].
        -- left. rewrite since_ret by (destruct all; auto). apply wevs_since.
  - intros g. destruct (Nat.eq_dec g f) as [->|Hne]; updt; auto. rewrite (c_splk0 f), Hp. simpl. tauto.
  - intros g. destruct (Nat.eq_dec g f) as [->|Hne]; updt; [discriminate|]. intros Hh. rewrite Hrun; auto.
  - split; auto. destruct all; simpl.
    + split; auto. intros g o' G1 G2 G3 G4 G5. destruct (Hret g o' G1 G2 G3 G4 G5) as [|[|[X _]]]; auto. discriminate.
    + split; auto. intros g o' G1 G2 G3 G4 G5. destruct (Hret g o' G1 G2 G3 G4 G5) as [|[|[_ X]]]; auto.
      right. right. now apply wevs_used.
  - intros Ho (b & Hb1 & Hb2).
    assert (b <> f) by (intros ->; rewrite upd_same in Hb2; discriminate). updt.
    destruct (in_dec Nat.eq_dec b fs) as [Hi|Hi].
    { destruct (F1 b Hi) as (_ & X & _). destruct (pcs s b); discriminate. }
    rewrite (F2 b Hi) in Hb1. destruct (c_live0 Ho) as (g & G1 & G2); [eauto|].
    exists g. assert (g <> f) by (intros ->; rewrite Hp in G2; discriminate). updt. split; auto.
    rewrite F2; auto. intros Hi'. destruct (F1 g Hi') as (_ & X & _). destruct (pcs s g); discriminate.
Qed.

Lemma LI_kstep s kl k' f : CInv s -> kstep (kn s) kl = Some k' -> LI k' (mx s) (log s) f (pcs s f).
Proof.
  intros [] Ek. pose proof (kstep_now _ _ _ Ek) as Hn. pose proof (kstep_runnable _ _ _ f _ _ c_k0 Ek) as Hru.
  pose proof (kinv_kstep _ _ _ _ _ c_k0 Ek) as K.
  destruct (c_l0 f) as (A & B & C & D). splits; auto. unfold LI. splits; auto.
  unfold lst, lock_res in *. destruct (pcs s f) as [|o r|o r e| |tp|tp|tp|e|tp e|tp e|all] eqn:Ep; auto.
  - destruct o; auto. destruct D as [D|[D1 D2]]; auto. right. split; auto. lia.
  - destruct o; auto. destruct D as [D|[D1 D2]]; auto. right. split; auto. lia.
  - destruct D as [[D1 D2]|[D1 D2]]; [left|right; auto]. split; auto.
    pose proof (ki_f _ _ _ K f) as F. unfold fok in F. cbv beta in F. rewrite Ep in F. simpl in F.
    destruct F as (_ & _ & _ & [F|F]); [tauto|]. exfalso.
    pose proof (ki_f _ _ _ c_k0 f) as F0. unfold fok in F0. cbv beta in F0. rewrite Ep in F0. simpl in F0.
    destruct F0 as (_ & _ & S0 & [(_ & F1 & F2)|([X|X] & _)]); [|destruct D1; congruence..].
    destruct F as (_ & _ & F). contradiction.
  - destruct D as [[D1 D2]|[D1 [D2|D2]]]; [|right; auto|right; split; auto; right; lia].
    pose proof (ki_f _ _ _ K f) as F. unfold fok in F. cbv beta in F. rewrite Ep in F. simpl in F.
    destruct F as (_ & _ & [F|(F1 & F2 & F3 & F4)]); [left; tauto|]. right. split; auto. right. apply F4.
    destruct (blocked_live _ _ _ _ c_k0 D1) as (i & Hi & W). cbv beta in W. rewrite Ep in W.
    destruct W as [W|[t W]]; inversion W; subst. exact Hi.
  - lia.
Qed.

Theorem cinv_step s l s' : CInv s -> step s l = Some s' -> CInv s'.
Proof.
  intros I Hs. pose proof I as I0. destruct I0.
  destruct l as [kl|f o|f|f|f]; unfold step in Hs.
  - destruct (kstep (kn s) kl) as [k'|] eqn:Ek; [|discriminate]. inversion Hs; subst s'; clear Hs.
    constructor; simpl; auto.
    + eapply kinv_kstep; eauto.
    + intros f. eapply LI_kstep; eauto.
    + intros f Hh. specialize (c_run0 f Hh).
      destruct kl as [x t|x|d]; unfold kstep in Ek.
      * destruct (thr (kn s) t); [discriminate|]. destruct (queued (fib (kn s) x) && negb (running (fib (kn s) x))); [|discriminate].
        inversion Ek; subst; simpl. upds; simpl; auto.
      * destruct (thr (kn s) (home (fib (kn s) x))); [discriminate|]. destruct (sleep (fib (kn s) x)) as [[tp e]|]; [|discriminate].
        destruct (Nat.leb tp (now (kn s))); [|discriminate]. inversion Ek; subst; clear Ek.
        unfold wake. simpl. updt. simpl. destruct (Nat.eqb (epoch (fib (kn s) x)) e); simpl; upds; simpl; auto.
      * inversion Ek; subst; auto.
    + intros Ho (b & Hb1 & Hb2).
      destruct (c_live0 Ho) as (g & G1 & G2).
      { exists b. split; auto. destruct (running (fib (kn s) b)) eqn:E1; [|destruct (queued (fib (kn s) b)) eqn:E2; [|split; auto]];
        exfalso; assert (X : xrunnable (fib k' b)) by (eapply kstep_runnable; eauto; unfold xrunnable; auto);
          destruct Hb1; destruct X; congruence. }
      exists g. split; auto. eapply kstep_runnable; eauto.
  - destruct (pcs s f) eqn:Ep; try discriminate. destruct (running (fib (kn s) f)) eqn:Er; [|discriminate].
    inversion Hs; subst s'; clear Hs. destruct (c_l0 f) as (A & B & C & D). rewrite Ep in A, B, C, D. simpl in A, B, C, D.
    rewrite andb_true_r in A.
    apply cinv_local; auto; rewrite ?Ep; simpl; auto; try discriminate.
    + destruct o; reflexivity.
    + destruct o; reflexivity.
    + unfold LI. simpl. rewrite Nat.eqb_refl. simpl.
      destruct o; simpl; rewrite ?Nat.eqb_refl; rewrite ?A, ?andb_true_r, ?andb_false_r; splits; auto; discriminate.
    + intros g Hg. apply (agree_call (log s) f o g Hg).
  - destruct (running (fib (kn s) f)) eqn:Er; [|discriminate].
    destruct (c_l0 f) as (A & B & C & D).
    destruct (pcs s f) as [|o r|o r e| |tp|tp|tp|e|tp e|tp e|all] eqn:Ep; unfold run_step in Hs; rewrite Ep in Hs;
      simpl in A, B, C, D.
    + discriminate.
    + inversion Hs; subst s'. apply cinv_lock; auto.
    + inversion Hs; subst s'; clear Hs.
      destruct (kinv_resume _ _ _ f 0 e c_k0 Er ltac:(cbv beta; now rewrite Ep)) as [L K].
      unfold suspend_and_wait_end. simpl in L. rewrite L. unfold goto. simpl. constructor; simpl; auto.
      * eapply kinv_kassert; auto. eapply kinv_pcw; [exact K|reflexivity].
      * intros g. destruct (Nat.eq_dec g f) as [->|Hne]; updt; [|apply c_l0]. unfold LI. simpl. splits; auto.
      * intros g. destruct (Nat.eq_dec g f) as [->|Hne]; updt; auto. rewrite (c_splk0 f), Ep. simpl. tauto.
      * intros g. destruct (Nat.eq_dec g f) as [->|Hne]; updt; auto.
      * intros Ho (b & Hb1 & Hb2). exists f. updt. split; auto. now left.
    + destruct (is_owner (mx s) f) eqn:Eo; inversion Hs; subst s'; clear Hs.
      * apply cinv_unlock; auto.
      * unfold ret. apply cinv_local; auto; rewrite ?Ep; simpl; auto; try discriminate.
        -- unfold LI. simpl. rewrite Nat.eqb_refl, Eo. simpl. splits; auto; discriminate.
        -- intros g Hg. split; [apply agree_ret; auto|now rewrite andb_false_r].
    + destruct (splk s) eqn:Esp; [discriminate|]. inversion Hs; subst s'; clear Hs.
      unfold goto. simpl. constructor; simpl; auto.
      * apply kinv_pc; auto. now rewrite Ep.
      * intros g. destruct (Nat.eq_dec g f) as [->|Hne]; updt; auto. unfold LI. simpl. splits; auto; try discriminate; tauto.
      * intros g. destruct (Nat.eq_dec g f) as [->|Hne]; updt; simpl; [tauto|]. split; [congruence|].
        intros Hh. apply c_splk0 in Hh. congruence.
      * intros g. destruct (Nat.eq_dec g f) as [->|Hne]; updt; auto.
      * intros Ho (b & Hb1 & Hb2). assert (b <> f) by (intros ->; rewrite upd_same in Hb2; discriminate). updt.
        destruct (c_live0 Ho) as (g & G1 & G2); [eauto|]. exists g.
        assert (g <> f) by (intros ->; rewrite Ep in G2; discriminate). now updt.
    + destruct (is_owner (mx s) f) eqn:Eo; inversion Hs; subst s'; clear Hs.
      * apply cinv_waitb; auto.
      * assert (Hsp : splk s = Some f) by (apply c_splk0; now rewrite Ep).
        unfold ret. simpl. constructor; simpl; auto.
        -- apply kinv_pc; auto. now rewrite Ep.
        -- intros g. destruct (Nat.eq_dec g f) as [->|Hne]; updt.
           ++ unfold LI. simpl. rewrite Nat.eqb_refl, Eo. simpl.
              assert (acquires (wait_op tp) RErr = false) as -> by (destruct tp; auto). splits; auto; discriminate.
           ++ eapply LI_frame; [apply c_l0|auto|auto|auto|apply agree_ret; auto|left; apply since_ret; destruct tp; auto].
        -- intros g. destruct (Nat.eq_dec g f) as [->|Hne]; updt; simpl.
           ++ split; discriminate.
           ++ split; [discriminate|]. intros Hh. apply c_splk0 in Hh. congruence.
        -- intros g. destruct (Nat.eq_dec g f) as [->|Hne]; updt; auto; discriminate.
        -- split; auto. destruct D as (D1 & D2 & D3). destruct tp; simpl; auto.
        -- intros Ho (b & Hb1 & Hb2). assert (b <> f) by (intros ->; rewrite upd_same in Hb2; discriminate). updt.
           destruct (c_live0 Ho) as (g & G1 & G2); [eauto|]. exists g.
           assert (g <> f) by (intros ->; rewrite Ep in G2; discriminate). now updt.
    + eapply cinv_waitc; eauto. unfold run_step. rewrite Ep. exact Hs.
    + inversion Hs; subst s'; clear Hs.
      destruct (kinv_resume _ _ _ f 1 e c_k0 Er ltac:(cbv beta; now rewrite Ep)) as [L K].
      unfold suspend_and_wait_end. simpl in L. rewrite L. unfold goto. simpl. constructor; simpl; auto.
      * eapply kinv_kassert; auto. eapply kinv_pcw; [exact K|reflexivity].
      * intros g. destruct (Nat.eq_dec g f) as [->|Hne]; updt; [|apply c_l0]. unfold LI. simpl. splits; auto.
        destruct D as [[[D _] _]|[_ D]]; [congruence|auto].
      * intros g. destruct (Nat.eq_dec g f) as [->|Hne]; updt; auto. rewrite (c_splk0 f), Ep. simpl. tauto.
      * intros g. destruct (Nat.eq_dec g f) as [->|Hne]; updt; auto.
      * intros Ho (b & Hb1 & Hb2). exists f. updt. split; auto. now left.
    + destruct D as [[[D _] _]|[_ D]]; [congruence|].
      destruct (wait_until_result (kn s) tp) eqn:Ew; inversion Hs; subst s'; clear Hs.
      * pose proof (kinv_resume_until _ _ _ f 1 tp e c_k0 Er ltac:(cbv beta; now rewrite Ep) Ew) as K.
        unfold wait_until_result in Ew. apply Nat.ltb_lt in Ew.
        unfold goto. simpl. constructor; simpl; auto.
        -- eapply kinv_pcw; [exact K|reflexivity].
        -- intros g. destruct (Nat.eq_dec g f) as [->|Hne]; updt; [|apply c_l0]. unfold LI. simpl. splits; auto.
           left. split; auto. destruct D; auto. lia.
        -- intros g. destruct (Nat.eq_dec g f) as [->|Hne]; updt; auto. rewrite (c_splk0 f), Ep. simpl. tauto.
        -- intros g. destruct (Nat.eq_dec g f) as [->|Hne]; updt; auto.
        -- intros Ho (b & Hb1 & Hb2). exists f. updt. split; auto. now left.
      * pose proof (kinv_timeout _ _ _ f 1 tp e c_k0 Er ltac:(cbv beta; now rewrite Ep) Ew) as K.
        unfold wait_until_result in Ew. apply Nat.ltb_ge in Ew.
        unfold goto. simpl. constructor; simpl; auto.
        -- eapply kinv_pcw; [exact K|reflexivity].
        -- intros g. destruct (Nat.eq_dec g f) as [->|Hne]; updt; [|apply c_l0]. unfold LI. simpl. splits; auto.
        -- intros g. destruct (Nat.eq_dec g f) as [->|Hne]; updt; auto. rewrite (c_splk0 f), Ep. simpl. tauto.
        -- intros g. destruct (Nat.eq_dec g f) as [->|Hne]; updt; auto.
        -- intros Ho (b & Hb1 & Hb2). assert (b <> f) by (intros ->; rewrite upd_same in Hb2; discriminate). updt.
           destruct (c_live0 Ho) as (g & G1 & G2); [eauto|]. exists g.
           assert (g <> f) by (intros ->; rewrite Ep in G2; discriminate). now updt.
    + destruct (splk s) eqn:Esp; [discriminate|]. inversion Hs; subst s'; clear Hs.
      pose proof (kinv_relock _ _ _ f 1 tp e c_k0 Er ltac:(cbv beta; now rewrite Ep)) as K. simpl qsof in K.
      unfold goto. simpl. constructor; simpl; auto.
      * eapply kinv_pcw; [|reflexivity]. eapply KInv_ext; [exact K|intros i; apply qsof_q|auto].
      * intros g. destruct (Nat.eq_dec g f) as [->|Hne]; updt; [|apply c_l0]. unfold LI. simpl. splits; auto.
      * intros g. destruct (Nat.eq_dec g f) as [->|Hne]; updt; rewrite Esp; auto. simpl. split; discriminate.
      * intros g. destruct (Nat.eq_dec g f) as [->|Hne]; updt; auto.
      * intros Ho (b & Hb1 & Hb2). exists f. updt. split; auto. now left.
    + destruct (splk s) eqn:Esp; [discriminate|]. inversion Hs; subst s'; clear Hs. apply cinv_notify; auto.
  - destruct (pcs s f) eqn:Ep; try discriminate. destruct (running (fib (kn s) f)) eqn:Er; [|discriminate].
    inversion Hs; subst s'; clear Hs. unfold set_kn. simpl. constructor; simpl; auto.
    + apply kinv_yield; auto.
    + intros g. eapply LI_frame; [apply c_l0|auto|auto| |apply agree_refl|auto].
      intros Hk. unfold yield, set_fib. simpl. destruct (Nat.eq_dec g f) as [->|Hne]; updt; auto. rewrite Ep in Hk. discriminate.
    + intros g Hh. unfold yield, set_fib. simpl. destruct (Nat.eq_dec g f) as [->|Hne]; updt; auto. rewrite Ep in Hh. discriminate.
    + unfold yield, set_fib. simpl. intros Ho (b & Hb1 & Hb2). assert (b <> f) by (intros ->; rewrite Ep in Hb2; discriminate). updt.
      destruct (c_live0 Ho) as (g & G1 & G2); [eauto|]. exists g.
      assert (g <> f) by (intros ->; rewrite Ep in G2; discriminate). now updt.
  - destruct (pcs s f) eqn:Ep; try discriminate. destruct (running (fib (kn s) f)) eqn:Er; [|discriminate].
    inversion Hs; subst s'; clear Hs. unfold set_kn. simpl. constructor; simpl; auto.
    + apply kinv_yield; auto.
    + intros g. eapply LI_frame; [apply c_l0|auto|auto| |apply agree_refl|auto].
      intros Hk. unfold yield, set_fib. simpl. destruct (Nat.eq_dec g f) as [->|Hne]; updt; auto. rewrite Ep in Hk. discriminate.
    + intros g Hh. unfold yield, set_fib. simpl. destruct (Nat.eq_dec g f) as [->|Hne]; updt; auto. rewrite Ep in Hh. discriminate.
    + unfold yield, set_fib. simpl. intros Ho (b & Hb1 & Hb2). assert (b <> f) by (intros ->; rewrite Ep in Hb2; discriminate). updt.
      destruct (c_live0 Ho) as (g & G1 & G2); [eauto|]. exists g.
      assert (g <> f) by (intros ->; rewrite Ep in G2; discriminate). now updt.
Qed.

Lemma cinv_reachable s : reachable step init s -> CInv s.
Proof. apply reachable_inv; [apply cinv_init|apply cinv_step]. Qed.
