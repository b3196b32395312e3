From Coq Require Import List Arith Bool Lia.
From Verif Require Import Base Kernel KernelFacts Mutex MutexSpec.
Import ListNotations.

Definition wst (p : pc) : wstat :=
  match p with
  | LockWait e => WUntimed 0 e
  | UntilWait tp e => WTimed 0 tp e
  | UntilRelock tp e => WRelock 0 tp e
  | _ => WNone
  end.

Definition qsof (m : mtx) : nat -> wq := fun i => match i with 0 => waiters m | _ => [] end.

Definition op_of (p : pc) : option op :=
  match p with
  | Idle => None
  | LockTop | LockWait _ => Some Lock
  | TryTop | TryYield | TryCheck => Some TryLock
  | UnlockTop => Some Unlock
  | UntilTop tp | UntilCS tp | UntilWait tp _ | UntilRelock tp _ => Some (TryLockUntil tp)
  end.

Definition held (mk : mkind) (m : mtx) (f : fid) : nat :=
  if is_owner m f then (if recursive mk then count m else 1) else 0.

Definition adj_in (m : mtx) (p : pc) (f : fid) : nat :=
  if is_owner m f then match p with UnlockTop | TryYield | TryCheck => 1 | _ => 0 end else 0.
Definition adj_ow (m : mtx) (p : pc) (f : fid) : nat :=
  if is_owner m f then match p with TryYield | TryCheck => 1 | _ => 0 end else 0.

Fixpoint log_ok (mk : mkind) (h : list event) : Prop :=
  match h with
  | [] => True
  | ERet f o r a :: h' => ret_ok mk h' f o r a /\ log_ok mk h'
  | ECall _ _ :: h' => log_ok mk h'
  end.

Definition retrying (p : pc) : Prop :=
  match p with
  | LockTop | LockWait _ | UntilTop _ | UntilCS _ | UntilWait _ _ | UntilRelock _ _ => True
  | _ => False
  end.

Record MInv (mk : mkind) (s : state) : Prop := {
  m_k : KInv (kn s) (qsof (mx s)) (fun f => wst (pcs s f));
  m_in : forall f, inside (log s) f + adj_in (mx s) (pcs s f) f = held mk (mx s) f;
  m_ow : forall f, owned (log s) f + adj_ow (mx s) (pcs s f) f = held mk (mx s) f;
  m_cnt : recursive mk = true -> owner (mx s) <> None -> 1 <= count (mx s);
  m_pend : forall f, pending (log s) f = op_of (pcs s f);
  m_log : log_ok mk (log s);
  m_kind : forall f tp, op_of (pcs s f) = Some (TryLockUntil tp) -> timed mk = true;
  m_logk : forall f tp r a, In (ERet f (TryLockUntil tp) r a) (log s) -> timed mk = true;
  m_live : no_timed_failure (log s) -> owner (mx s) = None ->
           (exists f, xblocked (fib (kn s) f)) ->
           exists g, xrunnable (fib (kn s) g) /\ retrying (pcs s g)
}.

Lemma is_owner_spec m f : is_owner m f = true <-> owner m = Some f.
Proof.
  unfold is_owner. destruct (owner m) as [g|]; [|split; discriminate].
  rewrite Nat.eqb_eq. split; congruence.
Qed.
Lemma is_owner_false m f : is_owner m f = false <-> owner m <> Some f.
Proof. rewrite <- is_owner_spec. destruct (is_owner m f); split; congruence. Qed.
Lemma is_free_spec m : is_free m = true <-> owner m = None.
Proof. unfold is_free. destruct (owner m); split; congruence. Qed.
Lemma is_free_false m : is_free m = false <-> owner m <> None.
Proof. unfold is_free. destruct (owner m); split; congruence. Qed.

Lemma minv_init mk : MInv mk init.
Proof.
  constructor; simpl; auto; try congruence; try contradiction.
  - eapply KInv_ext; [apply kinv_init| |]; auto. intros [|i]; reflexivity.
  - intros _ _ (f & A & B). simpl in B. discriminate.
Qed.

(** The pc change of one fiber that does not touch kernel, mutex or waiting status. *)
Lemma kinv_pc k m pcs0 f p :
  KInv k (qsof m) (fun g => wst (pcs0 g)) -> wst p = wst (pcs0 f) ->
  KInv k (qsof m) (fun g => wst (upd pcs0 f p g)).
Proof.
  intros H E. eapply KInv_ext; [exact H| |]; auto. intros g. upds; auto.
Qed.

Lemma kinv_pcw k m pcs0 f p w :
  KInv k (qsof m) (upd (fun g => wst (pcs0 g)) f w) -> wst p = w ->
  KInv k (qsof m) (fun g => wst (upd pcs0 f p g)).
Proof.
  intros H E. eapply KInv_ext; [exact H| |]; auto. intros g. cbv beta. upds; auto.
Qed.

Lemma qsof_upd m o c q : forall i, qsof (mkMtx o c q) i = upd (qsof m) 0 q i.
Proof. intros [|i]; reflexivity. Qed.

Lemma kinv_mx k m o c ws : KInv k (qsof m) ws -> KInv k (qsof (mkMtx o c (waiters m))) ws.
Proof. intros H. eapply KInv_ext; [exact H| |]; auto. Qed.

Lemma nt_cons e h : no_timed_failure (e :: h) -> no_timed_failure h.
Proof. intros H f tp a Hi. apply (H f tp a). now right. Qed.

Ltac own :=
  repeat match goal with
  | H : is_owner _ _ = true |- _ => apply is_owner_spec in H
  | H : is_owner _ _ = false |- _ => apply is_owner_false in H
  | H : is_free _ = true |- _ => apply is_free_spec in H
  | H : is_free _ = false |- _ => apply is_free_false in H
  end.

Ltac dow := try match goal with |- context [is_owner ?m ?f] => destruct (is_owner m f); auto end.

Ltac fsplit g f := destruct (Nat.eq_dec g f) as [->|?];
  [ rewrite ?Nat.eqb_refl in * |
    repeat match goal with N : g <> f |- _ =>
      rewrite ?(proj2 (Nat.eqb_neq g f) N), ?(proj2 (Nat.eqb_neq f g) (not_eq_sym N)) in * end ];
  updt.


(** A step that only moves the program counter. *)
Lemma minv_goto mk s f p :
  MInv mk s -> wst p = wst (pcs s f) -> op_of p = op_of (pcs s f) ->
  adj_in (mx s) p f = adj_in (mx s) (pcs s f) f -> adj_ow (mx s) p f = adj_ow (mx s) (pcs s f) f ->
  (retrying (pcs s f) -> retrying p) -> MInv mk (goto s f p).
Proof.
  intros [] E1 E2 E3 E4 E5. constructor; simpl; auto.
  - apply kinv_pc; auto.
  - intros g. fsplit g f; auto. rewrite E3. auto.
  - intros g. fsplit g f; auto. rewrite E4. auto.
  - intros g. fsplit g f; auto. rewrite E2. auto.
  - intros g tp. fsplit g f; eauto. rewrite E2. eauto.
  - intros Hn Ho Hb. destruct (m_live0 Hn Ho Hb) as (g & Hg1 & Hg2). exists g. split; auto.
    fsplit g f; auto.
Qed.

(** A return that changes nothing but the log. *)
Lemma minv_ret_plain mk s f o r :
  MInv mk s -> running (fib (kn s) f) = true -> op_of (pcs s f) = Some o -> wst (pcs s f) = WNone ->
  acquired o r = false -> (o = Unlock -> r <> ROk) ->
  adj_in (mx s) (pcs s f) f = 0 \/ (o = Unlock /\ is_owner (mx s) f = false) -> adj_ow (mx s) (pcs s f) f = 0 ->
  ret_ok mk (log s) f o r (now (kn s)) ->
  (forall tp, o = TryLockUntil tp -> r = RBool false) ->
  (retrying (pcs s f) -> owner (mx s) = None -> exists tp, o = TryLockUntil tp) ->
  MInv mk (ret s f o r).
Proof.
  intros [] Hr Ho Hw Ha Hu Hai Hao Hok Htl Hre. constructor; simpl; auto.
  - apply kinv_pc; auto.
  - intros g. specialize (m_in0 g). fsplit g f; auto. rewrite Ha. rewrite andb_false_r.
    assert (adj_in (mx s) Idle f = 0) as -> by (unfold adj_in; destruct (is_owner (mx s) f); auto).
    destruct Hai as [Hai|[-> Hai]]; [lia|]. unfold adj_in, held in *. rewrite Hai in *. lia.
  - intros g. specialize (m_ow0 g). fsplit g f; auto. rewrite Ha.
    assert (adj_ow (mx s) Idle f = 0) as -> by (unfold adj_ow; destruct (is_owner (mx s) f); auto).
    assert (X : (match o with Unlock => match r with ROk => pred (owned (log s) f) | _ => owned (log s) f end
                 | _ => owned (log s) f end) = owned (log s) f).
    { destruct o; auto. destruct r; auto. exfalso; apply Hu; auto. }
    rewrite X. lia.
  - intros g. fsplit g f; auto.
  - intros g tp. fsplit g f; eauto. discriminate.
  - intros g tp r' a [E|Hi]; eauto. inversion E; subst. eauto.
  - intros Hn Hown Hb. pose proof Hn as Hn'. apply nt_cons in Hn.
    destruct (m_live0 Hn Hown Hb) as (g & Hg1 & Hg2). exists g. split; auto.
    fsplit g f; auto. destruct (Hre Hg2 Hown) as (tp & ->). exfalso.
    rewrite (Htl tp eq_refl) in Hn'. apply (Hn' f tp (now (kn s))). now left.
Qed.

Lemma held_other mk m m' g :
  is_owner m g = is_owner m' g -> (is_owner m g = true -> count m = count m') -> held mk m g = held mk m' g.
Proof. unfold held. intros -> H. destruct (is_owner m' g); auto. destruct (recursive mk); auto. Qed.

Lemma inside_other e h g :
  match e with ERet f _ _ _ => f | ECall f _ => f end <> g -> inside (e :: h) g = inside h g.
Proof.
  destruct e as [f o|f o r a]; simpl; intros H.
  - destruct o; auto. now rewrite (proj2 (Nat.eqb_neq f g) H).
  - now rewrite (proj2 (Nat.eqb_neq f g) H).
Qed.
Lemma owned_other e h g :
  match e with ERet f _ _ _ => f | ECall f _ => f end <> g -> owned (e :: h) g = owned h g.
Proof.
  destruct e as [f o|f o r a]; simpl; intros H; auto.
  now rewrite (proj2 (Nat.eqb_neq f g) H).
Qed.

(** A successful acquisition that returns at once. *)
Lemma minv_acquire mk s f o r m' :
  MInv mk s -> running (fib (kn s) f) = true -> op_of (pcs s f) = Some o -> wst (pcs s f) = WNone ->
  acquired o r = true -> adj_in (mx s) (pcs s f) f = 0 -> adj_ow (mx s) (pcs s f) f = 0 ->
  ret_ok mk (log s) f o r (now (kn s)) ->
  (owner (mx s) = None /\ m' = take mk (mx s) f) \/
  (recursive mk = true /\ owner (mx s) = Some f /\ m' = again (mx s)) ->
  MInv mk (ret (set_mx s m') f o r).
Proof.
  intros [] Hr Ho Hw Ha Hai Hao Hok Hm.
  assert (Hown : owner m' = Some f) by (destruct Hm as [(_ & ->)|(_ & H & ->)]; auto).
  assert (Hwq : waiters m' = waiters (mx s)) by (destruct Hm as [(_ & ->)|(_ & _ & ->)]; auto).
  assert (Hh : held mk m' f = S (held mk (mx s) f)).
  { unfold held. rewrite (proj2 (is_owner_spec m' f) Hown).
    destruct Hm as [(H & ->)|(Hrec & H & ->)].
    - assert (is_owner (mx s) f = false) as -> by (apply is_owner_false; congruence).
      simpl. destruct (recursive mk); auto.
    - rewrite (proj2 (is_owner_spec (mx s) f) H), Hrec. reflexivity. }
  assert (Hho : forall g, g <> f -> held mk (mx s) g = 0 /\ is_owner m' g = false).
  { intros g Hg. assert (is_owner (mx s) g = false) as E.
    { apply is_owner_false. destruct Hm as [(H & _)|(_ & H & _)]; congruence. }
    split; [unfold held; now rewrite E|]. apply is_owner_false. congruence. }
  constructor; simpl; auto.
  - apply kinv_pc; auto. eapply KInv_ext; [exact m_k0| |]; auto.
    intros [|i]; simpl; auto.
  - intros g. pose proof (m_in0 g) as X. destruct (Nat.eq_dec g f) as [->|Hg].
    + updt. rewrite Nat.eqb_refl, Ha. simpl. rewrite Hh.
      assert (adj_in m' Idle f = 0) as -> by (unfold adj_in; destruct (is_owner m' f); auto). lia.
    + updt. rewrite (proj2 (Nat.eqb_neq f g)) by auto. simpl.
      destruct (Hho g Hg) as [A B]. unfold adj_in, held in *. rewrite B. lia.
  - intros g. pose proof (m_ow0 g) as X. destruct (Nat.eq_dec g f) as [->|Hg].
    + updt. rewrite Nat.eqb_refl, Ha. simpl. rewrite Hh.
      assert (adj_ow m' Idle f = 0) as -> by (unfold adj_ow; destruct (is_owner m' f); auto). lia.
    + updt. rewrite (proj2 (Nat.eqb_neq f g)) by auto. simpl.
      destruct (Hho g Hg) as [A B]. unfold adj_ow, held in *. rewrite B. lia.
  - intros Hrec _. destruct Hm as [(H & ->)|(_ & H & ->)]; simpl; [rewrite Hrec; auto|].
    lia.
  - intros g. fsplit g f; auto.
  - intros g tp. fsplit g f; eauto. discriminate.
  - intros g tp r' a [E|Hi]; eauto. inversion E; subst. eauto.
  - intros _ E. congruence.
Qed.

Lemma minv_run_lock mk s f :
  MInv mk s -> running (fib (kn s) f) = true -> pcs s f = LockTop -> MInv mk (lock_step mk s f).
Proof.
  intros I Hr Hp. pose proof I as I0. destruct I. unfold lock_step.
  destruct (is_owner (mx s) f) eqn:Eo.
  - own. destruct (recursive mk) eqn:Erec.
    + apply minv_acquire; auto; rewrite ?Hp; auto; unfold adj_in, adj_ow; rewrite ?Hp; dow; auto.
      simpl. now rewrite Erec.
    + apply minv_ret_plain; auto; rewrite ?Hp; auto; unfold adj_in, adj_ow; rewrite ?Hp; dow; try discriminate; try congruence.
      simpl. rewrite Erec. left. split; auto.
      specialize (m_ow0 f). unfold adj_ow, held in m_ow0. rewrite Hp in m_ow0.
      rewrite (proj2 (is_owner_spec (mx s) f) Eo), Erec in m_ow0. lia.
  - destruct (is_free (mx s)) eqn:Ef; own.
    + apply minv_acquire; auto; rewrite ?Hp; auto; unfold adj_in, adj_ow; rewrite ?Hp; dow; auto.
      simpl. destruct (recursive mk) eqn:Erec; auto. right. split; auto.
      specialize (m_ow0 f). unfold held in m_ow0.
      rewrite (proj2 (is_owner_false (mx s) f)) in m_ow0 by auto. lia.
    + destruct (suspend_and_wait (kn s) f (waiters (mx s))) as [[k q] e] eqn:Es.
      assert (K := kinv_block (kn s) (qsof (mx s)) _ f 0 k q e m_k0 ltac:(cbv beta; now rewrite Hp) Hr Es).
      constructor; simpl; auto.
      * eapply kinv_pcw; [|reflexivity]. eapply KInv_ext; [exact K| |]; auto. apply qsof_upd.
      * intros g. specialize (m_in0 g). unfold adj_in, held, is_owner in *. simpl. fsplit g f; auto.
        rewrite Hp in m_in0. auto.
      * intros g. specialize (m_ow0 g). unfold adj_ow, held, is_owner in *. simpl. fsplit g f; auto.
        rewrite Hp in m_ow0. auto.
      * intros g. fsplit g f; auto. now rewrite m_pend0, Hp.
      * intros g tp. fsplit g f; eauto. discriminate.
      * intros. contradiction.
Qed.

Lemma minv_run_try mk s f :
  MInv mk s -> running (fib (kn s) f) = true -> pcs s f = TryTop -> MInv mk (try_step mk s f).
Proof.
  intros I Hr Hp. pose proof I as I0. destruct I. unfold try_step.
  assert (Htake : is_free (mx s) = true -> MInv mk (goto (set_mx s (take mk (mx s) f)) f TryYield)).
  { intros Hf. own. constructor; simpl; auto.
    - apply kinv_pc; [|rewrite Hp; auto]. apply kinv_mx; auto.
    - intros g. specialize (m_in0 g). unfold adj_in, held, take, is_owner in *. simpl. rewrite Hf in m_in0.
      fsplit g f; auto; try lia.
      all: destruct (recursive mk); lia.
    - intros g. specialize (m_ow0 g). unfold adj_ow, held, take, is_owner in *. simpl. rewrite Hf in m_ow0.
      fsplit g f; auto; try lia.
      all: destruct (recursive mk); lia.
    - intros ->. auto.
    - intros g. fsplit g f; auto. now rewrite m_pend0, Hp.
    - intros g tp. fsplit g f; eauto. discriminate.
    - intros _ E; discriminate. }
  assert (Hfail : is_owner (mx s) f = false -> is_free (mx s) = false -> MInv mk (goto s f TryYield)).
  { intros Ho Hf. apply minv_goto; auto; rewrite ?Hp; auto; unfold adj_in, adj_ow; now rewrite Ho. }
  destruct (recursive mk) eqn:Erec.
  - destruct (is_free (mx s)) eqn:Ef; auto.
    destruct (is_owner (mx s) f) eqn:Eo; auto. own.
    constructor; simpl; auto.
    + apply kinv_pc; [|rewrite Hp; auto]. apply kinv_mx; auto.
    + intros g. specialize (m_in0 g). unfold adj_in, held, again, is_owner in *. simpl. rewrite Eo in *.
      rewrite Erec in *. fsplit g f; auto. rewrite Hp in m_in0. lia.
    + intros g. specialize (m_ow0 g). unfold adj_ow, held, again, is_owner in *. simpl. rewrite Eo in *.
      rewrite Erec in *. fsplit g f; auto. rewrite Hp in m_ow0. lia.
    + intros g. fsplit g f; auto. now rewrite m_pend0, Hp.
    + intros g tp. fsplit g f; eauto. discriminate.
    + intros; congruence.
  - destruct (is_owner (mx s) f) eqn:Eo.
    + own.
      apply minv_ret_plain; auto; rewrite ?Hp; auto; unfold adj_in, adj_ow; rewrite ?Hp; dow; try discriminate; try contradiction.
      simpl. rewrite Erec. left. split; auto.
      specialize (m_ow0 f). unfold adj_ow, held in m_ow0. rewrite Hp in m_ow0.
      rewrite (proj2 (is_owner_spec (mx s) f) Eo), Erec in m_ow0. lia.
    + destruct (is_free (mx s)) eqn:Ef; auto.
Qed.

Lemma minv_release mk s f c :
  MInv mk s -> running (fib (kn s) f) = true -> pcs s f = UnlockTop ->
  owner (mx s) = Some f -> held mk (mx s) f = 1 ->
  MInv mk (ret (release s c) f Unlock ROk).
Proof.
  intros I Hr Hp Ho Hh. pose proof I as I0. destruct I. unfold release.
  destruct (notify_one (kn s) (waiters (mx s))) as [k q] eqn:En.
  destruct (notify_one_inv 0 (waiters (mx s)) (kn s) (qsof (mx s)) _ k q m_k0 eq_refl En)
    as (K & N1 & N2 & N3 & N4).
  assert (Hoth : forall g, g <> f -> is_owner (mx s) g = false) by (intros; apply is_owner_false; congruence).
  constructor; simpl; auto.
  - eapply kinv_pc; [|rewrite Hp; auto]. eapply KInv_ext; [exact K| |]; auto. apply qsof_upd.
  - intros g. specialize (m_in0 g). unfold adj_in at 1, held at 1, is_owner; simpl. unfold adj_in in m_in0.
    fsplit g f; auto.
    + rewrite Hh, (proj2 (is_owner_spec _ _) Ho), Hp in m_in0. simpl. lia.
    + unfold held in m_in0. rewrite (Hoth g) in m_in0; auto.
  - intros g. specialize (m_ow0 g). unfold adj_ow at 1, held at 1, is_owner; simpl. unfold adj_ow in m_ow0.
    fsplit g f; auto.
    + rewrite Hh, (proj2 (is_owner_spec _ _) Ho), Hp in m_ow0. lia.
    + unfold held in m_ow0. rewrite (Hoth g) in m_ow0; auto.
  - congruence.
  - intros g. fsplit g f; auto.
  - split; auto. right. split; auto.
    specialize (m_ow0 f). rewrite Hh in m_ow0. unfold adj_ow in m_ow0.
    rewrite (proj2 (is_owner_spec _ _) Ho), Hp in m_ow0. lia.
  - intros g tp. fsplit g f; eauto. discriminate.
  - intros g tp r a [E|Hi]; [discriminate|eauto].
  - intros Hn _ (b & Hb). destruct N4 as [(g & G1 & G2 & G3 & G4 & G5)|(E1 & E2 & E3)].
    + exists g. assert (g <> f) by (intros ->; destruct G2; congruence). updt. split.
      * rewrite G3. now right.
      * destruct (live_blocked _ _ _ 0 _ _ m_k0 G1 eq_refl) as [_ [W|[tp W]]]; cbv beta in W;
          destruct (pcs s g); simpl in W; try discriminate; simpl; auto.
    + exfalso. subst k. destruct (blocked_live _ _ _ _ m_k0 Hb) as (i & Hi & _).
      destruct i; simpl in Hi; [|contradiction]. eapply E3; eauto.
Qed.

Lemma minv_run_unlock mk s f :
  MInv mk s -> running (fib (kn s) f) = true -> pcs s f = UnlockTop -> MInv mk (unlock_step mk s f).
Proof.
  intros I Hr Hp. pose proof I as I0. destruct I. unfold unlock_step.
  destruct (is_owner (mx s) f) eqn:Eo; simpl; own.
  - assert (Hh : held mk (mx s) f = if recursive mk then count (mx s) else 1).
    { unfold held. now rewrite (proj2 (is_owner_spec _ _) Eo). }
    destruct (recursive mk) eqn:Erec.
    + assert (1 <= count (mx s)) by (apply m_cnt0; auto; congruence).
      destruct (Nat.eqb_spec (pred (count (mx s))) 0) as [Ec|Ec].
      * apply minv_release; auto. lia.
      * constructor; simpl; auto.
        -- apply kinv_pc; [|rewrite Hp; auto]. apply kinv_mx; auto.
        -- intros g. specialize (m_in0 g). unfold adj_in, held, is_owner in *. simpl. rewrite Eo in *. rewrite Erec in *.
           fsplit g f; auto. rewrite Hp in m_in0. simpl. lia.
        -- intros g. specialize (m_ow0 g). unfold adj_ow, held, is_owner in *. simpl. rewrite Eo in *. rewrite Erec in *.
           fsplit g f; auto. rewrite Hp in m_ow0. lia.
        -- intros. lia.
        -- intros g. fsplit g f; auto.
        -- split; auto. right. split; auto. specialize (m_ow0 f). rewrite Hh in m_ow0. unfold adj_ow in m_ow0.
           rewrite (proj2 (is_owner_spec _ _) Eo), Hp in m_ow0. lia.
        -- intros g tp. fsplit g f; eauto. discriminate.
        -- intros g tp r a [E|Hi]; [discriminate|eauto].
        -- intros; congruence.
    + apply minv_release; auto.
  - apply minv_ret_plain; auto; rewrite ?Hp; auto; unfold adj_in, adj_ow; rewrite ?Hp; try discriminate; try contradiction.
    + right. split; auto. now apply is_owner_false.
    + now rewrite (proj2 (is_owner_false _ _) Eo).
    + left. split; auto. specialize (m_ow0 f). unfold held in m_ow0. rewrite (proj2 (is_owner_false _ _) Eo) in m_ow0. lia.
Qed.

Lemma minv_run_until mk s f tp :
  MInv mk s -> running (fib (kn s) f) = true -> pcs s f = UntilCS tp -> MInv mk (until_step mk s f tp).
Proof.
  intros I Hr Hp. pose proof I as I0. destruct I. unfold until_step.
  destruct (recursive mk && is_owner (mx s) f) eqn:Eo.
  - apply andb_true_iff in Eo. destruct Eo as [Erec Eo]. own.
    apply minv_acquire; auto; rewrite ?Hp; auto; unfold adj_in, adj_ow; rewrite ?Hp; dow; auto.
    simpl. auto.
  - destruct (is_free (mx s)) eqn:Ef; own.
    + apply minv_acquire; auto; rewrite ?Hp; auto; unfold adj_in, adj_ow; rewrite ?Hp; dow; auto.
      simpl. auto.
    + destruct (suspend_and_wait_until (kn s) f (waiters (mx s)) tp) as [[k q] e] eqn:Es.
      assert (K := kinv_block_until (kn s) (qsof (mx s)) _ f 0 tp k q e m_k0 ltac:(cbv beta; now rewrite Hp) Hr Es).
      constructor; simpl; auto.
      * eapply kinv_pcw; [|reflexivity]. eapply KInv_ext; [exact K| |]; auto. apply qsof_upd.
      * intros g. specialize (m_in0 g). unfold adj_in, held, is_owner in *. simpl. fsplit g f; auto.
        rewrite Hp in m_in0. auto.
      * intros g. specialize (m_ow0 g). unfold adj_ow, held, is_owner in *. simpl. fsplit g f; auto.
        rewrite Hp in m_ow0. auto.
      * intros g. fsplit g f; auto. now rewrite m_pend0, Hp.
      * intros g tp'. fsplit g f; eauto. intros E. apply (m_kind0 f tp). now rewrite Hp.
      * intros. contradiction.
Qed.

Theorem minv_step mk s l s' : MInv mk s -> step mk s l = Some s' -> MInv mk s'.
Proof.
  intros I Hs. destruct l as [kl|f o|f|f|f]; simpl in Hs.
  - (* kernel *)
    destruct (kstep (kn s) kl) as [k'|] eqn:Ek; [|discriminate]. inversion Hs; subst s'; clear Hs.
    destruct I. constructor; simpl; auto.
    + eapply kinv_kstep; eauto.
    + intros Hn Ho (f & Hb).
      destruct (m_live0 Hn Ho) as (g & Hg1 & Hg2).
      { destruct (running (fib (kn s) f)) eqn:E1; [|destruct (queued (fib (kn s) f)) eqn:E2].
        - exfalso. assert (X : xrunnable (fib k' f)) by (eapply kstep_runnable; eauto; now left).
          destruct Hb; destruct X; congruence.
        - exfalso. assert (X : xrunnable (fib k' f)) by (eapply kstep_runnable; eauto; now right).
          destruct Hb; destruct X; congruence.
        - exists f. split; auto. }
      exists g. split; auto. eapply kstep_runnable; eauto.
  - (* call *)
    destruct (pcs s f) eqn:Ep; try discriminate.
    destruct (running (fib (kn s) f) && permitted mk o) eqn:E; [|discriminate].
    apply andb_true_iff in E. destruct E as [Er Epm].
    inversion Hs; subst s'; clear Hs. destruct I. constructor; simpl; auto.
    + apply kinv_pc; auto. rewrite Ep. destruct o; reflexivity.
    + intros g. specialize (m_in0 g). fsplit g f.
      * rewrite Ep in m_in0. unfold adj_in, held in *.
        destruct (is_owner (mx s) f) eqn:Eo; destruct o; simpl in *; try lia.
        destruct (recursive mk) eqn:Er2; [|lia]. own.
        assert (1 <= count (mx s)) by (apply m_cnt0; auto; congruence). lia.
      * destruct o; auto.
    + intros g. specialize (m_ow0 g). fsplit g f; auto.
      rewrite Ep in m_ow0. unfold adj_ow, held in *.
      destruct (is_owner (mx s) f); destruct o; simpl in *; lia.
    + intros g. fsplit g f; auto. destruct o; auto.
    + intros g tp. fsplit g f; eauto. destruct o; simpl; try discriminate. intros E; inversion E; subst. exact Epm.
    + intros g tp r a [Hi|Hi]; [discriminate|eauto].
    + intros Hn Ho Hb. apply nt_cons in Hn. destruct (m_live0 Hn Ho Hb) as (g & Hg1 & Hg2).
      exists g. split; auto. fsplit g f; auto. rewrite Ep in Hg2. contradiction.
  - (* run *)
    destruct (running (fib (kn s) f)) eqn:Er; [|discriminate]. unfold run_step in Hs.
    destruct (pcs s f) as [|  |e| | | | |tp|tp|tp e|tp e] eqn:Ep; try discriminate.
    + inversion Hs; subst s'. apply minv_run_lock; auto.
    + (* LockWait *)
      inversion Hs; subst s'; clear Hs. destruct I.
      destruct (kinv_resume _ _ _ f 0 e m_k0 Er ltac:(cbv beta; now rewrite Ep)) as [Hl K].
      simpl in Hl.
      unfold suspend_and_wait_end. rewrite Hl. simpl.
      constructor; simpl; auto.
      * eapply kinv_pcw; [|reflexivity]. apply kinv_kassert; auto.
      * intros g. specialize (m_in0 g). fsplit g f; auto. rewrite Ep in m_in0. auto.
      * intros g. specialize (m_ow0 g). fsplit g f; auto. rewrite Ep in m_ow0. auto.
      * intros g. fsplit g f; auto. now rewrite m_pend0, Ep.
      * intros g tp. fsplit g f; eauto. discriminate.
      * intros Hn Ho Hb. destruct (m_live0 Hn Ho Hb) as (g & Hg1 & Hg2). exists g. split; auto.
        fsplit g f; auto. simpl. auto.
    + inversion Hs; subst s'. apply minv_run_try; auto.
    + (* TryYield *)
      inversion Hs; subst s'; clear Hs. destruct I. constructor; simpl; auto.
      * apply kinv_pc; [|rewrite Ep; auto]. apply kinv_yield; auto.
      * intros g. specialize (m_in0 g). fsplit g f; auto. rewrite Ep in m_in0. auto.
      * intros g. specialize (m_ow0 g). fsplit g f; auto. rewrite Ep in m_ow0. auto.
      * intros g. fsplit g f; auto. now rewrite m_pend0, Ep.
      * intros g tp. fsplit g f; eauto. discriminate.
      * intros Hn Ho (b & Hb).
        assert (b <> f) by (intros ->; destruct Hb as [_ Hb]; unfold yield in Hb; simpl in Hb; updt; simpl in Hb; discriminate).
        destruct (m_live0 Hn Ho) as (g & Hg1 & Hg2).
        { exists b. revert Hb. unfold yield; simpl. now updt. }
        exists g. assert (g <> f) by (intros ->; rewrite Ep in Hg2; contradiction).
        unfold yield; simpl. updt. auto.
    + (* TryCheck *)
      inversion Hs; subst s'; clear Hs.
      pose proof I as I0. destruct I.
      pose proof (m_ow0 f) as Xo. pose proof (m_in0 f) as Xi.
      unfold adj_in, adj_ow, held in Xo, Xi. rewrite Ep in Xo, Xi.
      destruct (is_owner (mx s) f) eqn:Eo.
      * constructor; simpl; auto.
        -- apply kinv_pc; auto. now rewrite Ep.
        -- intros g. specialize (m_in0 g). unfold adj_in, held in *. fsplit g f; auto. rewrite Eo in *. simpl. lia.
        -- intros g. specialize (m_ow0 g). unfold adj_ow, held in *. fsplit g f; auto. rewrite Eo in *. simpl. lia.
        -- intros g. fsplit g f; auto.
        -- split; auto. destruct (recursive mk); auto. right. split; eauto. lia.
        -- intros g tp. fsplit g f; eauto. discriminate.
        -- intros g tp r a [E|Hi]; [discriminate|eauto].
        -- own. intros; congruence.
      * apply minv_ret_plain; auto; rewrite ?Ep; auto; unfold adj_in, adj_ow; rewrite ?Eo; auto; try discriminate; try contradiction.
        simpl. destruct (recursive mk); [right; split; auto; lia|]. right. split; eauto. lia.
    + inversion Hs; subst s'. apply minv_run_unlock; auto.
    + (* UntilTop *)
      destruct (Nat.ltb_spec tp (now (kn s))); inversion Hs; subst s'; clear Hs.
      * apply minv_ret_plain; auto; rewrite ?Ep; auto; unfold adj_in, adj_ow; rewrite ?Ep; dow; try discriminate; eauto.
        all: simpl; try (right; split; auto; lia).
      * apply minv_goto; auto; rewrite Ep; auto.
    + inversion Hs; subst s'. apply minv_run_until; auto.
    + (* UntilWait *)
      destruct (wait_until_result (kn s) tp) eqn:Ew; inversion Hs; subst s'; clear Hs; destruct I.
      * constructor; simpl; auto.
        -- eapply kinv_pcw; [|reflexivity].
           eapply kinv_resume_until; eauto. cbv beta. now rewrite Ep.
        -- intros g. specialize (m_in0 g). fsplit g f; auto. rewrite Ep in m_in0. auto.
        -- intros g. specialize (m_ow0 g). fsplit g f; auto. rewrite Ep in m_ow0. auto.
        -- intros g. fsplit g f; auto. now rewrite m_pend0, Ep.
        -- intros g tp'. fsplit g f; eauto. intros _. apply (m_kind0 f tp). now rewrite Ep.
        -- intros Hn Ho Hb. destruct (m_live0 Hn Ho Hb) as (g & Hg1 & Hg2). exists g. split; auto.
           fsplit g f; auto. simpl. auto.
      * constructor; simpl; auto.
        -- eapply kinv_pcw; [|reflexivity].
           eapply kinv_timeout; eauto. cbv beta. now rewrite Ep.
        -- intros g. specialize (m_in0 g). fsplit g f; auto. rewrite Ep in m_in0. auto.
        -- intros g. specialize (m_ow0 g). fsplit g f; auto. rewrite Ep in m_ow0. auto.
        -- intros g. fsplit g f; auto. now rewrite m_pend0, Ep.
        -- intros g tp'. fsplit g f; eauto. intros _. apply (m_kind0 f tp). now rewrite Ep.
        -- intros Hn Ho Hb. destruct (m_live0 Hn Ho Hb) as (g & Hg1 & Hg2). exists g. split; auto.
           fsplit g f; auto. simpl. auto.
    + (* UntilRelock *)
      inversion Hs; subst s'; clear Hs. destruct I.
      pose proof (kinv_relock _ _ _ f 0 tp e m_k0 Er ltac:(cbv beta; now rewrite Ep)) as K.
      assert (Htp : tp <= now (kn s)).
      { pose proof (ki_f _ _ _ m_k0 f) as F. unfold fok in F. rewrite Ep in F. simpl in F. tauto. }
      constructor; simpl; auto.
      * eapply kinv_pcw; [|reflexivity]. eapply KInv_ext; [exact K| |]; auto. apply qsof_upd.
      * intros g. specialize (m_in0 g). unfold adj_in, held, is_owner in *. simpl. fsplit g f; auto. rewrite Ep in m_in0. auto.
      * intros g. specialize (m_ow0 g). unfold adj_ow, held, is_owner in *. simpl. fsplit g f; auto. rewrite Ep in m_ow0. auto.
      * intros g. fsplit g f; auto.
      * intros g tp'. fsplit g f; eauto. discriminate.
      * intros g tp' r a [E|Hi]; eauto. inversion E; subst. apply (m_kind0 g tp'). now rewrite Ep.
      * intros Hn. exfalso. apply (Hn f tp (now (kn s))). now left.
  - (* yield *)
    destruct (pcs s f) eqn:Ep; try discriminate.
    destruct (running (fib (kn s) f)) eqn:Er; [|discriminate].
    inversion Hs; subst s'; clear Hs. destruct I. constructor; simpl; auto.
    + apply kinv_yield; auto.
    + intros Hn Ho (b & Hb).
      assert (b <> f) by (intros ->; destruct Hb as [_ Hb]; unfold yield in Hb; simpl in Hb; updt; simpl in Hb; discriminate).
      destruct (m_live0 Hn Ho) as (g & Hg1 & Hg2).
      { exists b. revert Hb. unfold yield; simpl. now updt. }
      exists g. assert (g <> f) by (intros ->; rewrite Ep in Hg2; contradiction).
      unfold yield; simpl. updt. auto.
  - (* contend *)
    destruct (pcs s f) eqn:Ep; try discriminate.
    destruct (running (fib (kn s) f)) eqn:Er; [|discriminate].
    inversion Hs; subst s'; clear Hs. destruct I. constructor; simpl; auto.
    + apply kinv_yield; auto.
    + intros Hn Ho _. exists f. split; [|now rewrite Ep]. unfold yield; simpl. updt. now right.
Qed.

Theorem minv_reachable mk s : reachable (step mk) init s -> MInv mk s.
Proof. apply reachable_inv; [apply minv_init | intros; eapply minv_step; eauto]. Qed.

(** Every step appends at most one event. *)
Lemma step_log mk s l s' : step mk s l = Some s' -> log s' = log s \/ exists e, log s' = e :: log s.
Proof.
  intros Hs. destruct l as [kl|f o|f|f|f]; simpl in Hs.
  - destruct (kstep (kn s) kl); inversion Hs; auto.
  - destruct (pcs s f); try discriminate. destruct (running (fib (kn s) f) && permitted mk o); inversion Hs; simpl; eauto.
  - destruct (running (fib (kn s) f)); [|discriminate]. unfold run_step in Hs.
    destruct (pcs s f) as [|  |e| | | | |tp|tp|tp e|tp e]; try discriminate; inversion Hs; subst; clear Hs; simpl; eauto.
    + unfold lock_step. destruct (is_owner (mx s) f); [destruct (recursive mk); simpl; eauto|].
      destruct (is_free (mx s)); simpl; eauto.
    + unfold try_step. destruct (recursive mk), (is_owner (mx s) f), (is_free (mx s)); simpl; eauto.
    + unfold unlock_step, release. destruct (notify_one (kn s) (waiters (mx s))).
      destruct (is_owner (mx s) f), (recursive mk), (Nat.eqb (pred (count (mx s))) 0); simpl; eauto.
    + destruct (Nat.ltb tp (now (kn s))); inversion H0; simpl; eauto.
    + unfold until_step. destruct (recursive mk && is_owner (mx s) f); simpl; eauto.
      destruct (is_free (mx s)); simpl; eauto.
    + destruct (wait_until_result (kn s) tp); inversion H0; simpl; eauto.
  - destruct (pcs s f); try discriminate. destruct (running (fib (kn s) f)); inversion Hs; auto.
  - destruct (pcs s f); try discriminate. destruct (running (fib (kn s) f)); inversion Hs; auto.
Qed.

Lemma log_ok_split mk h1 f o r a h0 : log_ok mk (h1 ++ ERet f o r a :: h0) -> ret_ok mk h0 f o r a.
Proof. induction h1 as [|[g o'|g o' r' a'] h1 IH]; simpl; intros H; try apply H; apply IH; apply H. Qed.

Lemma owner_owned mk s : MInv mk s -> (forall g, owned (log s) g = 0) ->
  (forall g, pending (log s) g <> Some TryLock) -> owner (mx s) = None.
Proof.
  intros I Ho Hp. destruct (owner (mx s)) as [g|] eqn:E; auto. exfalso.
  pose proof (m_ow _ _ I g) as X. rewrite Ho in X. unfold adj_ow, held in X.
  rewrite (proj2 (is_owner_spec _ _) E) in X.
  specialize (Hp g). rewrite (m_pend _ _ I g) in Hp.
  assert (1 <= (if recursive mk then count (mx s) else 1)).
  { destruct (recursive mk) eqn:Er; auto. apply (m_cnt _ _ I); auto. congruence. }
  destruct (pcs s g); simpl in *; try lia; congruence.
Qed.

Lemma pending_idle mk s f : MInv mk s -> pending (log s) f = None -> pcs s f = Idle.
Proof. intros I H. rewrite (m_pend _ _ I) in H. destruct (pcs s f); simpl in H; congruence. Qed.

Lemma no_lost_wakeup mk s f :
  MInv mk s -> no_timed_failure (log s) -> blocked (kn s) f ->
  exists g, owned (log s) g > 0 \/ (runnable (kn s) g /\ pending (log s) g <> None).
Proof.
  intros I Hn Hb. destruct (owner (mx s)) as [g|] eqn:E.
  - exists g. pose proof (m_ow _ _ I g) as X. unfold adj_ow, held in X.
    rewrite (proj2 (is_owner_spec _ _) E) in X.
    assert (1 <= (if recursive mk then count (mx s) else 1)).
    { destruct (recursive mk) eqn:Er; auto. apply (m_cnt _ _ I); auto. congruence. }
    pose proof (ki_f _ _ _ (m_k _ _ I) g) as F. unfold fok in F. destruct F as (_ & _ & F).
    rewrite (m_pend _ _ I).
    destruct (pcs s g); simpl in *; try (left; lia); right; split; try apply F; discriminate.
  - destruct (m_live _ _ I Hn E) as (g & Hg1 & Hg2); [now exists f|].
    exists g. right. split; auto. rewrite (m_pend _ _ I). destruct (pcs s g); simpl in *; try contradiction; discriminate.
Qed.
