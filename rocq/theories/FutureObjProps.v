(** C29, C31-C35, C63: theorems about promises, packaged tasks and futures. *)
From Coq Require Import List Arith Bool Lia.
From Verif Require Import Base Kernel SharedState FutureObj FutureObjSpec FutureObjFacts FutureObjProofs FutureObjProofs2 FutureObjProofs3 FutureObjProofs4 FutureObjProofs5.
Import ListNotations.

Section Props.
Context {V E : Type}.
Notation state := (state V E).
Notation event := (event V E).
Notation op := (op V E).
Notation fres := (fres V E).

Lemma fobj_split (h1 h0 : list event) : fobj_ok (h1 ++ h0) -> fobj_ok h0.
Proof. induction h1 as [|e h1 IH]; simpl; auto. intros [_ H]. auto. Qed.
Lemma stored_app (u v : list event) i x : stored v i = Some x -> stored (u ++ v) i = Some x.
Proof. induction u as [|e u IH]; simpl; auto. intros H. apply (grow_stored e). auto. Qed.
Lemma store_stored (u v : list event) f i x : stored (u ++ FStore f i x :: v) i <> None.
Proof.
  assert (X : exists y, stored (FStore f i x :: v) i = Some y).
  { simpl. rewrite Nat.eqb_refl. destruct (stored v i); eauto. }
  destruct X as (y & X). rewrite (stored_app u _ _ _ X). discriminate.
Qed.
Lemma returned (s : state) h2 f o r h1 : reachable step init s -> log s = h2 ++ FRet f o r :: h1 -> exists i, pend h1 f = Some (o, i) /\ ret_ok h1 f o i r.
Proof. intros R El. pose proof (e_ok _ (ie_reachable _ R)) as L. rewrite El in L. apply fobj_split in L. apply L. Qed.

(** ** C29: per shared state one outcome is stored, by an operation that may store it. *)
Theorem C29_objects : forall (s : state) h2 f i x h1, reachable step init s -> log s = h2 ++ FStore f i x :: h1 ->
  stored h1 i = None /\ may_store h1 f i x /\ (forall g y, ~ In (FStore g i y) h2) /\ stored (log s) i = Some x /\ result s i = Some x.
Proof.
  intros s h2 f i x h1 R El. pose proof (e_ok _ (ie_reachable _ R)) as L. rewrite El in L. pose proof (fobj_split _ _ L) as L1. simpl in L1. destruct L1 as ((A & B) & _).
  assert (S : stored (log s) i = Some x).
  { rewrite El. apply stored_app. simpl. now rewrite A, Nat.eqb_refl. }
  splits; auto; [|now rewrite (d_res _ (id_reachable _ R))].
  intros g y Hi. apply in_split in Hi. destruct Hi as (u & v & ->). rewrite <- app_assoc in L. apply fobj_split in L. simpl in L. destruct L as ((X & _) & _).
  eapply (store_stored v h1 f i x); eauto.
Qed.
(** set_value()/set_exception() store their outcome, or fail with promise_already_satisfied, changing nothing, or have no state. *)
Theorem C29_set : forall (s : state) h2 f l v e r h1, reachable step init s ->
  (log s = h2 ++ FRet f (SetV l v) r :: h1 -> exists i, pend h1 f = Some (SetV l v, i) /\
     match i with None => r = FUninit | Some j => set_ok h1 f j (OVal v) r end) /\
  (log s = h2 ++ FRet f (SetE l e) r :: h1 -> exists i, pend h1 f = Some (SetE l e, i) /\
     match i with None => r = FUninit | Some j => set_ok h1 f j (OExc (option_map User e)) r end).
Proof. intros s h2 f l v e r h1 R. split; intros El; apply (returned _ _ _ _ _ _ R El). Qed.

(** ** C30, for future objects: get()/wait()/get_exception_ptr() return only what is stored in the shared state. *)
Theorem C30_objects : forall (s : state) h2 f o r h1 l, reachable step init s -> log s = h2 ++ FRet f o r :: h1 ->
  o = GetF l \/ o = WaitF l \/ o = GetExcF l ->
  exists i, pend h1 f = Some (o, i) /\ match i with None => r = FUninit | Some j => exists x, stored h1 j = Some x /\ result s j = Some x /\ r = read_result o x end.
Proof.
  intros s h2 f o r h1 l R El Ho. destruct (returned _ _ _ _ _ _ R El) as (i & P & Q). exists i. split; auto.
  assert (G : forall j x, stored h1 j = Some x -> result s j = Some x).
  { intros j x Hx. rewrite (d_res _ (id_reachable _ R)), El. apply (stored_app h2). simpl. auto. }
  destruct Ho as [->|[->| ->]]; simpl in Q; destruct i as [j|]; auto; destruct Q as (x & Q1 & Q2); eauto.
Qed.

(** What the readers of a future return, spelled out: get() gives the value or throws the stored exception, get_exception_ptr() gives null or the stored exception, wait() just returns. *)
Theorem C30_read : forall (s : state) h2 f o r h1 l j, reachable step init s -> log s = h2 ++ FRet f o r :: h1 -> pend h1 f = Some (o, Some j) ->
  (forall v, result s j = Some (OVal v) -> (o = GetF l -> r = FVal v) /\ (o = GetExcF l -> r = FEPtr None) /\ (o = WaitF l -> r = FOk)) /\
  (forall e, result s j = Some (OExc (Some e)) -> (o = GetF l -> r = FThrow e) /\ (o = GetExcF l -> r = FEPtr (Some e)) /\ (o = WaitF l -> r = FOk)).
Proof.
  intros s h2 f o r h1 l j R El P.
  assert (G : o = GetF l \/ o = WaitF l \/ o = GetExcF l -> exists x, result s j = Some x /\ r = read_result o x).
  { intros Ho. destruct (C30_objects _ _ _ _ _ _ _ R El Ho) as (i & P' & Q). rewrite P in P'. injection P' as <-. destruct Q as (x & _ & Q1 & Q2). eauto. }
  split; intros z Z; (split; [|split]); intros ->; destruct G as (x & G1 & G2); auto; rewrite Z in G1; injection G1 as <-; exact G2.
Qed.

(** ** C31 *)
(** When ~promise()/~packaged_task() or a move assignment over it has returned and the future of its state had been obtained, the state
    is satisfied. *)
Theorem C31_gone : forall (s : state) h2 f o r h1 i, reachable step init s -> log s = h2 ++ FRet f o r :: h1 ->
  (exists l, o = Destroy l /\ owner l = true /\ refers (before h1 f) l = Some i) \/
  (exists d a, o = MoveAssign d a /\ owner d = true /\ d <> a /\ refers (before h1 f) d = Some i) ->
  obtained (before h1 f) i -> r = FOk /\ stored h1 i <> None.
Proof.
  intros s h2 f o r h1 i R El Ho Hob. pose proof (e_ok _ (ie_reachable _ R)) as L. rewrite El in L. apply fobj_split in L.
  destruct (returned _ _ _ _ _ _ R El) as (i0 & P & Q). destruct Ho as [(l & -> & Hl & Hr)|(d & a & -> & Hd & Hne & Hr)]; simpl in Q; destruct Q as [-> Q]; split; auto.
  - apply Q; auto. simpl in L. destruct L as [_ L]. rewrite <- Hr. clear - P L. revert P L.
    induction h1 as [|e h1 IH]; simpl; [discriminate|]. destruct e; try (intros P [_ L]; auto; fail).
    + destruct (Nat.eqb_spec f0 f) as [->|]; [intros [= -> ->] [[_ L] _]; exact L|intros P [_ L]; auto].
    + destruct (Nat.eqb f0 f); [discriminate|intros P [_ L]; auto].
  - apply Q; auto.
Qed.
(** At all times: a state whose future was obtained is satisfied, or still has its promise or task, or was given up by reset(). *)
Theorem C31_owned : forall (s : state) i, reachable step init s -> obtained (log s) i ->
  stored (log s) i <> None \/ (exists l, owner l = true /\ pget (ptr s) l = Some i) \/ abandoned (log s) i.
Proof. intros s i R H. exact (d_brk _ (id_reachable _ R) i H). Qed.
(** broken_promise is stored only by the destruction of an unsatisfied promise or task whose future was obtained. *)
Theorem C31_broken : forall (s : state) h2 f i h1, reachable step init s -> log s = h2 ++ FStore f i (OExc (Some Broken)) :: h1 ->
  (forall o j, pend h1 f = Some (o, j) -> match o with Invoke _ => False | _ => True end) ->
  stored h1 i = None /\ obtained h1 i /\ exists o j, pend h1 f = Some (o, j) /\ match o with Destroy l => owner l = true | MoveAssign d _ => owner d = true | _ => False end.
Proof.
  intros s h2 f i h1 R El Hi. destruct (C29_objects _ _ _ _ _ _ R El) as (A & (o & j & P & B) & _). specialize (Hi _ _ P). split; auto.
  destruct o; try contradiction.
  - destruct B as (_ & _ & B1 & B2 & _). split; auto. eexists _, _. split; eauto.
  - destruct B as (_ & B1 & B2 & _). split; auto. eexists _, _. split; eauto.
  - destruct B as [_ B]. discriminate.
  - destruct B as [_ B]. destruct e; discriminate.
Qed.

(** ** C32 *)
(** One future per shared state. *)
Theorem C32_once : forall (s : state) h2 f i h1, reachable step init s -> log s = h2 ++ FObt f i :: h1 ->
  ~ obtained h1 i /\ ~ obtained h2 i.
Proof.
  intros s h2 f i h1 R El. pose proof (e_ok _ (ie_reachable _ R)) as L. rewrite El in L. pose proof (fobj_split _ _ L) as L1. simpl in L1. destruct L1 as ((A & _) & _).
  split; auto. intros (g & Hi). apply in_split in Hi. destruct Hi as (u & v & ->). rewrite <- app_assoc in L. apply fobj_split in L. simpl in L. destruct L as ((X & _) & _).
  apply X. exists f. apply in_app_iff. right. now left.
Qed.
(** get_future(): the errors are exact. *)
Theorem C32_get_future : forall (s : state) h2 f l d r h1, reachable step init s -> log s = h2 ++ FRet f (GetFuture l d) r :: h1 ->
  exists i, pend h1 f = Some (GetFuture l d, i) /\
  match i with
  | None => r = FUninit
  | Some j => (r = FAlready /\ obtained (before h1 f) j) \/ (r = FOk /\ ~ obtained (before h1 f) j /\ In (FObt f j) (since h1 f))
  end.
Proof. intros s h2 f l d r h1 R El. apply (returned _ _ _ _ _ _ R El). Qed.
(** An operation that needs a shared state fails exactly if its object has none; valid() tells. *)
Theorem C32_uninit : forall (s : state) h2 f o r h1, reachable step init s -> log s = h2 ++ FRet f o r :: h1 ->
  exists i, pend h1 f = Some (o, i) /\
  match o with
  | GetFuture _ _ | SetV _ _ | SetE _ _ | Invoke _ | Reset _ | Share _ _ | GetF _ | WaitF _ | WaitUntilF _ | GetExcF _ => r = FUninit <-> i = None
  | Valid _ => r = FBool match i with Some _ => true | None => false end
  | _ => r = FOk
  end.
Proof.
  intros s h2 f o r h1 R El. destruct (returned _ _ _ _ _ _ R El) as (i & P & Q). exists i. split; auto.
  destruct o; simpl in Q; try tauto; destruct i as [j|]; try (subst r; tauto); try (split; [|discriminate]; intros ->; exfalso).
  - destruct Q as [[Q _]|[Q _]]; discriminate.
  - destruct Q as [[Q _]|[Q _]]; discriminate.
  - destruct Q as [[Q _]|[Q _]]; discriminate.
  - destruct Q as (x & _ & [[Q _]|[Q _]]); discriminate.
  - destruct Q; discriminate.
  - discriminate.
  - destruct Q as (x & _ & Q). destruct x as [?|[?|]]; discriminate.
  - destruct Q as (x & _ & Q). discriminate.
  - destruct Q as [[Q _]|[Q _]]; discriminate.
  - destruct Q as (x & _ & Q). discriminate.
Qed.
(** The state that the log shows for a call is the one that value semantics ([refers]: construction, copy, move, swap, get, share, reset)
    gives its object; and what the objects refer to in memory is what value semantics says, except for those an operation is working on. *)
Theorem C32_subject : forall (s : state) h2 f o i h1, reachable step init s -> log s = h2 ++ FCall f o i :: h1 -> i = refers h1 (subject o).
Proof. intros s h2 f o i h1 R El. pose proof (e_ok _ (ie_reachable _ R)) as L. rewrite El in L. apply fobj_split in L. apply L. Qed.
Theorem C32_refers : forall (s : state) l, reachable step init s -> user l = true -> (forall f, ~ In (f, l, Excl) (uses s)) ->
  pget (ptr s) l = refers (log s) l.
Proof. intros s l R. apply (b_val _ (ib_reachable _ R)). Qed.
(** When future::get() returns, the future is invalid; shared_future::get() leaves it as it was. *)
Theorem C32_get : forall (s : state) lb s' f r n, reachable step init s -> step s lb = Some s' -> failed r = false ->
  (log s' = FRet f (GetF (HF n)) r :: log s -> pget (ptr s') (HF n) = None) /\
  (log s' = FRet f (GetF (HS n)) r :: log s -> pget (ptr s') (HS n) = refers (log s) (HS n)).
Proof.
  intros s lb s' f r n R Es Hr. pose proof (reachable_step _ _ _ _ _ R Es) as R'. pose proof (ia_reachable _ R) as A.
  assert (G : forall o l m, log s' = FRet f o r :: log s -> In (l, m) (uses_of o) -> pget (ptr s') l = refers (FRet f o r :: log s) l).
  { intros o l m El Hl. rewrite <- El.
    destruct (kstep_reachable _ _ _ R Es) as [g o' Hf Hal ->|g o' r' Hf ->|g o' r' k rest Hf Hi].
    - discriminate El.
    - injection El as -> -> ->. apply C32_refers; auto; [eapply (uses_user o l m); eauto; apply (a_typed _ A _ _ Hf)|].
      intros g Hg. cbn [uses] in Hg. apply filter_In in Hg. destruct Hg as [Hg Hne]. pose proof (a_use _ A _ _ _ _ Hf Hl) as U.
      pose proof (a_conf _ A _ _ _ _ _ Hg U) as X. destruct (conflict_excl m) as [X1 _]. rewrite X1 in X.
      assert (g = f); [|subst; rewrite Nat.eqb_refl in Hne; discriminate]. destruct (Nat.eq_dec g f); auto. specialize (X n0). discriminate X.
    - exfalso. destruct (istep_ev _ _ _ _ _ _ _ Hi) as [Ev|(e & Ev & E1 & _)]; rewrite Ev in El.
      + apply (f_equal (@length _)) in El. simpl in El. lia.
      + injection El as ->. specialize (E1 f). simpl in E1. rewrite Nat.eqb_refl in E1. discriminate. }
  split; intros El.
  - rewrite (G _ (HF n) Excl El) by (simpl; auto). simpl. unfold effect. rewrite Hr. apply updl_same.
  - rewrite (G _ (HS n) Read El) by (simpl; auto). simpl. unfold effect. now rewrite Hr.
Qed.

(** ** C33 *)
(** Invoking a task runs its function once and stores its outcome, or fails with promise_already_satisfied. *)
Theorem C33_invoke : forall (s : state) h2 f l r h1, reachable step init s -> log s = h2 ++ FRet f (Invoke l) r :: h1 ->
  exists i, pend h1 f = Some (Invoke l, i) /\
  match i with None => r = FUninit | Some j => exists x, execs (since h1 f) f = [(j, x)] /\ set_ok h1 f j x r end.
Proof. intros s h2 f l r h1 R El. apply (returned _ _ _ _ _ _ R El). Qed.
(** The function runs only when the task is invoked, and what is stored is its outcome. *)
Theorem C33_exec : forall (s : state) h2 f i x h1, reachable step init s ->
  (log s = h2 ++ FExec f i x :: h1 -> exists l, pend h1 f = Some (Invoke l, Some i)) /\
  (log s = h2 ++ FStore f i x :: h1 -> forall l j, pend h1 f = Some (Invoke l, j) -> j = Some i /\ execs (since h1 f) f = [(i, x)]).
Proof.
  intros s h2 f i x h1 R. split; intros El.
  - pose proof (e_ok _ (ie_reachable _ R)) as L. rewrite El in L. apply fobj_split in L. apply L.
  - intros l j P. destruct (C29_objects _ _ _ _ _ _ R El) as (_ & (o & j' & P' & B) & _). rewrite P in P'. injection P' as <- <-. exact B.
Qed.

(** ** C34: full statement: nobody waits forever on the future of a task after reset(). It is false. *)
(** What holds: reset() is the only way to leave an obtained state without result and without owner. *)
Theorem C34_partial : forall (s : state) i, reachable step init s -> obtained (log s) i -> ~ abandoned (log s) i ->
  stored (log s) i <> None \/ exists l, owner l = true /\ pget (ptr s) l = Some i.
Proof. intros s i R H N. destruct (C31_owned s i R H) as [X|[X|X]]; auto; contradiction. Qed.

(** No running operation can still store something in [i]. *)
Definition no_setter (h : list event) (i : sid) : Prop :=
  forall f o j, pend h f = Some (o, j) ->
  match o with
  | SetV l _ | SetE l _ | Invoke l | Destroy l => owner l = true -> j <> Some i
  | MoveAssign d _ => owner d = true -> refers (before h f) d <> Some i
  | _ => True
  end.
Lemma no_setter_store (h : list event) i f x : no_setter h i -> may_store h f i x ->
  (forall o j, pend h f = Some (o, j) -> typed o = true) -> False.
Proof.
  intros N (o & j & P & B) Ht. specialize (N _ _ _ P). specialize (Ht _ _ P).
  destruct o; simpl in Ht; try contradiction.
  - destruct B as (_ & B1 & B2 & _). apply N; auto.
  - destruct B as (-> & B1 & _). apply N; auto.
  - destruct B as [-> _]; destruct h0; try discriminate Ht; apply N; reflexivity.
  - destruct B as [-> _]; destruct h0; try discriminate Ht; apply N; reflexivity.
  - destruct B as [-> _]; destruct h0; try discriminate Ht; apply N; reflexivity.
Qed.

(** After reset() an unsatisfied state stays unsatisfied for ever, so that every get()/wait() on it that has not returned never returns. *)
Theorem C34_forever : forall (s : state) i ls s', reachable step init s -> abandoned (log s) i -> no_setter (log s) i -> stored (log s) i = None ->
  exec step s ls = Some s' -> stored (log s') i = None.
Proof.
  intros s i ls s' R Ha Hn Hs He.
  assert (G : forall ls s, reachable step init s -> abandoned (log s) i -> no_setter (log s) i -> stored (log s) i = None -> exec step s ls = Some s' -> stored (log s') i = None).
  2: { eapply G; eauto. }
  clear. induction ls as [|lb ls IH]; simpl; intros s R Ha Hn Hs He; [congruence|].
  destruct (step s lb) as [s1|] eqn:Es; [|discriminate].
  pose proof (kstep_reachable _ _ _ R Es) as K. pose proof (reachable_step _ _ _ _ _ R Es) as R1.
  apply (IH s1); auto; clear He IH.
  - destruct Ha as (g & Ha). destruct K as [f o Hf Hal ->|f o r Hf ->|f o r k rest Hf Hi].
    + exists g. now right.
    + exists g. now right.
    + destruct (istep_log _ _ _ _ _ _ _ (ib_reachable _ R) Hf Hi) as (_ & _ & La & _). apply La. left. exists g. auto.
  - intros g o j Hp.
    destruct K as [f o' Hf Hal ->|f o' r Hf ->|f o' r k rest Hf Hi].
    + cbn [log] in *. destruct (Nat.eq_dec g f) as [->|Hne].
      * simpl in Hp. rewrite Nat.eqb_refl in Hp. injection Hp as <- <-.
        assert (Nx : forall l, owner l = true -> pget (ptr s) l <> Some i).
        { intros l Hl X. eapply (d_abn _ (id_reachable _ R)); eauto. split; eauto. }
        destruct o'; auto; intros Ho; try (apply Nx; exact Ho).
        simpl. rewrite Nat.eqb_refl. intros X.
        destruct (allowed_spec _ _ Hal) as (Ht & Hl & Hc).
        assert (Va : pget (ptr s) d = refers (log s) d).
        { apply (b_val _ (ib_reachable _ R)); [eapply (uses_user _ d Excl Ht); simpl; auto|].
          intros g Hg. pose proof (Hc d Excl g Excl (or_introl eq_refl) Hg) as Y. discriminate Y. }
        eapply Nx; eauto. congruence.
      * assert (Ab : about g (FCall f o' (pget (ptr s) (subject o')) : event) = false) by (simpl; destruct (Nat.eqb_spec f g); congruence).
        rewrite grow_pend in Hp by auto. rewrite grow_before by auto. apply (Hn g o j Hp).
    + cbn [log] in *. destruct (Nat.eq_dec g f) as [->|Hne]; [simpl in Hp; rewrite Nat.eqb_refl in Hp; discriminate|].
      assert (Ab : about g (FRet f o' r : event) = false) by (simpl; destruct (Nat.eqb_spec f g); congruence).
      rewrite grow_pend in Hp by auto. rewrite grow_before by auto. apply (Hn g o j Hp).
    + destruct (istep_ev _ _ _ _ _ _ _ Hi) as [Ev|(e & Ev & E1 & _)]; rewrite Ev in *; [apply (Hn g o j Hp)|].
      rewrite grow_pend in Hp by auto. rewrite grow_before by auto. apply (Hn g o j Hp).
  - destruct K as [f o Hf Hal ->|f o r Hf ->|f o r k rest Hf Hi]; auto.
    destruct (istep_ev _ _ _ _ _ _ _ Hi) as [Ev|(e & Ev & E1 & _)]; rewrite Ev; auto.
    destruct e as [| | | |f' i' x| | |]; auto. simpl. rewrite Hs. destruct (Nat.eqb_spec i' i) as [->|]; auto. exfalso.
    destruct (C29_objects s1 [] f' i x (log s) R1 Ev) as (_ & M & _).
    eapply (no_setter_store (log s) i f' x Hn M).
    intros o' j' P. destruct (frames s f') as [fr|] eqn:Ef; [|apply (e_pend _ (ie_reachable _ R)) in Ef; congruence].
    destruct (e_fr _ (ie_reachable _ R) _ _ Ef) as (i0 & P' & _). rewrite P in P'. injection P' as -> ->. apply (a_typed _ (ia_reachable _ R) _ _ Ef).
Qed.

(** A reader of such a state never returns. *)
Theorem C34_stuck : forall (s : state) i f l ls s', reachable step init s -> abandoned (log s) i -> no_setter (log s) i -> stored (log s) i = None ->
  pend (log s) f = Some (GetF l, Some i) -> exec step s ls = Some s' -> pend (log s') f = Some (GetF l, Some i).
Proof.
  intros s i f l ls. induction ls as [|lb ls IH] using rev_ind; intros s' R Ha Hn Hs Hp He; [simpl in He; congruence|].
  apply exec_app in He. destruct He as (s0 & E0 & E1). simpl in E1. destruct (step s0 lb) as [s1|] eqn:Es; [|discriminate]. injection E1 as ->.
  specialize (IH s0 R Ha Hn Hs Hp E0). pose proof (C34_forever _ _ _ _ R Ha Hn Hs E0) as S0.
  assert (R0 : reachable step init s0).
  { destruct R as (l0 & R). exists (l0 ++ ls). apply exec_app. eauto. }
  pose proof (reachable_step _ _ _ _ _ R0 Es) as R1.
  destruct (kstep_reachable _ _ _ R0 Es) as [g o Hf Hal ->|g o r Hf ->|g o r k rest Hf Hi].
  - cbn [log]. simpl. destruct (Nat.eqb_spec g f) as [->|]; auto. apply (e_pend _ (ie_reachable _ R0)) in Hf. congruence.
  - cbn [log]. simpl. destruct (Nat.eqb_spec g f) as [->|]; auto. exfalso.
    destruct (returned _ [] f o r (log s0) R1 eq_refl) as (i0 & P & Q). rewrite IH in P. injection P as <- <-. simpl in Q. destruct Q as (x & Q & _). congruence.
  - destruct (istep_ev _ _ _ _ _ _ _ Hi) as [Ev|(e & Ev & E1 & _)]; rewrite Ev; auto. now rewrite grow_pend.
Qed.

(** ** C35 *)
(** The counter is the number of objects and temporaries that refer to the state (each counted once). *)
Theorem C35_count : forall (s : state) i, reachable step init s -> NoDup (map fst (ptr s)) /\ cnt s i = refs (ptr s) i /\
  (forall l, pget (ptr s) l = Some i -> 0 < cnt s i).
Proof.
  intros s i R. pose proof (ic_reachable _ R) as C. splits; [apply (b_nd _ (ib_reachable _ R))|symmetry; apply (c_cnt _ C)|].
  intros l H. apply (ic_alive _ _ _ C H).
Qed.
(** It is freed once. *)
Theorem C35_once : forall (s : state) h2 f i h1, reachable step init s -> log s = h2 ++ FFree f i :: h1 ->
  created h1 i /\ ~ is_freed h1 i /\ ~ is_freed h2 i.
Proof.
  intros s h2 f i h1 R El. pose proof (e_ok _ (ie_reachable _ R)) as L. rewrite El in L. pose proof (fobj_split _ _ L) as L1. simpl in L1. destruct L1 as ((A & B) & _).
  splits; auto. intros (g & Hi). apply in_split in Hi. destruct Hi as (u & v & ->). rewrite <- app_assoc in L. apply fobj_split in L. simpl in L. destruct L as ((_ & X) & _).
  apply X. exists f. apply in_app_iff. right. now left.
Qed.
(** A freed state is referred to by nobody; one that nobody refers to is freed, or a fiber is just about to free it. *)
Theorem C35_freed : forall (s : state) i, reachable step init s ->
  (is_freed (log s) i -> forall l, pget (ptr s) l <> Some i) /\
  (created (log s) i -> (forall l, pget (ptr s) l <> Some i) -> is_freed (log s) i \/ exists f o r p, frames s f = Some (mkFrame o r (IFree i :: p))).
Proof.
  intros s i R. pose proof (ic_reachable _ R) as C. pose proof (id_reachable _ R) as D. split.
  - intros H l Hl. apply (d_flt _ D) in H. apply (ic_alive _ _ _ C) in Hl. destruct Hl. congruence.
  - intros H1 H2. apply (d_clt _ D) in H1. rewrite (d_flt _ D). destruct (freed s i) eqn:Ef; auto. right.
    assert (Z : cnt s i = 0).
    { rewrite <- (c_cnt _ C). destruct (refs (ptr s) i) eqn:Er; auto. exfalso. destruct (refs_some (ptr s) i (b_nd _ (ib_reachable _ R))) as (l & Hl); [lia|]. eapply H2; eauto. }
    destruct (c_ex _ C i H1 Z Ef) as (f & o & r & p & X). eauto.
Qed.
(** When no operation is running, the states that exist are exactly those to which an object refers. *)
Theorem C35_quiescent : forall (s : state) i, reachable step init s -> (forall f, frames s f = None) ->
  (created (log s) i /\ ~ is_freed (log s) i) <-> exists l, user l = true /\ refers (log s) l = Some i.
Proof.
  intros s i R Q. pose proof (ic_reachable _ R) as C. pose proof (id_reachable _ R) as D. pose proof (ib_reachable _ R) as B.
  assert (Hu : forall l, user l = true -> pget (ptr s) l = refers (log s) l).
  { intros l Hl. apply (C32_refers s l R Hl). intros f Hf. destruct (a_frame _ (ia_reachable _ R) _ _ _ Hf) as (fr & X & _). rewrite Q in X. discriminate. }
  split.
  - intros [H1 H2]. destruct (refs (ptr s) i) as [|n] eqn:Er.
    + exfalso. destruct (proj2 (C35_freed s i R) H1) as [X|(f & o & r & p & X)]; auto.
      * intros l Hl. apply refs_pos in Hl. lia.
      * rewrite Q in X. discriminate.
    + destruct (refs_some (ptr s) i (b_nd _ B)) as (l & Hl); [lia|]. exists l.
      assert (U : user l = true). { destruct l; auto; exfalso; [rewrite (b_idle _ B f (T0 f)) in Hl|rewrite (b_idle _ B f (T1 f)) in Hl|rewrite (b_idle _ B f (T2 f)) in Hl]; try discriminate; auto; unfold temp; auto. }
      split; auto. rewrite <- Hu; auto.
  - intros (l & U & Hl). rewrite <- Hu in Hl by auto. split; [apply (d_clt _ D); eapply (c_lt _ C); eauto|].
    intros X. eapply (proj1 (C35_freed s i R)); eauto.
Qed.
(** A state is never used after it was freed, and no null pointer is followed. *)
Theorem C35_no_use_after_free : forall s : state, reachable step init s -> ub s = false.
Proof. intros s R. apply (c_ub _ (ic_reachable _ R)). Qed.

(** What counts as the outcome of the function: the value it returns, or the exception it throws. *)
Theorem C33_run : forall (s s' : state) f x, reachable step init s -> step s (LRun f x) = Some s' ->
  exists i, log s' = FExec f i (match x with inl v => OVal v | inr e => OExc (Some (User e)) end) :: log s.
Proof.
  intros s s' f x R St. assert (U : ub s' = false).
  { apply C35_no_use_after_free. eapply reachable_step; eauto. }
  simpl in St. destruct (frames s f) as [[o r [|[] p]]|]; try discriminate. simpl in St.
  destruct (pget (ptr s) l) as [j|]; injection St as <-; [|discriminate]. exists j. simpl. destruct x; reflexivity.
Qed.

(** ** C63: full statement: the function of a task runs at most once per shared state. It is false: a second invocation runs it again. *)
(** What holds: at most one of the executions is stored. *)
Theorem C63_partial : forall (s : state) h2 f i x h1, reachable step init s -> log s = h2 ++ FStore f i x :: h1 ->
  forall g l r h3 h4, h2 = h3 ++ FRet g (Invoke l) r :: h4 -> pend (h4 ++ FStore f i x :: h1) g = Some (Invoke l, Some i) -> g <> f -> r = FSat.
Proof.
  intros s h2 f i x h1 R El g l r h3 h4 -> P Hne.
  rewrite <- app_assoc in El. simpl in El. destruct (C33_invoke _ _ _ _ _ _ R El) as (i0 & P' & Q). rewrite P in P'. injection P' as <-.
  destruct Q as (y & _ & [[_ Q]|[Q _]]); auto. exfalso.
  assert (Sub : In (FStore g i y) (h4 ++ FStore f i x :: h1)).
  { revert Q. clear. generalize (h4 ++ FStore f i x :: h1). intros h. induction h as [|e h IH]; simpl; auto.
    destruct e; simpl; try tauto. destruct (Nat.eqb f0 g); simpl; tauto. }
  apply in_split in Sub. destruct Sub as (u & v & Sub).
  assert (El2 : log s = (h3 ++ FRet g (Invoke l) r :: u) ++ FStore g i y :: v) by (rewrite <- app_assoc; simpl; now rewrite <- Sub).
  destruct (C29_objects _ _ _ _ _ _ R El2) as (A1 & _ & A2 & _).
  assert (In (FStore f i x) (u ++ FStore g i y :: v)) as In2 by (rewrite <- Sub; apply in_app_iff; right; now left).
  apply in_app_iff in In2. destruct In2 as [In2|[In2|In2]].
  - eapply A2. apply in_app_iff. right. right. exact In2.
  - congruence.
  - apply in_split in In2. destruct In2 as (u' & v' & ->). eapply (store_stored u' v' f i x); eauto.
Qed.
End Props.

(** ** Examples *)
Definition run (f : fid) (o : op nat nat) (n : nat) : list (label nat nat) := LCall f o :: repeat (LStep f) n.
Definition invoke (f : fid) (l : loc) (x : nat + nat) (n : nat) : list (label nat nat) := LCall f (Invoke l) :: LRun f x :: repeat (LStep f) n.

(** A promise: get_future() twice, set_value() twice, get() twice. *)
Example C29_objects_ex : exists s : state nat nat, reachable step init s /\
  log s = [FRet 2 (GetF (HF 1)) FUninit; FCall 2 (GetF (HF 1)) None; FRet 2 (GetF (HF 1)) (FVal 7);
           FRet 1 (SetV (HP 1) 8) FSat; FCall 1 (SetV (HP 1) 8) (Some 0);
           FRet 1 (SetV (HP 1) 7) FOk; FStore 1 0 (OVal 7); FCall 1 (SetV (HP 1) 7) (Some 0); FCall 2 (GetF (HF 1)) (Some 0);
           FRet 1 (GetFuture (HP 1) (HF 2)) FAlready; FCall 1 (GetFuture (HP 1) (HF 2)) (Some 0);
           FRet 1 (GetFuture (HP 1) (HF 1)) FOk; FObt 1 0; FCall 1 (GetFuture (HP 1) (HF 1)) (Some 0);
           FRet 1 (New (HP 1)) FOk; FNew 1 0; FCall 1 (New (HP 1)) None].
Proof.
  apply (reach_by _ _ (run 1 (New (HP 1)) 2 ++ run 1 (GetFuture (HP 1) (HF 1)) 3 ++ run 1 (GetFuture (HP 1) (HF 2)) 1 ++ run 2 (GetF (HF 1)) 1 ++
    run 1 (SetV (HP 1) 7) 3 ++ run 1 (SetV (HP 1) 8) 2 ++ [LStep 2; LStep 2; LStep 2] ++ run 2 (GetF (HF 1)) 1)).
  vm_compute. reflexivity.
Qed.
(** The promise is destroyed: broken_promise; the last reference frees the state. *)
Example C31_ex : exists s : state nat nat, reachable step init s /\
  log s = [FRet 2 (GetF (HF 1)) (FThrow Broken); FFree 2 0; FCall 2 (GetF (HF 1)) (Some 0);
           FRet 1 (Destroy (HP 1)) FOk; FStore 1 0 (OExc (Some Broken)); FCall 1 (Destroy (HP 1)) (Some 0);
           FRet 1 (GetFuture (HP 1) (HF 1)) FOk; FObt 1 0; FCall 1 (GetFuture (HP 1) (HF 1)) (Some 0);
           FRet 1 (New (HP 1)) FOk; FNew 1 0; FCall 1 (New (HP 1)) None].
Proof.
  apply (reach_by _ _ (run 1 (New (HP 1)) 2 ++ run 1 (GetFuture (HP 1) (HF 1)) 3 ++ run 1 (Destroy (HP 1)) 4 ++ run 2 (GetF (HF 1)) 5)).
  vm_compute. reflexivity.
Qed.
(** A task is moved over by another one: the future of the first is broken; shared_future copies. *)
Example C31_ex_move : exists s : state nat nat, reachable step init s /\ obtained (log s) 0 /\ stored (log s) 0 = Some (OExc (Some Broken)) /\
  refers (log s) (HT 1) = Some 1 /\ refers (log s) (HT 2) = None /\ refers (log s) (HS 1) = Some 0 /\ refers (log s) (HS 2) = Some 0 /\ refers (log s) (HF 1) = None /\ cnt s 0 = 2.
Proof.
  apply (reach_by _ _ (run 1 (New (HT 1)) 2 ++ run 1 (New (HT 2)) 2 ++ run 1 (GetFuture (HT 1) (HF 1)) 5 ++ run 1 (Share (HF 1) (HS 1)) 3 ++ run 1 (CopyCtor (HS 2) (HS 1)) 2 ++
    run 1 (MoveAssign (HT 1) (HT 2)) 6)).
  vm_compute. splits; auto. exists 1. tauto.
Qed.
(** A task is invoked, its future gives the value. *)
Example C33_ex : exists s : state nat nat, reachable step init s /\
  log s = [FRet 2 (GetF (HF 1)) (FThrow (User 5)); FCall 2 (GetF (HF 1)) (Some 0);
           FRet 1 (Invoke (HT 1)) FOk; FStore 1 0 (OExc (Some (User 5))); FExec 1 0 (OExc (Some (User 5))); FCall 1 (Invoke (HT 1)) (Some 0);
           FRet 1 (GetFuture (HT 1) (HF 1)) FOk; FObt 1 0; FCall 1 (GetFuture (HT 1) (HF 1)) (Some 0);
           FRet 1 (New (HT 1)) FOk; FNew 1 0; FCall 1 (New (HT 1)) None].
Proof.
  apply (reach_by _ _ (run 1 (New (HT 1)) 2 ++ run 1 (GetFuture (HT 1) (HF 1)) 5 ++ invoke 1 (HT 1) (inr 5) 3 ++ run 2 (GetF (HF 1)) 4)).
  vm_compute. reflexivity.
Qed.
(** get_exception_ptr() of the future of a task whose function has thrown. *)
Example C30_read_ex : exists s : state nat nat, reachable step init s /\ result s 0 = Some (OExc (Some (User 5))) /\
  exists h1, log s = FRet 2 (GetExcF (HF 1)) (FEPtr (Some (User 5))) :: h1 /\ pend h1 2 = Some (GetExcF (HF 1), Some 0).
Proof.
  apply (reach_by _ _ (run 1 (New (HT 1)) 2 ++ run 1 (GetFuture (HT 1) (HF 1)) 5 ++ invoke 1 (HT 1) (inr 5) 3 ++ run 2 (GetExcF (HF 1)) 2)).
  vm_compute. splits; auto. eexists. split; reflexivity.
Qed.
(** The state in which the function of a task runs and is about to throw. *)
Example C33_run_ex : exists s : state nat nat, reachable step init s /\ step s (LRun 1 (inr 5)) <> None.
Proof.
  apply (reach_by _ _ (run 1 (New (HT 1)) 2 ++ [LCall 1 (Invoke (HT 1))])). vm_compute. discriminate.
Qed.
(** ** C34 is false: fiber 2 waits for ever in get() on the future of a task that was reset. *)
Theorem C34_refuted : exists s : state nat nat, reachable step init s /\ obtained (log s) 0 /\
  forall ls s', exec step s ls = Some s' -> pend (log s') 2 = Some (GetF (HF 1), Some 0).
Proof.
  assert (G : exists s : state nat nat, reachable step init s /\
    log s = [FRet 1 (Reset (HT 1)) FOk; FAbandon 1 0; FNew 1 1; FCall 1 (Reset (HT 1)) (Some 0); FCall 2 (GetF (HF 1)) (Some 0);
             FRet 1 (GetFuture (HT 1) (HF 1)) FOk; FObt 1 0; FCall 1 (GetFuture (HT 1) (HF 1)) (Some 0);
             FRet 1 (New (HT 1)) FOk; FNew 1 0; FCall 1 (New (HT 1)) None]).
  { apply (reach_by _ _ (run 1 (New (HT 1)) 2 ++ run 1 (GetFuture (HT 1) (HF 1)) 5 ++ run 2 (GetF (HF 1)) 1 ++ run 1 (Reset (HT 1)) 6)). vm_compute. reflexivity. }
  destruct G as (s & R & L). exists s. splits; auto.
  - rewrite L. exists 1. simpl. tauto.
  - intros ls s'. apply C34_stuck; auto; rewrite L.
    + exists 1. simpl. tauto.
    + intros f o j. simpl. destruct f as [|[|[|f]]]; simpl; try discriminate. intros [= <- <-]. exact I.
    + reflexivity.
    + reflexivity.
Qed.
(** ** C63 is false. *)
Theorem C63_refuted : exists s : state nat nat, reachable step init s /\
  log s = [FRet 1 (Invoke (HT 1)) FSat; FExec 1 0 (OVal 8); FCall 1 (Invoke (HT 1)) (Some 0);
           FRet 1 (Invoke (HT 1)) FOk; FStore 1 0 (OVal 7); FExec 1 0 (OVal 7); FCall 1 (Invoke (HT 1)) (Some 0);
           FRet 1 (New (HT 1)) FOk; FNew 1 0; FCall 1 (New (HT 1)) None].
Proof.
  apply (reach_by _ _ (run 1 (New (HT 1)) 2 ++ invoke 1 (HT 1) (inl 7) 3 ++ invoke 1 (HT 1) (inl 8) 2)). vm_compute. reflexivity.
Qed.

(** All of the above at once. *)
Definition all_future_objects := (@C29_objects, @C29_set, @C30_objects, @C31_gone, @C31_owned, @C31_broken, @C32_once, @C32_get_future, @C32_uninit, @C32_subject,
  @C32_refers, @C32_get, @C30_read, @C33_invoke, @C33_run, @C33_exec, @C34_partial, @C34_forever, @C34_stuck, C34_refuted, (@C35_count, @C35_once, @C35_freed, @C35_quiescent, @C35_no_use_after_free, @C63_partial, C63_refuted)).
Print Assumptions all_future_objects.
