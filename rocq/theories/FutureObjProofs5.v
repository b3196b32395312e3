(** Invariants of FutureObj.v, part 5: the log satisfies its specification. *)
From Coq Require Import List Arith Bool Lia.
From Verif Require Import Base Kernel SharedState FutureObj FutureObjSpec FutureObjFacts FutureObjProofs FutureObjProofs2 FutureObjProofs3 FutureObjProofs4.
Import ListNotations.

Section Proofs.
Context {V E : Type}.
Notation state := (state V E).
Notation op := (op V E).
Notation instr := (instr V E).
Notation frame := (frame V E).
Notation event := (event V E).
Notation outcome := (outcome V E).
Notation fres := (fres V E).

(** Instructions that neither log nor block nor change the result. *)
Definition quiet1 (i : instr) : bool := match i with ICopy _ _ | ISwap _ _ | IMoveO _ _ | ISwapO _ _ | IDrop _ | IFree _ | INotify _ => true | _ => false end.
Definition quiet (p : list instr) : Prop := forallb quiet1 p = true.

(** How far the operation of [f] is before its result is decided. [i0]: the state its subject referred to when it was called. *)
Definition nostore (h : list event) (f : fid) (j : sid) : Prop := forall y, ~ In (FStore f j y) (since h f).
Definition pre (s : state) (f : fid) (o : op) (p : list instr) (i0 : option sid) : Prop :=
  let P := pget (ptr s) in let h := log s in
  match o with
  | New l => p = [INew l]
  | Destroy l => p = [IDtor l] /\ P l = i0 /\ owner l = true
  | MoveAssign d a => d <> a /\ owner d = true /\
      (((p = [IMoveO (T0 f) a; ISwapO d (T0 f); IDtor (T0 f)] \/ p = [ISwapO d (T0 f); IDtor (T0 f)]) /\ P d = refers (before h f) d) \/
       (p = [IDtor (T0 f)] /\ P (T0 f) = refers (before h f) d))
  | GetFuture l d => exists j q, i0 = Some j /\ p = IObtain l :: q /\ quiet q /\ P l = Some j /\ obt s l = false /\ ~ obtained (before h f) j
  | SetV l v => exists j, i0 = Some j /\ p = [ISet l (OVal v)] /\ P l = Some j /\ nostore h f j
  | SetE l e => exists j, i0 = Some j /\ p = [ISet l (OExc (option_map User e))] /\ P l = Some j /\ nostore h f j
  | Invoke l => exists j, i0 = Some j /\ P l = Some j /\ nostore h f j /\ ((p = [IRun l] /\ execs (since h f) f = []) \/ exists x, execs (since h f) f = [(j, x)] /\ p = [ISet l x])
  | Reset l => exists j q, i0 = Some j /\ p = q ++ [IReset l (T2 f); IDrop (T2 f); IDrop (T1 f)] /\ P l = Some j /\
      (q = [ICopy (T1 f) l; INew (T2 f)] \/ q = [INew (T2 f)] \/ q = [])
  | GetF l => exists j, i0 = Some j /\
      match l with
      | HF _ => (p = [ISwap (T1 f) l; IWait (T1 f) o; IDrop (T1 f)] /\ P l = Some j) \/ (p = [IWait (T1 f) o; IDrop (T1 f)] /\ P (T1 f) = Some j)
      | _ => p = [IWait l o] /\ P l = Some j
      end
  | WaitF l | GetExcF l => exists j, i0 = Some j /\ p = [IWait l o] /\ P l = Some j
  | WaitUntilF l => exists j, i0 = Some j /\ p = [IWaitT l] /\ P l = Some j
  | _ => False
  end.
Definition efr (s : state) (f : fid) (o : op) (r : fres) (p : list instr) (i0 : option sid) : Prop :=
  (quiet p /\ ret_ok (log s) f o i0 r) \/ (r = FOk /\ pre s f o p i0).

Record IE (s : state) : Prop := {
  e_pend : forall f, frames s f = None <-> pend (log s) f = None;
  e_fr : forall f fr, frames s f = Some fr -> exists i0, pend (log s) f = Some (fop fr, i0) /\ efr s f (fop fr) (fresult fr) (fprog fr) i0;
  e_ok : fobj_ok (log s) }.

(** ** The log grows *)
Definition about (f : fid) (e : event) : bool :=
  match e with FCall g _ _ | FRet g _ _ => Nat.eqb g f | _ => false end.
Lemma grow_since (e : event) h f x : about f e = false -> In x (since h f) -> In x (since (e :: h) f).
Proof. destruct e; simpl; auto. intros ->. simpl. auto. Qed.
Lemma grow_before (e : event) h f : about f e = false -> before (e :: h) f = before h f.
Proof. destruct e; simpl; auto. now intros ->. Qed.
Lemma grow_pend (e : event) h f : about f e = false -> pend (e :: h) f = pend h f.
Proof. destruct e; simpl; auto; now intros ->. Qed.
Lemma grow_nostore (e : event) h f j : about f e = false -> (forall x, e <> FStore f j x) -> (forall y, ~ In (FStore f j y) (since h f)) ->
  forall y, ~ In (FStore f j y) (since (e :: h) f).
Proof.
  intros Ha Hn H y X. destruct e; simpl in X; try (destruct X as [X|X]; [discriminate X|eapply H; eauto]).
  - simpl in Ha. rewrite Ha in X. destruct X as [X|X]; [discriminate X|eapply H; eauto].
  - destruct X as [X|X]; [eapply Hn; eauto|eapply H; eauto].
Qed.
Lemma grow_stored (e : event) h j x : stored h j = Some x -> stored (e :: h) j = Some x.
Proof. destruct e; simpl; auto. now intros ->. Qed.
Lemma before_stored (h : list event) f j : stored h j = None -> stored (before h f) j = None.
Proof.
  induction h as [|e h IH]; auto. destruct e; simpl; auto.
  - destruct (Nat.eqb f0 f); auto.
  - destruct (stored h j) eqn:Es; [discriminate|auto].
Qed.
Lemma before_obtained (h : list event) f j : obtained (before h f) j -> obtained h j.
Proof.
  induction h as [|e h IH]; auto. intros H. assert (X : obtained h j -> obtained (e :: h) j) by (intros (g & Y); exists g; now right).
  destruct e; simpl in H; auto. destruct (Nat.eqb f0 f); auto.
Qed.

Definition more (h h' : list event) (f : fid) : Prop :=
  h' = h \/ exists e, h' = e :: h /\ about f e = false /\ (forall j x, e <> FStore f j x) /\ (forall j x, e <> FExec f j x).
Lemma more_since (h h' : list event) f x : more h h' f -> In x (since h f) -> In x (since h' f).
Proof. intros [->|(e & -> & L1 & _)]; auto. now apply grow_since. Qed.
Lemma more_before (h h' : list event) f : more h h' f -> before h' f = before h f.
Proof. intros [->|(e & -> & L1 & _)]; auto. now apply grow_before. Qed.
Lemma more_nostore (h h' : list event) f j : more h h' f -> nostore h f j -> nostore h' f j.
Proof. intros [->|(e & -> & L1 & L2 & _)] H; auto. unfold nostore. apply grow_nostore; auto. Qed.
Lemma more_execs (h h' : list event) f : more h h' f -> execs (since h' f) f = execs (since h f) f.
Proof.
  intros [->|(e & -> & L1 & _ & L2)]; auto. destruct e; simpl; auto.
  - simpl in L1. now rewrite L1.
  - destruct (Nat.eqb_spec f0 f) as [->|]; auto. exfalso. eapply L2; eauto.
Qed.
Lemma more_stored (h h' : list event) f j x : more h h' f -> stored h j = Some x -> stored h' j = Some x.
Proof. intros [->|(e & -> & _)]; auto. apply grow_stored. Qed.
Lemma more_stored2 (h h' : list event) f j : more h h' f -> stored h j <> None -> stored h' j <> None.
Proof. intros M X. destruct (stored h j) as [x|] eqn:Ex; [|congruence]. rewrite (more_stored _ _ _ _ _ M Ex). discriminate. Qed.
Lemma more_set (h h' : list event) f j x r : more h h' f -> set_ok h f j x r -> set_ok h' f j x r.
Proof.
  intros M [[X Y]|(X & Y & Z)]; [left; split; auto; eapply more_since; eauto|right; splits; auto].
  - eapply more_stored2; eauto.
  - eapply more_nostore; eauto.
Qed.
Lemma more_ret (h h' : list event) f o i r : more h h' f -> ret_ok h f o i r -> ret_ok h' f o i r.
Proof.
  intros M. pose proof (more_before _ _ _ M) as Mb. destruct o; simpl; unfold left_ok; auto; try (destruct i as [j|]; auto); rewrite ?Mb, ?(more_execs _ _ _ M); auto.
  1-4: intros [H1 H2]; split; auto; intros; try discriminate; eapply more_stored2; eauto.
  - intros [H|(H1 & H2 & H3)]; auto. right. splits; auto. eapply more_since; eauto.
  - apply more_set; auto.
  - apply more_set; auto.
  - intros (x & H1 & H2). exists x. split; [auto|eapply more_set; eauto].
  - intros [H1 H2]. split; auto. eapply more_since; eauto.
  - intros (x & H1 & H2). exists x. split; auto. eapply more_stored; eauto.
  - intros (x & H1 & H2). exists x. split; auto. eapply more_stored; eauto.
  - intros [[H1 H2]|H]; auto. left. split; auto. eapply more_stored2; eauto.
  - intros (x & H1 & H2). exists x. split; auto. eapply more_stored; eauto.
Qed.

(** [s'] is [s] with more log and with the objects of [f] untouched. *)
Definition grown (s s' : state) (f : fid) (o : op) : Prop :=
  more (log s) (log s') f /\
  (forall l, acc f o l -> pget (ptr s') l = pget (ptr s) l) /\
  (forall l, In (l, Obt) (uses_of o) -> obt s' l = obt s l).

Lemma efr_grown (s s' : state) f o r p i0 : grown s s' f o -> efr s f o r p i0 -> efr s' f o r p i0.
Proof.
  intros (L & Hp & Ho) [[H1 H2]|[H1 H2]]; [left; split; auto; eapply more_ret; eauto|right; split; auto].
  assert (Au : forall l m, In (l, m) (uses_of o) -> acc f o l) by (intros l m X; left; eauto).
  assert (At0 : acc f o (T0 f)) by (right; left; auto). assert (At1 : acc f o (T1 f)) by (right; right; left; auto).
  assert (As : forall l m, In (l, m) (uses_of o) -> pget (ptr s') l = pget (ptr s) l) by eauto.
  assert (Ns : forall j, nostore (log s) f j -> nostore (log s') f j) by (intros; eapply more_nostore; eauto).
  pose proof (more_before _ _ _ L) as Mb.
  destruct o; cbn [pre uses_of] in *; auto.
  - (* MoveAssign *) rewrite Mb, (As d Excl), (Hp (T0 f)) by (simpl; auto). auto.
  - (* Destroy *) rewrite (As l Excl) by (simpl; auto). auto.
  - (* GetFuture *) rewrite Mb, (As h Obt), Ho by (simpl; auto). auto.
  - rewrite (As h Read) by (simpl; auto). destruct H2 as (j & H3 & H4 & H5 & H6). eauto 6.
  - rewrite (As h Read) by (simpl; auto). destruct H2 as (j & H3 & H4 & H5 & H6). eauto 6.
  - rewrite (As h Read) by (simpl; auto). rewrite (more_execs _ _ _ L). destruct H2 as (j & H3 & H4 & H5 & H6); exists j; splits; auto.
  - rewrite (As h Excl) by (simpl; auto). auto.
  - destruct H2 as (j & H3 & H4). exists j. split; auto.
    destruct l; try (rewrite (As _ Read) by (simpl; auto); auto; fail). rewrite (As (HF n) Excl), (Hp (T1 f)) by (simpl; auto). auto.
  - rewrite (As l Read) by (simpl; auto). auto.
  - rewrite (As l Read) by (simpl; auto). auto.
  - rewrite (As l Read) by (simpl; auto). auto.
Qed.

Lemma istep_ev (s : state) f o r i rest s' : istep s f o r i rest s' ->
  log s' = log s \/ exists e, log s' = e :: log s /\ (forall g, about g e = false) /\ (forall g j x, e = FStore g j x \/ e = FExec g j x -> g = f).
Proof.
  intros Hi. destruct Hi as [x H|l' j -> Hp Hr ->]; [|auto].
  destruct i; cbn [exec_instr] in H;
    repeat match goal with
    | K : context [match pget (ptr s) ?l with _ => _ end] |- _ => destruct (pget (ptr s) l) eqn:?
    | K : context [match result s ?l with _ => _ end] |- _ => destruct (result s l) eqn:?
    | K : context [if obt s ?l then _ else _] |- _ => destruct (obt s l) eqn:?
    | K : context [match x with _ => _ end] |- _ => destruct x eqn:?
    | K : context [if Nat.eqb (cnt s ?a) ?b then _ else _] |- _ => destruct (Nat.eqb_spec (cnt s a) b) as [?Ec|?Ec]
    end; try discriminate H; apply some_inj in H; subst s'; simpl; auto;
    right; eexists; (split; [reflexivity|]); (split; [reflexivity|]); intros; destruct H; congruence.
Qed.

(** Quiet instructions. *)
Lemma istep_quiet (s : state) f o r i rest s' : quiet1 i = true -> IB s -> frames s f = Some (mkFrame o r (i :: rest)) -> istep s f o r i rest s' -> quiet rest ->
  (log s' = log s \/ exists j, i = IFree j /\ log s' = FFree f j :: log s) /\ exists p', frames s' f = Some (mkFrame o r p') /\ quiet p'.
Proof.
  intros Hq B Hf Hi Hr. destruct (next_ok s f o r i rest B Hf (next s)) as (m1 & L1). unfold quiet in *.
  destruct Hi as [x H|l' j -> Hp _ ->]; [|discriminate].
  destruct i; try discriminate Hq; cbn [exec_instr linstr] in H, L1;
    repeat match goal with
    | K : context [match pget (ptr s) ?l with _ => _ end] |- _ => destruct (pget (ptr s) l) eqn:?
    | K : context [if Nat.eqb (cnt s ?a) ?b then _ else _] |- _ => destruct (Nat.eqb_spec (cnt s a) b) as [?Ec|?Ec]
    end; try discriminate H; try discriminate L1; apply some_inj in H; subst s'; simpl; rewrite ?upd_same;
    (split; [eauto|eexists; split; [reflexivity|simpl; auto]]).
Qed.

Lemma since_cons (e : event) h f : about f e = false -> since (e :: h) f = e :: since h f.
Proof. destruct e; simpl; auto. now intros ->. Qed.

(** The step of the fiber itself. *)
Lemma ie_own (s : state) f o r i rest s' i0 : IA s -> IB s -> IC s -> ID s -> IE s -> frames s f = Some (mkFrame o r (i :: rest)) -> istep s f o r i rest s' ->
  pend (log s) f = Some (o, i0) -> efr s f o r (i :: rest) i0 ->
  (exists r' p', frames s' f = Some (mkFrame o r' p') /\ efr s' f o r' p' i0) /\ fobj_ok (log s').
Proof.
  intros A B C D IEs Hf Hi Hp [[Hq Hr]|[-> Hr]].
  { unfold quiet in Hq. simpl in Hq. apply andb_true_iff in Hq. destruct Hq as [Hq1 Hq2].
    destruct (istep_quiet _ _ _ _ _ _ _ Hq1 B Hf Hi Hq2) as (L & p' & F' & Q'). split.
    - exists r, p'. split; auto. left. split; auto. eapply more_ret; eauto. destruct L as [L|(j & _ & L)]; rewrite L; [left; auto|right].
      eexists. splits; eauto; discriminate.
    - destruct L as [L|(j & -> & L)]; rewrite L; [apply (e_ok _ IEs)|]. simpl. split; [|apply (e_ok _ IEs)].
      assert (Fi : freeing s f j) by (unfold freeing; eauto). destruct (c_pf _ C _ _ Fi) as (_ & Z2 & Z3). split; [now apply (d_clt _ D)|].
      rewrite (d_flt _ D). congruence. }
  pose proof (e_ok _ IEs) as Ok.
  assert (Bk : forall l, owner l = true -> obt s l = true -> forall j, pget (ptr s) l = Some j -> obtained (log s) j).
  { intros l Hl Ho j Hj. apply (d_obt _ D l Hl) in Ho. destruct Ho as (k & X & Y). congruence. }
  (* IDtor *)
  assert (Dt : forall l, i = IDtor l -> rest = [] -> owner l = true -> (forall h, before h f = before (log s) f -> (forall j, pget (ptr s) l = Some j -> obtained (log s) j -> stored h j <> None) -> ret_ok h f o i0 FOk) ->
     (forall j, pget (ptr s) l = Some j -> obtained (log s) j -> may_store (log s) f j (OExc (Some Broken))) ->
     (exists r' p', frames s' f = Some (mkFrame o r' p') /\ efr s' f o r' p' i0) /\ fobj_ok (log s')).
  { intros l -> -> Hl Hret Hms. destruct Hi as [x H|l' j' [=] _ _ _]. cbn [exec_instr] in H.
    assert (G : forall (t : state) p, log t = log s -> s' = cont t f o FOk p -> quiet p -> (forall j, pget (ptr s) l = Some j -> obtained (log s) j -> stored (log s) j <> None) ->
       (exists r' p', frames s' f = Some (mkFrame o r' p') /\ efr s' f o r' p' i0) /\ fobj_ok (log s')).
    { intros t p Lt -> Hq Hx. simpl. rewrite upd_same. unfold efr. cbn [log cont with_frame]. rewrite Lt. split; auto. eexists _, _. split; [reflexivity|]. left. split; auto. }
    destruct (pget (ptr s) l) as [j|] eqn:Ej; [|apply some_inj in H; eapply G; eauto; [reflexivity|congruence]].
    destruct (obt s l) eqn:Eo.
    - destruct (result s j) eqn:Er; apply some_inj in H.
      + eapply (G (touch s j)); eauto; [reflexivity|]. intros k [= <-] _. rewrite <- (d_res _ D). congruence.
      + subst s'. simpl. rewrite upd_same. split.
        * eexists _, _; split; [reflexivity|left; split; [reflexivity|]]. apply Hret; [reflexivity|]. intros k [= <-] _. simpl. rewrite Nat.eqb_refl. destruct (stored (log s) j); discriminate.
        * splits; auto; [rewrite <- (d_res _ D); auto|]. apply Hms; eauto.
    - apply some_inj in H. eapply G; eauto; [reflexivity|]. intros k [= <-] Hk. exfalso. assert (obt s l = true); [|congruence]. apply (d_obt _ D l Hl). eauto. }
  (* ISet *)
  assert (St : forall l x j, i = ISet l x -> rest = [] -> pget (ptr s) l = Some j -> nostore (log s) f j -> (forall h r, set_ok h f j x r -> more (log s) h f \/ (exists e, h = e :: log s /\ e = FStore f j x) -> ret_ok h f o i0 r) ->
     may_store (log s) f j x -> (exists r' p', frames s' f = Some (mkFrame o r' p') /\ efr s' f o r' p' i0) /\ fobj_ok (log s')).
  { intros l x j -> -> Hj Hn Hret Hms. destruct Hi as [y H|l' j' [=] _ _ _]. cbn [exec_instr] in H. rewrite Hj in H.
    destruct (result s j) eqn:Er; apply some_inj in H; subst s'; simpl; rewrite upd_same; split; auto.
    - eexists _, _. split; [reflexivity|]. left. split; [reflexivity|]. apply Hret; [|left; left; auto]. right. splits; auto. rewrite <- (d_res _ D). simpl. congruence.
    - eexists _, _. split; [reflexivity|]. left. split; [reflexivity|]. apply Hret; [|right; eexists; split; [reflexivity|reflexivity]]. left. split; auto. simpl. auto.
    - splits; auto. rewrite <- (d_res _ D). auto. }
  (* IWait *)
  assert (Wt : forall l j, i = IWait l o -> quiet rest -> pget (ptr s) l = Some j -> (forall x, stored (log s) j = Some x -> ret_ok (log s) f o i0 (read_result o x)) ->
     (exists r' p', frames s' f = Some (mkFrame o r' p') /\ efr s' f o r' p' i0) /\ fobj_ok (log s')).
  { intros l j -> Hq Hj Hret. destruct Hi as [y H|l' j' [=] _ _ _]. cbn [exec_instr] in H. rewrite Hj in H.
    destruct (result s j) eqn:Er; [|discriminate]. apply some_inj in H; subst s'; simpl; rewrite upd_same; split; auto.
    eexists _, _. split; [reflexivity|]. left. split; [auto|]. apply Hret. now rewrite <- (d_res _ D). }
  destruct o; cbn [pre] in Hr; try contradiction Hr.
  - (* New *) injection Hr as -> ->. destruct Hi as [y H|l' j' [=] _ _ _]. cbn [exec_instr] in H. apply some_inj in H. subst s'. simpl. rewrite upd_same. split.
    + eexists _, _. split; [reflexivity|]. left. split; reflexivity.
    + splits; auto. * intros X. apply (d_clt _ D) in X. lia. * eexists _, _. split; eauto. simpl. auto.
  - (* MoveAssign *) destruct Hr as (N & Ow & [[[X|X] Y]|[X Y]]); injection X as -> ->.
    + destruct Hi as [y H|l' j' [=] _ _ _]. cbn [exec_instr] in H. apply some_inj in H. subst s'. split; auto.
      eexists _, _. split; [simpl; rewrite upd_same; reflexivity|]. right. split; auto. cbn [pre ptr cont with_frame with_obt with_ptr log]. splits; auto.
      left. split; auto. rewrite <- Y, pget_pset, updl_other by auto. rewrite pget_pset. apply updl_other.
      intros ->. discriminate (uses_user _ _ Excl (a_typed _ A _ _ Hf) (or_introl eq_refl)).
    + destruct Hi as [y H|l' j' [=] _ _ _]. cbn [exec_instr] in H. apply some_inj in H. subst s'. split; auto.
      eexists _, _. split; [simpl; rewrite upd_same; reflexivity|]. right. split; auto. cbn [pre ptr cont with_frame with_obt with_ptr log]. splits; auto.
      right. split; auto. rewrite <- Y, pget_pswap. apply updl_same.
    + apply (Dt (T0 f)); auto; [intros h' Hb Hx; simpl; split; auto; intros _ _ j Hj Hj'; rewrite Hb in Hj, Hj'; apply Hx; [congruence|eapply before_obtained; eauto]|]. intros j Hj Ho. eexists _, _. split; eauto. simpl. splits; auto. congruence.
  - (* Destroy *) destruct Hr as (X & Y & Ow). injection X as -> ->. apply (Dt l); auto; [intros h' Hb Hx; simpl; split; auto; intros _ j Hj Hj'; rewrite Hb in Hj'; apply Hx; [congruence|eapply before_obtained; eauto]|].
    intros j Hj Ho. eexists _, _. split; eauto. simpl. splits; auto. congruence.
  - (* GetFuture *) destruct Hr as (j & q & -> & X & Q & Pj & Ob & Nb). injection X as -> ->.
    destruct Hi as [y H|l' j' [=] _ _ _]. cbn [exec_instr] in H. rewrite Pj in H. apply some_inj in H. subst s'. simpl. rewrite upd_same. split.
    + eexists _, _. split; [reflexivity|]. left. split; auto. simpl. right. splits; auto.
    + splits; eauto. intros X. assert (obt s h = true); [|congruence]. apply (d_obt _ D); eauto. eapply obtain_owner; eauto.
  - (* SetV *) destruct Hr as (j & -> & X & Y & Z). injection X as -> ->. eapply St; eauto. eexists _, _. split; eauto. simpl. auto.
  - (* SetE *) destruct Hr as (j & -> & X & Y & Z). injection X as -> ->. eapply St; eauto. eexists _, _. split; eauto. simpl. auto.
  - (* Invoke *) destruct Hr as (j & -> & Y & Z & [[X Ex]|(x & Ex & X)]); injection X as -> ->.
    + destruct Hi as [y H|l' j' [=] _ _ _]. cbn [exec_instr] in H. rewrite Y in H. destruct y as [x|]; [|discriminate]. apply some_inj in H. subst s'. split.
      * eexists _, _. split; [simpl; rewrite upd_same; reflexivity|]. right. split; auto. simpl. exists j. splits; auto.
        -- intros y [K|K]; [discriminate|]. eapply Z; eauto.
        -- right. exists x. rewrite Nat.eqb_refl, Ex. auto.
      * simpl. split; eauto.
    + eapply St; eauto.
      * intros h' r' S M. simpl. exists x. split; auto. destruct M as [M|(e & -> & ->)]; [|simpl; auto]. now rewrite (more_execs _ _ _ M).
      * eexists _, _. split; eauto. simpl. eauto.
  - (* Reset *) destruct Hr as (j & q & -> & X & Y & [-> |[-> | ->]]); simpl in X; injection X as -> ->.
    + destruct Hi as [y H|l' j' [=] _ _ _]. cbn [exec_instr] in H. rewrite Y in H. apply some_inj in H. subst s'. split; auto.
      eexists _, _. split; [simpl; rewrite upd_same; reflexivity|]. right. split; auto. cbn [pre ptr cont with_frame with_obt with_ptr with_cnt touch with_ub log].
      exists j, [INew (T2 f)]. splits; auto. rewrite pget_pset, updl_other; auto.
      intros ->. discriminate (uses_user _ _ Excl (a_typed _ A _ _ Hf) (or_introl eq_refl)).
    + destruct Hi as [y H|l' j' [=] _ _ _]. cbn [exec_instr] in H. apply some_inj in H. subst s'. split.
      * eexists _, _. split; [simpl; rewrite upd_same; reflexivity|]. right. split; auto. cbn [pre ptr cont with_frame with_obt with_ptr with_cnt touch with_ub log].
        exists j. exists []. splits; eauto. rewrite pget_pset, updl_other; auto.
        intros ->. discriminate (uses_user _ _ Excl (a_typed _ A _ _ Hf) (or_introl eq_refl)).
      * simpl. splits; auto. -- intros X. apply (d_clt _ D) in X. lia. -- eexists _, _. split; eauto. simpl. auto.
    + destruct Hi as [y H|l' j' [=] _ _ _]. cbn [exec_instr] in H. rewrite Y in H. apply some_inj in H. subst s'. split.
      * eexists _, _. split; [simpl; rewrite upd_same; reflexivity|]. left. split; [reflexivity|]. simpl. auto.
      * simpl. split; eauto.
  - (* GetF *) destruct Hr as (j & -> & X). destruct l; try (destruct X as [X Y]; injection X as -> ->; eapply Wt; eauto; [reflexivity|intros x Hx; simpl; eauto]; fail).
    destruct X as [[X Y]|[X Y]]; injection X as -> ->; [|eapply Wt; eauto; [reflexivity|intros x Hx; simpl; eauto]].
    destruct Hi as [y H|l' j' [=] _ _ _]. cbn [exec_instr] in H. apply some_inj in H. subst s'. split; auto.
    eexists _, _. split; [simpl; rewrite upd_same; reflexivity|]. right. split; auto. cbn [pre ptr cont with_frame with_obt with_ptr with_cnt touch with_ub log].
    exists j. split; auto. right. split; auto. rewrite pget_pswap, updl_other by discriminate. now rewrite updl_same.
  - (* WaitF *) destruct Hr as (j & -> & X & Y). injection X as -> ->. eapply Wt; eauto; [reflexivity|]. intros x Hx. simpl. eauto.
  - (* WaitUntilF *) destruct Hr as (j & -> & X & Y). injection X as -> ->.
    destruct Hi as [y H|l' j' [= <-] X1 X2 ->].
    + cbn [exec_instr] in H. rewrite Y in H. destruct (result s j) eqn:Er; [|discriminate]. apply some_inj in H. subst s'. simpl. rewrite upd_same. split; auto.
      eexists _, _. split; [reflexivity|]. left. split; [reflexivity|]. simpl. left. split; auto. rewrite <- (d_res _ D). congruence.
    + assert (j' = j) as -> by congruence. simpl. rewrite upd_same. split; auto.
      eexists _, _. split; [reflexivity|]. left. split; [reflexivity|]. simpl. right. split; auto. apply before_stored. rewrite <- (d_res _ D). auto.
  - (* GetExcF *) destruct Hr as (j & -> & X & Y). injection X as -> ->. eapply Wt; eauto; [reflexivity|]. intros x Hx. simpl. eauto.
Qed.

Lemma owner_subject (o : op) : typed o = true -> match o with GetFuture h _ => owner h = true | _ => True end.
Proof. destruct o; simpl; auto. destruct h, d; simpl; auto; discriminate. Qed.

Lemma compile_efr (s s' : state) f o i : ID s -> typed o = true -> ptr s' = ptr s -> obt s' = obt s -> log s' = FCall f o i :: log s -> i = pget (ptr s) (subject o) ->
  (forall l m, In (l, m) (uses_of o) -> pget (ptr s) l = refers (log s) l) ->
  efr s' f o (fst (compile s f o)) (snd (compile s f o)) i.
Proof.
  intros D Ht Hp Ho Hl Hi Hv.
  assert (Si : since (log s') f = []) by (rewrite Hl; simpl; now rewrite Nat.eqb_refl).
  assert (Be : before (log s') f = log s) by (rewrite Hl; simpl; now rewrite Nat.eqb_refl).
  assert (Ns : forall j, nostore (log s') f j) by (intros j y; rewrite Si; simpl; auto).
  assert (Re : refers (log s') = refers (log s)) by (rewrite Hl; reflexivity).
  unfold efr. pose proof (owner_subject o Ht) as Os.
  destruct o; cbn [compile subject] in *; rewrite <- ?Hi; try (left; split; [reflexivity|reflexivity]; fail); try (right; split; [reflexivity|reflexivity]; fail).
  - left. split; [|reflexivity]. simpl. now destruct (owner d).
  - cbn [fst snd]. destruct (loc_eqb_spec d s0) as [->|Hne]; [left; split; [reflexivity|simpl; split; [auto|congruence]]|].
    destruct (owner d) eqn:Eo; [|left; split; [reflexivity|simpl; split; [auto|congruence]]].
    right. split; auto. cbn [pre]. splits; auto. left. split; auto. rewrite Hp, Be. apply (Hv d Excl). simpl. auto.
  - left. split; [|reflexivity]. simpl. now destruct (loc_eqb d s0).
  - cbn [fst snd]. destruct (owner l) eqn:Eo; [|left; split; [reflexivity|simpl; split; [auto|congruence]]]. right. split; auto. cbn [pre]. rewrite Hp. auto.
  - destruct (obt s h) eqn:Eo.
    + left. split; [reflexivity|]. simpl. apply (d_obt _ D h Os) in Eo. destruct Eo as (j & X & Y). rewrite X in Hi. subst i. left. split; auto. now rewrite Be.
    + destruct i as [j|]; [|left; split; reflexivity]. right. split; [reflexivity|]. cbn [pre fst snd]. exists j. eexists. splits; eauto.
      * destruct h; reflexivity. * congruence. * congruence.
      * rewrite Be. intros X. assert (obt s h = true); [|congruence]. apply (d_obt _ D h Os). eauto.
  - destruct i as [j|]; [|left; split; reflexivity]. right. split; [reflexivity|]. cbn [pre fst snd]. exists j. splits; auto. congruence.
  - destruct i as [j|]; [|left; split; reflexivity]. right. split; [reflexivity|]. cbn [pre fst snd]. exists j. splits; auto. congruence.
  - destruct i as [j|]; [|left; split; reflexivity]. right. split; [reflexivity|]. cbn [pre fst snd]. exists j. splits; auto; [congruence|]. left. split; auto. now rewrite Si.
  - destruct i as [j|]; [|left; split; reflexivity]. right. split; [reflexivity|]. cbn [pre fst snd]. exists j, [ICopy (T1 f) h; INew (T2 f)]. splits; auto. congruence.
  - destruct i as [j|]; left; split; reflexivity.
  - destruct i as [j|]; [|left; split; reflexivity]. right. split; [destruct l; reflexivity|]. cbn [pre]. exists j. split; auto. rewrite Hp, <- Hi. destruct l; auto.
  - destruct i as [j|]; [|left; split; reflexivity]. right. split; [reflexivity|]. cbn [pre fst snd]. exists j. splits; auto. congruence.
  - destruct i as [j|]; [|left; split; reflexivity]. right. split; [reflexivity|]. cbn [pre fst snd]. exists j. splits; auto. congruence.
  - destruct i as [j|]; [|left; split; reflexivity]. right. split; [reflexivity|]. cbn [pre fst snd]. exists j. splits; auto. congruence.
  - left. split; [reflexivity|]. simpl. now destruct i.
Qed.

Lemma ie_kstep (s s' : state) : IA s -> IB s -> IC s -> ID s -> IE s -> kstep s s' -> IE s'.
Proof.
  intros A B C D IEs [f o Hf Ha ->|f o r Hf ->|f o r i rest Hf Hi].
  - destruct (allowed_spec _ _ Ha) as (Ht & Hl & Hc).
    assert (Va : forall l m, In (l, m) (uses_of o) -> pget (ptr s) l = refers (log s) l).
    { intros l m Hu. apply (b_val _ B); [eapply uses_user; eauto|]. intros g Hg. pose proof (Hc _ _ _ _ Hu Hg) as X.
      destruct (conflict_excl m) as [_ Y]. congruence. }
    assert (Ab : forall g, g <> f -> about g (FCall f o (pget (ptr s) (subject o)) : event) = false).
    { intros g Hne. simpl. destruct (Nat.eqb_spec f g); congruence. }
    constructor; cbn [frames log].
    + intros g. unfold upd. destruct (Nat.eqb_spec g f) as [->|Hne]; [simpl; rewrite Nat.eqb_refl; split; discriminate|]. rewrite grow_pend by auto. apply IEs.
    + intros g fr Hg. unfold upd in Hg. destruct (Nat.eqb_spec g f) as [->|Hne].
      * injection Hg as <-. cbn [fop fresult fprog]. eexists. split; [simpl; rewrite Nat.eqb_refl; reflexivity|]. eapply (compile_efr s); eauto.
      * destruct (e_fr _ IEs _ _ Hg) as (i0 & P1 & P2). exists i0. rewrite grow_pend by auto. split; auto. eapply efr_grown; [|exact P2].
        unfold grown. cbn [ptr obt log]. splits; auto. right. eexists. splits; eauto; discriminate.
    + cbn [fobj_ok]. splits; [now apply (e_pend _ IEs)| |apply (e_ok _ IEs)].
      destruct (subject_user o Ht) as (m & Hm). eapply Va; eauto.
  - destruct (e_fr _ IEs _ _ Hf) as (i0 & P1 & P2). cbn [fop fresult fprog] in P1, P2.
    assert (Ab : forall g, g <> f -> about g (FRet f o r : event) = false).
    { intros g Hne. simpl. destruct (Nat.eqb_spec f g); congruence. }
    constructor; cbn [frames log].
    + intros g. unfold upd. destruct (Nat.eqb_spec g f) as [->|Hne]; [simpl; rewrite Nat.eqb_refl; tauto|]. rewrite grow_pend by auto. apply IEs.
    + intros g fr Hg. unfold upd in Hg. destruct (Nat.eqb_spec g f) as [->|Hne]; [discriminate|].
      destruct (e_fr _ IEs _ _ Hg) as (i1 & Q1 & Q2). exists i1. rewrite grow_pend by auto. split; auto. eapply efr_grown; [|exact Q2].
      unfold grown. cbn [ptr obt log]. splits; auto.
      right. eexists. splits; eauto; discriminate.
    + cbn [fobj_ok]. split; [|apply (e_ok _ IEs)]. exists i0. split; auto. destruct P2 as [[_ P2]|[_ P2]]; auto. exfalso.
      destruct o; cbn [pre] in P2; repeat match goal with K : ex _ |- _ => destruct K | K : _ /\ _ |- _ => destruct K | K : _ \/ _ |- _ => destruct K end; try discriminate; auto.
      all: match goal with K : match ?l with _ => _ end |- _ => destruct l | K : [] = ?q ++ _ |- _ => destruct q; discriminate K end; repeat match goal with K : _ /\ _ |- _ => destruct K | K : _ \/ _ |- _ => destruct K end; discriminate.
  - destruct (e_fr _ IEs _ _ Hf) as (i0 & P1 & P2). cbn [fop fresult fprog] in P1, P2.
    destruct (ie_own _ _ _ _ _ _ _ _ A B C D IEs Hf Hi P1 P2) as ((r' & p' & F' & Q') & Ok).
    destruct (istep_shape _ _ _ _ _ _ _ Hi) as (_ & _ & Ef & _). destruct (next_ok s f o r i rest B Hf (next s)) as (m1 & L1).
    destruct (istep_lin _ _ _ _ _ _ _ _ Hi L1 (b_nd _ B)) as (_ & R1 & _).
    pose proof (istep_ev _ _ _ _ _ _ _ Hi) as Ev.
    assert (Pe : forall g, pend (log s') g = pend (log s) g).
    { intros g. destruct Ev as [->|(e & -> & E1 & _)]; auto. now apply grow_pend. }
    constructor; auto.
    + intros g. rewrite Pe. destruct (Nat.eq_dec g f) as [->|Hne]; [rewrite F', P1; split; discriminate|]. rewrite Ef by auto. apply IEs.
    + intros g fr Hg. rewrite Pe. destruct (Nat.eq_dec g f) as [->|Hne].
      * rewrite F' in Hg. injection Hg as <-. cbn [fop fresult fprog]. eauto.
      * rewrite Ef in Hg by auto. destruct (e_fr _ IEs _ _ Hg) as (i1 & Q1 & Q2). exists i1. split; auto. eapply efr_grown; [|exact Q2]. unfold grown. splits.
        -- destruct Ev as [->|(e & -> & E1 & E2)]; [left; auto|right]. exists e. splits; auto; intros j x X; assert (g = f); try congruence; eapply E2; eauto.
        -- intros l Hl. eapply other_keep; eauto.
        -- intros l Hl. eapply (other_keep s f o r i rest s' g fr l); eauto. left. eauto.
Qed.

Lemma ie_reachable s : reachable step init s -> IE s.
Proof.
  apply reachable_inv2.
  - constructor; simpl; auto; [tauto|discriminate].
  - intros s1 lb s2 R D H. eapply ie_kstep; eauto using ia_reachable, ib_reachable, ic_reachable, id_reachable, kstep_reachable.
Qed.
End Proofs.
