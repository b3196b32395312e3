(** C126: a packaged_task whose function uses the packaged_task. *)
From Coq Require Import List Arith Bool Lia.
From Verif Require Import Base PtReent.
Import ListNotations.

(** Number of executions of the function of state i that have not ended. *)
Fixpoint running (i : nat) (l : list event) : nat :=
  match l with [] => 0 | EStart j :: l => if Nat.eqb j i then S (running i l) else running i l | EEnd j :: l => if Nat.eqb j i then pred (running i l) else running i l | _ :: l => running i l end.
(** A function object is neither moved nor destroyed while it is executed. *)
Definition undisturbed (l : list event) : Prop := forall a i b, l = a ++ EMove i :: b \/ l = a ++ EFree i :: b -> running i b = 0.
(** The outcome of the function if all errors of the operations are caught. *)
Fixpoint leaf (p : script) : outcome := match p with Ret v => OVal v | Thr e => OExc (User e) | Do _ _ k => leaf k | Invoke _ _ k => leaf k end.
Fixpoint caught (p : script) : bool := match p with Do _ c k => c && caught k | Invoke q c k => c && caught q && caught k | _ => true end.

(** C126 is false: reset() from the function moves the function object that is executing and, as no future exists, destroys it; the outcome is then stored into a destroyed state. *)
Theorem C126_refuted : exists p s r, call fresh p = (s, r) /\ caught p = true /\ ~ undisturbed (log s) /\ ub s = true.
Proof.
  exists (Do Reset true (Ret 7)). eexists. eexists. split; [vm_compute; reflexivity|]. splits; auto. cbn [log]. intros U.
  specialize (U [EEnd 0] 0 [EMove 0; EStart 0]). simpl in U. specialize (U (or_intror eq_refl)). discriminate.
Qed.
Print Assumptions C126_refuted.
(** The packaged_task is dropped while its function executes: the future gets broken_promise although the function returns 7, and operator() throws promise_already_satisfied. *)
Theorem C126_refuted_broken : exists p s, call fresh p = (s, Some Sat) /\ caught p = true /\ leaf p = OVal 7 /\ fut s 0 = true /\ res s 0 = Some (OExc Broken).
Proof. exists (Do GetFuture true (Do Assign true (Ret 7))). eexists. split; [vm_compute; reflexivity|]. splits; auto. Qed.
Print Assumptions C126_refuted_broken.
(** The function calls the packaged_task: the outcome of the inner call is kept, and the outer call throws promise_already_satisfied. *)
Theorem C126_refuted_nested : exists p s, call fresh p = (s, Some Sat) /\ caught p = true /\ leaf p = OVal 7 /\ res s 0 = Some (OVal 8) /\ ub s = false.
Proof. exists (Invoke (Ret 8) true (Ret 7)). eexists. split; [vm_compute; reflexivity|]. splits; auto. Qed.
Print Assumptions C126_refuted_nested.

(** What holds. First: functions that neither reset, drop nor call the packaged_task. *)
Fixpoint quiet (p : script) : bool := match p with Do o _ k => match o with Reset | Assign => false | _ => true end && quiet k | Invoke _ _ _ => false | _ => true end.
Lemma quiet_body : forall p s i, quiet p = true -> caught p = true -> task s = Some i -> freed s i = false ->
  exists s1, body s p = (s1, leaf p) /\ task s1 = Some i /\ freed s1 i = false /\ res s1 = res s /\ ub s1 = ub s /\
    exists l, log s1 = l ++ log s /\ forall e, In e l -> exists j, e = EFree j /\ j <> i.
Proof.
  induction p as [v|e|o c k IH|q IHq c k IH]; intros s i Q C T F.
  - exists s. splits; auto. exists []. split; auto. intros e [].
  - exists s. splits; auto. exists []. split; auto. intros x [].
  - simpl in Q, C. apply andb_prop in Q, C. destruct Q as [Q1 Q2], C as [-> C2]. cbn [body leaf].
    assert (X : exists s1 r, doop s o = (s1, r) /\ task s1 = Some i /\ freed s1 i = false /\ res s1 = res s /\ ub s1 = ub s /\ exists l, log s1 = l ++ log s /\ forall e, In e l -> exists j, e = EFree j /\ j <> i).
    { assert (NIL : exists l, log s = l ++ log s /\ forall e, In e l -> exists j, e = EFree j /\ j <> i) by (exists []; split; auto; intros e []).
      destruct o as [| | |j]; try discriminate.
      - unfold doop. rewrite T. destruct (obt s); eexists; eexists; splits; eauto.
      - unfold doop. destruct (fut s j) eqn:Fj; [|eexists; eexists; splits; eauto]. eexists. eexists. split; [reflexivity|]. unfold release; cbn [task fut freed res ub log obt nst]. rewrite T, upd_same.
        destruct (Nat.eqb_spec i j) as [->|N]; cbn [orb]; [splits; auto|]. destruct (freed s j) eqn:Fr; cbn [task fut freed res ub log obt nst]; splits; auto.
        + rewrite upd_other; auto.
        + exists [EFree j]. split; auto. intros e [<-|[]]. exists j. auto. }
    destruct X as (s1 & r & E & T1 & F1 & R1 & U1 & l & L1 & P1). rewrite E.
    assert (Y : match r with None => body s1 k | Some x => body s1 k end = body s1 k) by (destruct r; auto). rewrite Y.
    destruct (IH s1 i Q2 C2 T1 F1) as (s2 & B & T2 & F2 & R2 & U2 & l2 & L2 & P2). exists s2. splits; auto; try congruence.
    exists (l2 ++ l). split; [rewrite L2, L1, app_assoc; auto|]. intros e He. apply in_app_or in He. destruct He; auto.
  - discriminate.
Qed.
Theorem C126_partial : forall p s i, quiet p = true -> caught p = true -> task s = Some i -> freed s i = false -> res s i = None ->
  exists s1, call s p = (s1, None) /\ res s1 i = Some (leaf p) /\ ub s1 = ub s /\ exists l, log s1 = l ++ log s /\ (forall j, ~ In (EMove j) l) /\ ~ In (EFree i) l.
Proof.
  intros p s i Q C T F R. unfold call. rewrite T.
  destruct (quiet_body p (with_log s (EStart i)) i Q C T F) as (s1 & B & T1 & F1 & R1 & U1 & l & L1 & P1). rewrite B. unfold finish, with_log in *; cbn [task fut freed res ub log obt nst] in *. rewrite F1, R1, R.
  eexists. split; [reflexivity|]. cbn [task fut freed res ub log obt nst]. splits; auto.
  - apply upd_same.
  - exists (EStore i (leaf p) :: EEnd i :: l ++ [EStart i]). split; [rewrite L1; simpl; rewrite <- app_assoc; auto|]. split.
    + intros j H. simpl in H. destruct H as [H|[H|H]]; try discriminate. apply in_app_or in H. destruct H as [H|[H|[]]]; [|discriminate]. destruct (P1 _ H) as (x & X & _). discriminate.
    + intros H. simpl in H. destruct H as [H|[H|H]]; try discriminate. apply in_app_or in H. destruct H as [H|[H|[]]]; [|discriminate]. destruct (P1 _ H) as (x & X & N). congruence.
Qed.
Print Assumptions C126_partial.
Example C126_case_quiet : let p := Do GetFuture true (Do GetFuture true (Do (Drop 0) true (Thr 3))) in quiet p = true /\ caught p = true /\ task fresh = Some 0 /\ freed fresh 0 = false /\ res fresh 0 = None.
Proof. splits; auto. Qed.

(** Second: the future of the executing state is kept; the function uses the packaged_task as it likes but does not call it. Only dropping the packaged_task before a reset() matters. *)
Fixpoint flat (i : nat) (p : script) : bool := match p with Do (Drop j) _ k => negb (Nat.eqb j i) && flat i k | Do _ _ k => flat i k | Invoke _ _ _ => false | _ => true end.
(** The packaged_task is dropped before it has been reset. *)
Fixpoint dropped (p : script) : bool := match p with Do Assign _ _ => true | Do Reset _ _ => false | Do _ _ k => dropped k | _ => false end.
Record away (s : st) (i : nat) : Prop := { a_fut : fut s i = true; a_free : freed s i = false; a_lt : i < nst s; a_task : forall j, task s = Some j -> j < nst s /\ j <> i }.
Lemma release_away : forall s i j, away s i -> j <> i -> away (release s j) i /\ res (release s j) = res s /\ ub (release s j) = ub s.
Proof.
  intros s i j [A B C D] N. unfold release. destruct (match task s with Some k => Nat.eqb k j | None => false end || fut s j || freed s j) eqn:E; splits; auto; cbn [task fut freed res ub log obt nst]; auto; try (split; auto).
  cbn [freed]. rewrite upd_other; auto.
Qed.
Lemma away_op : forall o s i, match o with Drop j => j <> i | _ => True end -> away s i -> exists s1 r, doop s o = (s1, r) /\ away s1 i /\ res s1 i = res s i /\ ub s1 = ub s.
Proof.
  intros o s i Ho A. assert (A0 := A). destruct A as [A B C D]. destruct o as [| | |j]; unfold doop.
  - destruct (task s) as [k|] eqn:T; [|eexists; eexists; splits; eauto]. destruct (D k eq_refl) as [D1 D2]. eexists. eexists. split; [reflexivity|].
    set (s1 := mkSt (Some (nst s)) false (S (nst s)) (fut s) (res s) (freed s) (ub s) (EMove k :: log s)). assert (A1 : away s1 i) by (split; cbn; auto; intros j E; injection E as <-; lia).
    destruct (release_away s1 i k A1 D2) as (X & Y & Z). splits; auto; try (rewrite Y; auto); try (rewrite Z; auto).
  - destruct (task s) as [k|] eqn:T; [|eexists; eexists; splits; eauto]. destruct (D k eq_refl) as [D1 D2]. eexists. eexists. split; [reflexivity|].
    match goal with |- away (release ?x _) _ /\ _ => set (s1 := x) end.
    assert (A1 : away s1 i) by (unfold s1; split; destruct (obt s); [destruct (res s k)| |destruct (res s k)| |destruct (res s k)| |destruct (res s k)|]; cbn; auto; discriminate).
    assert (R1 : res s1 i = res s i) by (unfold s1; destruct (obt s); [destruct (res s k)|]; cbn; auto; rewrite upd_other; auto).
    assert (U1 : ub s1 = ub s) by (unfold s1; destruct (obt s); [destruct (res s k)|]; cbn; auto).
    destruct (release_away s1 i k A1 D2) as (X & Y & Z). splits; auto; try (rewrite Y; auto); try (rewrite Z; auto).
  - destruct (obt s); [eexists; eexists; splits; eauto|]. destruct (task s) as [k|] eqn:T; [|eexists; eexists; splits; eauto]. eexists. eexists. split; [reflexivity|]. splits; cbn; auto.
    destruct (D k eq_refl) as [D1 D2]. split; cbn; auto; rewrite upd_other; auto.
  - destruct (fut s j) eqn:F; [|eexists; eexists; splits; eauto]. eexists. eexists. split; [reflexivity|].
    set (s1 := mkSt (task s) (obt s) (nst s) (upd (fut s) j false) (res s) (freed s) (ub s) (log s)). assert (A1 : away s1 i) by (split; cbn; auto; rewrite upd_other; auto).
    destruct (release_away s1 i j A1 Ho) as (X & Y & Z). splits; auto; try (rewrite Y; auto); try (rewrite Z; auto).
Qed.
Lemma away_body : forall p s i, flat i p = true -> caught p = true -> away s i -> exists s1, body s p = (s1, leaf p) /\ away s1 i /\ res s1 i = res s i /\ ub s1 = ub s.
Proof.
  induction p as [v|e|o c k IH|q IHq c k IH]; intros s i Q C A; try discriminate; try (exists s; splits; auto; fail).
  simpl in C. apply andb_prop in C. destruct C as [-> C2]. cbn [body leaf].
  assert (H : match o with Drop j => j <> i | _ => True end /\ flat i k = true).
  { destruct o as [| | |j]; simpl in Q; auto. apply andb_prop in Q. destruct Q as [Q1 Q2]. split; auto. apply negb_true_iff, Nat.eqb_neq in Q1. auto. }
  destruct H as [H1 H2]. destruct (away_op o s i H1 A) as (s1 & r & E & A1 & R1 & U1). rewrite E.
  assert (Y : match r with None => body s1 k | Some x => body s1 k end = body s1 k) by (destruct r; auto). rewrite Y.
  destruct (IH s1 i H2 C2 A1) as (s2 & B & A2 & R2 & U2). exists s2. splits; auto; congruence.
Qed.
Record held (s : st) (i : nat) : Prop := { h_task : task s = Some i; h_obt : obt s = true; h_fut : fut s i = true; h_free : freed s i = false; h_lt : i < nst s }.
Lemma held_body : forall p s i, flat i p = true -> caught p = true -> held s i -> res s i = None ->
  exists s1, body s p = (s1, leaf p) /\ freed s1 i = false /\ fut s1 i = true /\ res s1 i = (if dropped p then Some (OExc Broken) else None) /\ ub s1 = ub s.
Proof.
  induction p as [v|e|o c k IH|q IHq c k IH]; intros s i Q C H R; try discriminate; try (exists s; destruct H; splits; auto; fail).
  simpl in C. apply andb_prop in C. destruct C as [-> C2]. assert (H0 := H). destruct H as [T O Fu Fr Lt]. cbn [body leaf].
  destruct o as [| | |j]; simpl in Q; cbn [dropped].
  - unfold doop. rewrite T. set (s1 := mkSt (Some (nst s)) false (S (nst s)) (fut s) (res s) (freed s) (ub s) (EMove i :: log s)).
    assert (E : release s1 i = s1) by (unfold release; subst s1; cbn [task fut freed]; rewrite Fu, orb_true_r; auto). rewrite E.
    assert (A1 : away s1 i) by (split; cbn; auto; intros j X; injection X as <-; lia).
    destruct (away_body k s1 i Q C2 A1) as (s2 & B & A2 & R2 & U2). destruct A2. exists s2. splits; auto. rewrite R2. auto.
  - unfold doop. rewrite T, O, R. cbn [nst fut res freed ub log].
    match goal with |- context [release ?x i] => set (s1 := x) end. assert (E : release s1 i = s1) by (unfold release; subst s1; cbn [task fut freed]; rewrite Fu; auto). rewrite E.
    assert (A1 : away s1 i) by (split; cbn; auto; discriminate).
    destruct (away_body k s1 i Q C2 A1) as (s2 & B & A2 & R2 & U2). destruct A2. exists s2. splits; auto. rewrite R2. cbn. apply upd_same.
  - unfold doop. rewrite O. auto.
  - apply andb_prop in Q. destruct Q as [Q1 Q2]. apply negb_true_iff, Nat.eqb_neq in Q1. unfold doop. destruct (fut s j) eqn:F; [|apply IH; auto].
    set (s1 := mkSt (task s) (obt s) (nst s) (upd (fut s) j false) (res s) (freed s) (ub s) (log s)).
    assert (X : held (release s1 j) i /\ res (release s1 j) i = None /\ ub (release s1 j) = ub s).
    { unfold release. destruct (_ || fut s1 j || freed s1 j); splits; auto; split; subst s1; cbn; auto; rewrite upd_other; auto. }
    destruct X as (X1 & X2 & X3). destruct (IH _ i Q2 C2 X1 X2) as (s2 & B & X). exists s2. split; auto. rewrite <- X3. auto.
Qed.
Theorem C126_kept_future_partial : forall p s i, flat i p = true -> caught p = true -> held s i -> res s i = None ->
  exists s1 r, call s p = (s1, r) /\ freed s1 i = false /\ ub s1 = ub s /\
    (if dropped p then r = Some Sat /\ res s1 i = Some (OExc Broken) else r = None /\ res s1 i = Some (leaf p)).
Proof.
  intros p s i Q C H R. unfold call. rewrite (h_task s i H). assert (H1 : held (with_log s (EStart i)) i) by (destruct H; split; auto).
  destruct (held_body p _ i Q C H1 R) as (s1 & B & F1 & _ & R1 & U1). rewrite B. unfold finish. cbn [with_log freed res]. rewrite F1, R1.
  destruct (dropped p); eexists; eexists; (split; [reflexivity|]); cbn; splits; auto. apply upd_same.
Qed.
Print Assumptions C126_kept_future_partial.
Example C126_case_kept : let s := fst (doop fresh GetFuture) in held s 0 /\ res s 0 = None /\
  (exists s1, call s (Do Reset true (Do GetFuture true (Do Assign true (Ret 7)))) = (s1, None) /\ res s1 0 = Some (OVal 7) /\ res s1 1 = Some (OExc Broken)).
Proof. cbn. split; [split; auto|]. split; auto. eexists. split; [vm_compute; reflexivity|]. auto. Qed.
