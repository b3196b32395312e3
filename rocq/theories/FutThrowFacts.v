(** Facts about FutThrow.v for C142. *)
From Coq Require Import List Arith Bool Lia.
From Verif Require Import Base FutThrow FutThrowSpec.
Import ListNotations.

Definition good (r : list event) (e : event) : Prop := ~ In EFree r /\ match e with
  | ESet v => ~ satisfied r
  | EExc x => ~ satisfied r
  | EAlready => satisfied r
  | EGot v => In (ESet v) r
  | ERethrow x => In (EExc x) r
  | EMoveFail _ => exists v, In (ESet v) r
  | EGotBad | EBadDest => False
  | ECons _ => forall w, ~ In (ECons w) r
  | EDest v => In (ECons v) r /\ forall w, ~ In (EDest w) r
  | EFree => forall v, In (ECons v) r -> In (EDest v) r
  | EFail _ => True end.
Fixpoint all_good (l : list event) : Prop := match l with [] => True | e :: r => good r e /\ all_good r end.

Record inv (s : st) : Prop := mkInv {
  i_sat : ready s = true <-> satisfied (log s);
  i_new : ready s = false -> exc s = None;
  i_exc : forall x, exc s = Some x -> In (EExc x) (log s);
  i_obj : freed s = false -> ready s = true -> exc s = None -> exists v, obj s = Some v /\ In (ESet v) (log s) /\ In (ECons v) (log s);
  i_con : forall v, In (ECons v) (log s) -> ready s = true /\ exc s = None /\ (freed s = false -> obj s = Some v);
  i_des : forall v, In (EDest v) (log s) -> freed s = true;
  i_fre : In EFree (log s) -> freed s = true;
  i_log : all_good (log s) }.
Definition quiet (s : st) : Prop := freed s = true -> prov s = false /\ fut s = false /\ shr s = 0.

Definition ev_dec (a b : event) : {a = b} + {a <> b}.
Proof. repeat decide equality. Defined.
Lemma sat_cons e l : satisfied l -> satisfied (e :: l).
Proof. intros (x & X & Y). exists x. split; [right|]; auto. Qed.
Lemma sat_inv e l : satisfied (e :: l) -> match e with ESet _ | EExc _ => True | _ => satisfied l end.
Proof. intros (x & [X|X] & Y); [subst x; destruct e; tauto|]. destruct e; auto; exists x; auto. Qed.

(** Events that change nothing. *)
Lemma add_inv s e : inv s -> good (log s) e -> (match e with ESet _ | EExc _ | ECons _ | EDest _ | EFree => False | _ => True end) -> inv (add s e).
Proof.
  intros I G E. destruct I. constructor; simpl; auto.
  - rewrite i_sat0. split; [apply sat_cons|]. intros H. apply sat_inv in H. destruct e; tauto.
  - intros A B C. destruct (i_obj0 A B C) as (v & V1 & V2 & V3). exists v. auto.
  - intros v [->|H]; [tauto|auto].
  - intros v [->|H]; [tauto|eauto].
  - intros [->|H]; [tauto|auto].
Qed.
Lemma set_exception_inv s x : inv s -> freed s = false -> inv (set_exception_ s x).
Proof.
  intros I F. assert (NF : ~ In EFree (log s)) by (intros H; apply (i_fre _ I) in H; congruence). unfold set_exception_. destruct (ready s) eqn:R.
  - apply add_inv; auto. split; auto. apply (i_sat _ I). auto.
  - destruct I. assert (NS : ~ satisfied (log s)) by (intros H; apply i_sat0 in H; congruence). constructor; simpl; auto; try discriminate.
    + split; auto. intros _. exists (EExc x). simpl. auto.
    + intros y H. injection H as <-. auto.
    + intros v [H|H]; [discriminate|]. destruct (i_con0 _ H). congruence.
    + intros v [H|H]; [discriminate|]. eauto.
    + intros [H|H]; [discriminate|]. auto.
    + split; auto. split; auto.
Qed.
Lemma set_value_inv s v thr : inv s -> freed s = false -> inv (set_value_ s v thr).
Proof.
  intros I F. assert (NF : ~ In EFree (log s)) by (intros H; apply (i_fre _ I) in H; congruence). unfold set_value_. destruct (ready s) eqn:R.
  - apply add_inv; auto. split; auto. apply (i_sat _ I). auto.
  - destruct thr as [x|]; [apply add_inv; simpl; auto; split; auto|]. destruct I. assert (NS : ~ satisfied (log s)) by (intros H; apply i_sat0 in H; congruence).
    assert (NC : forall w, ~ In (ECons w) (log s)) by (intros w H; destruct (i_con0 _ H); congruence).
    constructor; simpl; auto; try discriminate.
    + split; auto. intros _. exists (ESet v). simpl. auto.
    + intros _ _ _. exists v. auto.
    + intros w [H|[H|H]]; [discriminate| |elim (NC _ H)]. injection H as <-. auto.
    + intros w [H|[H|H]]; try discriminate. eauto.
    + intros [H|[H|H]]; try discriminate. auto.
    + splits; auto.
      * split; [intros [H|H]; [discriminate|auto]|]. intros H. apply sat_inv in H. auto.
      * split; auto.
Qed.
(** Changes of the pointers. *)
Lemma ptr_inv s p o f n : inv s -> inv (mkSt (ready s) (exc s) (obj s) p o f n (freed s) (log s)).
Proof. intros []. constructor; simpl; auto. Qed.
Lemma release_inv s : inv s -> freed s = false -> inv (release s) /\ quiet (release s).
Proof.
  intros I F. unfold release, quiet. destruct (prov s || fut s || negb (shr s =? 0)) eqn:P; [split; auto; congruence|]. apply orb_false_iff in P. destruct P as (P & N). apply orb_false_iff in P. destruct P as (P & Q). apply negb_false_iff, Nat.eqb_eq in N.
  split; [|simpl; auto]. assert (NF : ~ In EFree (log s)) by (intros H; apply (i_fre _ I) in H; congruence).
  assert (ND : forall v, ~ In (EDest v) (log s)) by (intros v H; apply (i_des _ I) in H; congruence).
  destruct I. destruct (ready s) eqn:R; simpl.
  - destruct (exc s) as [x|] eqn:E; simpl.
    + constructor; simpl; auto; try discriminate.
      * split; auto. intros _. apply sat_cons, i_sat0. auto.
      * intros v [H|H]; [discriminate|]. destruct (i_con0 _ H) as (_ & A & _). discriminate.
      * split; auto. split; auto. intros v H. destruct (i_con0 _ H) as (_ & A & _). discriminate.
    + destruct (i_obj0 F eq_refl eq_refl) as (v & V1 & V2 & V3). rewrite V1. constructor; simpl; auto; try discriminate.
      * split; auto. intros _. apply sat_cons, sat_cons, i_sat0. auto.
      * intros w [H|[H|H]]; try discriminate. splits; auto; discriminate.
      * splits; auto.
        -- split; [intros [H|H]; [discriminate|auto]|]. intros w [H|H]; [discriminate|]. destruct (i_con0 _ H) as (_ & _ & A). specialize (A F). rewrite V1 in A. injection A as ->. left; auto.
        -- split; auto.
  - assert (NC : forall w, ~ In (ECons w) (log s)) by (intros w H; destruct (i_con0 _ H); congruence). constructor; simpl; auto; try discriminate.
    + split; [discriminate|]. intros H. apply sat_inv in H. apply i_sat0 in H. discriminate.
    + intros v [H|H]; [discriminate|]. elim (NC _ H).
    + split; auto. split; auto. intros v H. elim (NC _ H).
Qed.
Lemma read_inv s g : inv s -> freed s = false -> ready s = true -> (forall v, good (log s) (g v) \/ ~ In (ESet v) (log s)) -> (forall v, match g v with EGot _ | EMoveFail _ => True | _ => False end) -> inv (read s g).
Proof.
  intros I F R G E. assert (NF : ~ In EFree (log s)) by (intros H; apply (i_fre _ I) in H; congruence). unfold read. destruct (exc s) as [x|] eqn:X.
  - apply add_inv; simpl; auto. split; auto. apply (i_exc _ I). auto.
  - destruct (i_obj _ I F R X) as (v & V1 & V2 & _). rewrite V1. specialize (E v). apply add_inv; auto.
    + destruct (G v); tauto.
    + destruct (g v); tauto.
Qed.
Lemma step_inv s l s' : inv s /\ quiet s -> step s l = Some s' -> inv s' /\ quiet s'.
Proof.
  intros (I & Q) H. unfold quiet in Q. assert (NF : freed s = false -> ~ In EFree (log s)) by (intros F W; apply (i_fre _ I) in W; congruence).
  assert (QF : freed s = false -> quiet s) by (intros ? ?; congruence).
  assert (Kv : forall v thr, freed s = false -> inv (set_value_ s v thr) /\ quiet (set_value_ s v thr)).
  { intros v thr F. split; [apply set_value_inv; auto|]. unfold set_value_, quiet. destruct (ready s), thr; simpl; congruence. }
  assert (Ke : forall x, freed s = false -> inv (set_exception_ s x) /\ quiet (set_exception_ s x)).
  { intros x F. split; [apply set_exception_inv; auto|]. unfold set_exception_, quiet. destruct (ready s); simpl; congruence. }
  assert (Pt : freed s = true -> forall b : bool, prov s = b \/ fut s = b -> b = false) by (intros F b W; destruct (Q F) as (A & B & _); destruct W; congruence).
  destruct l; simpl in H.
  - destruct (prov s) eqn:P; inversion H; subst. apply Kv. destruct (freed s); auto; destruct (Q eq_refl); discriminate.
  - destruct (prov s) eqn:P; inversion H; subst. apply Ke. destruct (freed s); auto; destruct (Q eq_refl); discriminate.
  - destruct (prov s) eqn:P; inversion H; subst. assert (F : freed s = false) by (destruct (freed s); auto; destruct (Q eq_refl); congruence).
    unfold run_val. destruct thr as [x|]; [|apply Kv; auto]. destruct (ready s) eqn:R.
    + split; [apply add_inv; simpl; auto; split; auto; apply (i_sat _ I); auto|]. unfold quiet. simpl. congruence.
    + split; [apply set_exception_inv; auto; apply add_inv; simpl; auto; split; auto|]. unfold quiet, set_exception_. simpl. rewrite R. simpl. congruence.
  - destruct (prov s) eqn:P; inversion H; subst. apply Ke. destruct (freed s); auto; destruct (Q eq_refl); discriminate.
  - destruct (prov s) eqn:P; simpl in H; [|discriminate]. destruct (obt s); inversion H; subst. split; [apply ptr_inv; auto|]. unfold quiet. simpl. intros F. destruct (Q F); discriminate.
  - destruct (fut s) eqn:P; simpl in H; [|discriminate]. destruct (ready s) eqn:R; inversion H; subst. assert (F : freed s = false) by (destruct (freed s); auto; destruct (Q eq_refl) as (_ & A & _); discriminate).
    set (g := fun v => match thr with None => EGot v | Some x => EMoveFail x end).
    assert (J : inv (read s g)).
    { apply read_inv; auto.
      - intros v. destruct (in_dec ev_dec (ESet v) (log s)) as [D|D]; auto. left. unfold g, good. destruct thr; split; eauto.
      - intros v. unfold g. destruct thr; auto. }
    apply release_inv; [apply (ptr_inv (read s g) (prov (read s g)) (obt (read s g)) false (shr s)); auto|]. unfold read. simpl. destruct (exc s); auto. destruct (obj s); auto.
  - destruct (fut s) eqn:P; inversion H; subst. split; [apply ptr_inv; auto|]. unfold quiet. simpl. intros F. destruct (Q F) as (_ & A & _). discriminate.
  - destruct (shr s) eqn:P; inversion H; subst. split; [apply ptr_inv; auto|]. unfold quiet. simpl. intros F. destruct (Q F) as (_ & _ & A). discriminate.
  - destruct (shr s) eqn:P; [discriminate|]. destruct (ready s) eqn:R; inversion H; subst. assert (F : freed s = false) by (destruct (freed s); auto; destruct (Q eq_refl) as (_ & _ & A); discriminate). split.
    + apply read_inv; auto. intros v. destruct (in_dec ev_dec (ESet v) (log s)) as [D|D]; auto. left. split; auto.
    + unfold quiet, read. destruct (exc s); simpl; [congruence|]. destruct (obj s); simpl; congruence.
  - destruct (shr s) eqn:P; inversion H; subst. assert (F : freed s = false) by (destruct (freed s); auto; destruct (Q eq_refl) as (_ & _ & A); discriminate).
    apply release_inv; auto. apply ptr_inv; auto.
  - destruct (prov s) eqn:P; inversion H; subst. assert (F : freed s = false) by (destruct (freed s); auto; destruct (Q eq_refl); congruence).
    set (s1 := if obt s then owner_destroyed s else s). assert (J : inv s1 /\ freed s1 = false).
    { unfold s1, owner_destroyed. destruct (obt s); auto. destruct (ready s) eqn:R; auto. split; [apply set_exception_inv; auto|]. unfold set_exception_. rewrite R. auto. }
    destruct J as (J & FJ). apply release_inv; auto. apply (ptr_inv s1 false (obt s1) (fut s1) (shr s1)); auto.
  - destruct (fut s) eqn:P; inversion H; subst. assert (F : freed s = false) by (destruct (freed s); auto; destruct (Q eq_refl) as (_ & A & _); discriminate).
    apply release_inv; auto. apply ptr_inv; auto.
Qed.
Lemma reach_inv s : reachable step init_state s -> inv s /\ quiet s.
Proof.
  apply (reachable_inv step (fun s => inv s /\ quiet s)); [|intros; eapply step_inv; eauto]. split; [|unfold quiet; simpl; discriminate]. constructor; simpl; auto; try discriminate; try tauto.
  split; [discriminate|]. intros (e & [] & _).
Qed.
Lemma good_split l1 e l2 : all_good (l1 ++ e :: l2) -> good l2 e.
Proof. induction l1; simpl; tauto. Qed.
Lemma good_in l e : all_good l -> In e l -> exists l1 l2, l = l1 ++ e :: l2 /\ good l2 e.
Proof. intros G H. apply in_split in H. destruct H as (l1 & l2 & ->). exists l1, l2. split; auto. eapply good_split; eauto. Qed.
