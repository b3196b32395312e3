From Coq Require Import List Arith Bool Lia.
From Verif Require Import Base WsProg WsProgSpec.
Import ListNotations.

(** Sums over an initial segment. *)
Fixpoint total (g : nat -> nat) (n : nat) : nat := match n with 0 => 0 | S n' => g n' + total g n' end.
Lemma total_ext g h n : (forall i, i < n -> g i = h i) -> total g n = total h n.
Proof. induction n; simpl; intros H; auto. rewrite H, IHn; auto. Qed.
Lemma total_le g h n : (forall i, i < n -> g i <= h i) -> total g n <= total h n.
Proof. induction n; simpl; intros H; auto. pose proof (H n). assert (total g n <= total h n) by auto. lia. Qed.
Lemma total_upd {A} (w : A -> nat) p i v n : i < n ->
  total (fun j => w (upd p i v j)) n + w (p i) = total (fun j => w (p j)) n + w v.
Proof.
  induction n; intros H; [lia|]. simpl. destruct (Nat.eq_dec i n) as [->|E].
  - rewrite upd_same. rewrite (total_ext _ (fun j => w (p j)) n); [lia|]. intros j J. rewrite upd_other; auto. lia.
  - rewrite upd_other by auto. assert (i < n) by lia. apply IHn in H0. lia.
Qed.
Lemma total_out {A} (w : A -> nat) p i v n : ~ i < n ->
  total (fun j => w (upd p i v j)) n = total (fun j => w (p j)) n.
Proof. intros H. apply total_ext. intros j J. rewrite upd_other; auto. lia. Qed.
Lemma total_pos g n : 0 < total g n -> exists i, i < n /\ 0 < g i.
Proof.
  induction n; simpl; [lia|]. intros H. destruct (Nat.eq_dec (g n) 0); [|exists n; lia].
  destruct IHn as (i & A & B); [lia|]. exists i. lia.
Qed.
Lemma total_in g n i : i < n -> g i <= total g n.
Proof. induction n; simpl; intros H; [lia|]. destruct (Nat.eq_dec i n); [subst; lia|]. assert (i < n) by lia. apply IHn in H0. lia. Qed.

Definition before (p : fpc) : nat := match p with FReady _ | FRun _ | FLock | FDec => 1 | _ => 0 end.
Definition frun (p : fpc) : bool := match p with FReady _ | FDone => false | _ => true end.
Definition fholds (p : fpc) : bool := match p with FDec | FUnl | FUnl0 => true | _ => false end.
Definition last (p : fpc) : bool := match p with FUnl0 | FNotify => true | _ => false end.
Definition fdone (p : fpc) : bool := match p with FDone => true | _ => false end.
Definition mholds (p : mpc) : bool := match p with MCheck | MSplk | MUnl | MUnlEnd => true | _ => false end.
Definition mspl (p : mpc) : bool := match p with MUnl | MEnq => true | _ => false end.
Definition mpos (p : mpc) : bool := match p with MSplk | MUnl => true | _ => false end.
Definition mzero (p : mpc) : bool := match p with MReady | MUnlEnd | MEnd | MExit => true | _ => false end.
Definition mwait (p : mpc) : bool := match p with MWaiting | MEnq => true | _ => false end.
Definition mout (p : mpc) : bool := match p with MExit | MEnd => true | _ => false end.
Definition msusp (p : mpc) : bool := match p with MWaiting | MReady => true | _ => false end.

Fixpoint all_good (n m : nat) (h : list event) : Prop :=
  match h with
  | [] => True
  | EReturn k c :: h' => c = 0 /\ all_good n m h'
  | EProgram :: h' => (forall f, f < m -> ends h' f = 1) /\ (forall k, k <= n -> returns h' k = 1) /\ all_good n m h'
  | _ :: h' => all_good n m h'
  end.

Record inv (n m : nat) (s : st) : Prop := {
  v_cnt : cnt s = total (fun f => before (fp s f)) m;
  v_cur : forall k f, cur s k = Some f <-> frun (fp s f) = true /\ on s f = k;
  v_main : forall k f, cur s k = Some f -> msusp (mains s k) = true;
  v_mf : forall f, mtx s = Some (OF f) <-> fholds (fp s f) = true;
  v_mm : forall k, mtx s = Some (OM k) <-> mholds (mains s k) = true;
  v_sp : forall k, splk s = Some k <-> mspl (mains s k) = true;
  v_pos : forall k, mpos (mains s k) = true -> 0 < cnt s;
  v_zero : forall k, k <= n -> mzero (mains s k) = true -> cnt s = 0;
  v_wait : forall k, mwait (mains s k) = true -> 0 < cnt s \/ exists f, last (fp s f) = true;
  v_last : forall f, last (fp s f) = true -> cnt s = 0;
  v_outf : forall f, m <= f -> fp s f = FDone;
  v_outm : forall k, n < k -> mains s k = MExit;
  v_end0 : forall k, mains s k = MEnd -> k = 0;
  v_ends : forall f, f < m -> ends (log s) f = if fdone (fp s f) then 1 else 0;
  v_rets : forall k, k <= n -> returns (log s) k = if mout (mains s k) then 1 else 0;
  v_prog : programs (log s) = match mains s 0 with MEnd => 1 | _ => 0 end;
  v_good : all_good n m (log s)
}.

Lemma inv_init n m y : inv n m (init n m y).
Proof.
  assert (F : forall f, f < m -> f <? m = true) by (intros; now apply Nat.ltb_lt).
  constructor; simpl; auto.
  - rewrite (total_ext _ (fun _ => 1)); [induction m; simpl; auto; rewrite <- IHm at 1; auto; intros; now apply Nat.ltb_lt|].
    intros i I. now rewrite F.
  - intros k f. split; [discriminate|]. destruct (f <? m); intros [A _]; discriminate.
  - discriminate.
  - intros f. split; [discriminate|]. destruct (f <? m); discriminate.
  - intros k. split; [discriminate|]. destruct (k <=? n); discriminate.
  - intros k. split; [discriminate|]. destruct (k <=? n); discriminate.
  - intros k. destruct (k <=? n); discriminate.
  - intros k K. rewrite (proj2 (Nat.leb_le _ _) K). discriminate.
  - intros k. destruct (k <=? n); discriminate.
  - intros f. destruct (f <? m); discriminate.
  - intros f K. now rewrite (proj2 (Nat.ltb_ge _ _) K).
  - intros k K. now rewrite (proj2 (Nat.leb_gt _ _) K).
  - intros k. destruct (k <=? n); discriminate.
  - intros f K. now rewrite F.
  - intros k K. now rewrite (proj2 (Nat.leb_le _ _) K).
Qed.

Lemma f_lt n m s f : inv n m s -> fp s f <> FDone -> f < m.
Proof. intros I H. destruct (Nat.lt_ge_cases f m); auto. apply (v_outf _ _ _ I) in H0. congruence. Qed.
Lemma k_le n m s k : inv n m s -> mains s k <> MExit -> k <= n.
Proof. intros I H. destruct (Nat.le_gt_cases k n); auto. apply (v_outm _ _ _ I) in H0. congruence. Qed.

Ltac cu := unfold upd; repeat match goal with
  | |- context [Nat.eqb ?a ?b] => destruct (Nat.eqb_spec a b); [subst|]
  end.
Ltac flds := unfold set_f, set_m, set_x, set_p, set_c, leave, emit, notify_all; cbn [cnt mtx splk fp on cur mains log ends returns programs all_good].
Ltac rw P := rewrite P in *; cbn [before frun fholds last fdone mholds mspl mpos mzero mwait mout msusp] in *.

Lemma inv_fib n m s f s' : inv n m s -> fib_step s f = Some s' -> inv n m s'.
Proof.
  intros I H. unfold fib_step in H.
  assert (L : fp s f <> FDone -> f < m) by (eapply f_lt; eauto).
  assert (C := proj2 (v_cur _ _ _ I (on s f) f)).
  assert (X := v_mf _ _ _ I f).
  assert (U : forall p, f < m -> total (fun j => before (upd (fp s) f p j)) m + before (fp s f) = cnt s + before p)
    by (intros; rewrite (v_cnt _ _ _ I); now apply total_upd).
  destruct (fp s f) as [k|[|k]| | | | | | ] eqn:P; try discriminate.
  - (* FRun 0 *) inversion H; subst; clear H. specialize (L ltac:(discriminate)). specialize (U FLock L). simpl in U.
    destruct I. constructor; flds; auto.
    + lia.
    + intros k g. cu; auto; rewrite v_cur0; now rw P.
    + intros g. cu; auto; rewrite v_mf0; now rw P.
    + intros k K. apply v_wait0 in K. destruct K as [K|[g K]]; auto. right. exists g. cu; auto; now rw P.
    + intros g. cu; eauto; now simpl.
    + intros g K. cu; auto; lia.
    + intros g K. cu; auto; rewrite v_ends0 by auto; now rw P.
  - (* FRun S *) inversion H; subst; clear H. specialize (L ltac:(discriminate)). specialize (U (FReady k) L). simpl in U.
    specialize (C (conj eq_refl eq_refl)).
    destruct I. constructor; flds; auto.
    + lia.
    + intros j g. cu; simpl.
      * split; [discriminate|intros [A _]; discriminate].
      * split; [discriminate|]. intros [A B]. exfalso. apply n0. assert (cur s (on s f) = Some g) by (apply v_cur0; auto). congruence.
      * split; [|intros [A _]; discriminate]. intros A. apply v_cur0 in A. destruct A. congruence.
      * auto.
    + intros j g. cu; [discriminate|eauto].
    + intros g. cu; auto; rewrite v_mf0; now rw P.
    + intros j K. apply v_wait0 in K. destruct K as [K|[g K]]; auto. right. exists g. cu; auto; now rw P.
    + intros g. cu; eauto; now simpl.
    + intros g K. cu; auto; lia.
    + intros g K. cu; auto; rewrite v_ends0 by auto; now rw P.
  - (* FLock *) destruct (mtx s) eqn:M; inversion H; subst; clear H. specialize (L ltac:(discriminate)). specialize (U FDec L). simpl in U.
    destruct I. constructor; flds; auto.
    + lia.
    + intros k g. cu; auto; rewrite v_cur0; now rw P.
    + intros g. cu; simpl; [tauto|]. rewrite <- v_mf0, M. split; congruence.
    + intros k. rewrite <- v_mm0, M. split; discriminate.
    + intros k K. apply v_wait0 in K. destruct K as [K|[g K]]; auto. right. exists g. cu; auto; now rw P.
    + intros g. cu; eauto; now simpl.
    + intros g K. cu; auto; lia.
    + intros g K. cu; auto; rewrite v_ends0 by auto; now rw P.
  - (* FDec *) inversion H; subst; clear H. specialize (L ltac:(discriminate)).
    set (p := if pred (cnt s) =? 0 then FUnl0 else FUnl) in *.
    assert (Hp : before p = 0 /\ frun p = true /\ fholds p = true /\ fdone p = false) by (unfold p; destruct (pred (cnt s) =? 0); auto).
    destruct Hp as (Hb & Hr & Hh & Hd). specialize (U p L). simpl in U.
    assert (Z : 0 < cnt s).
    { rewrite (v_cnt _ _ _ I). pose proof (total_in (fun f => before (fp s f)) m f L). simpl in H. rewrite P in H. simpl in H. lia. }
    assert (M : mtx s = Some (OF f)) by (apply X; auto).
    destruct I. constructor; flds; auto.
    + lia.
    + intros k g. cu; auto. rewrite v_cur0. rw P. rewrite Hr. tauto.
    + intros g. cu; auto. rewrite v_mf0. rw P. rewrite Hh. tauto.
    + intros k K. exfalso. assert (mtx s = Some (OM k)); [|congruence]. apply v_mm0. destruct (mains s k); try discriminate; auto.
    + intros k K K'. apply v_zero0 in K'; auto. lia.
    + intros k K. destruct (Nat.eq_dec (pred (cnt s)) 0) as [E|E]; [|left; lia]. right. exists f. cu; [|congruence]. unfold p. now rewrite E.
    + intros g. cu; [|intros A; apply v_last0 in A; lia]. unfold p. destruct (Nat.eqb_spec (pred (cnt s)) 0); auto. discriminate.
    + intros g K. cu; auto; lia.
    + intros g K. cu; auto. rewrite v_ends0 by auto. rw P. now rewrite Hd.
  - (* FUnl *) inversion H; subst; clear H. specialize (L ltac:(discriminate)). specialize (U FDone L). simpl in U.
    specialize (C (conj eq_refl eq_refl)). assert (M : mtx s = Some (OF f)) by (apply X; auto).
    destruct I. constructor; flds; auto.
    + lia.
    + intros j g. cu; simpl.
      * split; [discriminate|intros [A _]; discriminate].
      * split; [discriminate|]. intros [A B]. exfalso. apply n0. assert (cur s (on s f) = Some g) by (apply v_cur0; auto). congruence.
      * split; [|intros [A _]; discriminate]. intros A. apply v_cur0 in A. destruct A. congruence.
      * auto.
    + intros j g. cu; [discriminate|eauto].
    + intros g. cu; simpl; [split; discriminate|]. rewrite <- v_mf0, M. split; congruence.
    + intros k. rewrite <- v_mm0, M. split; discriminate.
    + intros j K. apply v_wait0 in K. destruct K as [K|[g K]]; auto. right. exists g. cu; auto; now rw P.
    + intros g. cu; eauto; now simpl.
    + intros g K. cu; auto.
    + intros g K. cu; simpl; auto; rewrite v_ends0 by auto; now rw P.
  - (* FUnl0 *) inversion H; subst; clear H. specialize (L ltac:(discriminate)). specialize (U FNotify L). simpl in U.
    assert (M : mtx s = Some (OF f)) by (apply X; auto).
    destruct I. constructor; flds; auto.
    + lia.
    + intros k g. cu; auto; rewrite v_cur0; now rw P.
    + intros g. cu; simpl; [split; discriminate|]. rewrite <- v_mf0, M. split; congruence.
    + intros k. rewrite <- v_mm0, M. split; discriminate.
    + intros j K. right. exists f. cu; auto; congruence.
    + intros g. cu; [intros _; apply (v_last0 f); now rewrite P|eauto].
    + intros g K. cu; auto; lia.
    + intros g K. cu; auto; rewrite v_ends0 by auto; now rw P.
  - (* FNotify *) destruct (splk s) eqn:S; inversion H; subst; clear H. specialize (L ltac:(discriminate)). specialize (U FDone L). simpl in U.
    specialize (C (conj eq_refl eq_refl)).
    assert (Z : cnt s = 0) by (apply (v_last _ _ _ I f); now rewrite P).
    destruct I. constructor; flds; auto.
    + lia.
    + intros j g. cu; simpl.
      * split; [discriminate|intros [A _]; discriminate].
      * split; [discriminate|]. intros [A B]. exfalso. apply n0. assert (cur s (on s f) = Some g) by (apply v_cur0; auto). congruence.
      * split; [|intros [A _]; discriminate]. intros A. apply v_cur0 in A. destruct A. congruence.
      * auto.
    + intros j g. cu; [discriminate|]. intros A. apply v_main0 in A. destruct (mains s j); auto.
    + intros g. cu; simpl; auto; rewrite v_mf0; now rw P.
    + intros k. rewrite v_mm0. destruct (mains s k); simpl; tauto.
    + intros k. rewrite v_sp0. destruct (mains s k); simpl; tauto.
    + intros k K. apply (v_pos0 k). destruct (mains s k); auto.
    + intros k K. exfalso. pose proof (v_sp0 k) as B. rewrite S in B. destruct (mains s k); try discriminate. destruct B as [_ B]. specialize (B eq_refl). discriminate.
    + intros g K. cu; auto.
    + intros k K. rewrite v_outm0; auto.
    + intros k K. apply v_end1. destruct (mains s k); auto; discriminate.
    + intros g K. cu; simpl; auto; rewrite v_ends0 by auto; now rw P.
    + intros k K. rewrite v_rets0 by auto. destruct (mains s k); auto.
    + rewrite v_prog0. destruct (mains s 0); auto.
Qed.

Lemma joined_spec n s : joined n s = true <-> forall k, 1 <= k <= n -> mains s k = MExit.
Proof.
  unfold joined. rewrite forallb_forall. split.
  - intros H k K. specialize (H k). rewrite in_seq in H. assert (A : 1 <= k < 1 + n) by lia. apply H in A. destruct (mains s k); congruence.
  - intros H k K. apply in_seq in K. rewrite H by lia. reflexivity.
Qed.

(** When every main fiber has returned nothing runs any more. *)
Lemma all_done n m s : inv n m s -> (forall k, k <= n -> mout (mains s k) = true) -> forall f, f < m -> fp s f = FDone.
Proof.
  intros I H f F. destruct (frun (fp s f)) eqn:R.
  - assert (C : cur s (on s f) = Some f) by (apply (v_cur _ _ _ I); auto).
    apply (v_main _ _ _ I) in C. destruct (Nat.le_gt_cases (on s f) n) as [K|K].
    + apply H in K. destruct (mains s (on s f)); discriminate.
    + apply (v_outm _ _ _ I) in K. rewrite K in C. discriminate.
  - destruct (fp s f) as [k| | | | | | | ] eqn:P; try discriminate; auto. exfalso.
    assert (Z : cnt s = 0). { apply (v_zero _ _ _ I 0); [lia|]. specialize (H 0 ltac:(lia)). destruct (mains s 0); try discriminate; auto. }
    rewrite (v_cnt _ _ _ I) in Z. pose proof (total_in (fun f => before (fp s f)) m f F) as B. simpl in B. rewrite P in B. simpl in B. lia.
Qed.

Lemma inv_main n m s k s' : inv n m s -> cur s k = None -> main_step n s k = Some s' -> inv n m s'.
Proof.
  intros I C H. unfold main_step in H.
  assert (L : mains s k <> MExit -> k <= n) by (eapply k_le; eauto).
  assert (X := v_mm _ _ _ I k). assert (Y := v_sp _ _ _ I k). assert (Z0 := v_zero _ _ _ I k). assert (P0 := v_pos _ _ _ I k).
  assert (W0 := v_wait _ _ _ I k).
  destruct (mains s k) eqn:P; try discriminate.
  - (* MLock *) destruct (mtx s) eqn:M; inversion H; subst; clear H. specialize (L ltac:(discriminate)).
    destruct I. constructor; flds; auto.
    all: try solve [intros j; cu; eauto; intros; try lia; try discriminate; try congruence; try (simpl in *; discriminate)
      | intros j J; cu; auto; simpl; rewrite ?v_rets0 by auto; try now rw P
      | cu; auto; simpl; rewrite ?v_prog0; try now rw P].
    + intros f. rewrite <- v_mf0, M. split; discriminate.
    + intros j. cu; simpl; [tauto|]. rewrite <- v_mm0, M. split; congruence.
  - (* MCheck *) inversion H; subst; clear H. specialize (L ltac:(discriminate)).
    assert (M : mtx s = Some (OM k)) by (apply X; auto).
    destruct I. destruct (Nat.eqb_spec (cnt s) 0) as [E|E]; constructor; flds; auto.
    all: try solve [intros j; cu; eauto; intros; try lia; try discriminate; try congruence; try (simpl in *; discriminate)
      | intros j J; cu; auto; simpl; rewrite ?v_rets0 by auto; try now rw P
      | cu; auto; simpl; rewrite ?v_prog0; try now rw P].
  - (* MSplk *) destruct (splk s) eqn:S; inversion H; subst; clear H. specialize (L ltac:(discriminate)).
    destruct I. constructor; flds; auto.
    all: try solve [intros j; cu; eauto; intros; try lia; try discriminate; try congruence; try (simpl in *; discriminate)
      | intros j J; cu; auto; simpl; rewrite ?v_rets0 by auto; try now rw P
      | cu; auto; simpl; rewrite ?v_prog0; try now rw P].
    + intros j. cu; simpl; [tauto|]. rewrite <- v_sp0, S. split; congruence.
  - (* MUnl *) inversion H; subst; clear H. specialize (L ltac:(discriminate)).
    assert (M : mtx s = Some (OM k)) by (apply X; auto). assert (S : splk s = Some k) by (apply Y; auto).
    destruct I. constructor; flds; auto.
    all: try solve [intros j; cu; eauto; intros; try lia; try discriminate; try congruence; try (simpl in *; discriminate)
      | intros j J; cu; auto; simpl; rewrite ?v_rets0 by auto; try now rw P
      | cu; auto; simpl; rewrite ?v_prog0; try now rw P].
    + intros f. rewrite <- v_mf0, M. split; discriminate.
    + intros j. cu; simpl; [split; discriminate|]. rewrite <- v_mm0, M. split; congruence.
  - (* MEnq *) inversion H; subst; clear H. specialize (L ltac:(discriminate)).
    assert (S : splk s = Some k) by (apply Y; auto).
    destruct I. constructor; flds; auto.
    all: try solve [intros j; cu; eauto; intros; try lia; try discriminate; try congruence; try (simpl in *; discriminate)
      | intros j J; cu; auto; simpl; rewrite ?v_rets0 by auto; try now rw P
      | cu; auto; simpl; rewrite ?v_prog0; try now rw P].
    + intros j. cu; simpl; [split; discriminate|]. rewrite <- v_sp0, S. split; congruence.
  - (* MUnlEnd *) inversion H; subst; clear H. specialize (L ltac:(discriminate)).
    assert (M : mtx s = Some (OM k)) by (apply X; auto).
    destruct I. constructor; flds; auto.
    all: try solve [intros j; cu; eauto; intros; try lia; try discriminate; try congruence; try (simpl in *; discriminate)
      | intros j J; cu; auto; simpl; rewrite ?v_rets0 by auto; try now rw P
      | cu; auto; simpl; rewrite ?v_prog0; try now rw P].
    + intros f. rewrite <- v_mf0, M. split; discriminate.
    + intros j. cu; simpl; [split; discriminate|]. rewrite <- v_mm0, M. split; congruence.
    + intros j J. simpl. cu; rewrite ?v_rets0 by auto; auto; now rw P.
  - (* MExit *) destruct (Nat.eqb_spec k 0) as [->|]; [|discriminate]. simpl in H.
    destruct (joined n s) eqn:J; inversion H; subst; clear H.
    assert (A : forall j, j <= n -> mains s j = MExit).
    { intros j K. destruct (Nat.eq_dec j 0) as [->|]; auto. apply (proj1 (joined_spec n s) J). lia. }
    assert (D : forall f, f < m -> fp s f = FDone) by (eapply all_done; eauto; intros j K; now rewrite A).
    assert (Zc : cnt s = 0) by (apply Z0; auto; lia).
    destruct I. constructor; flds; auto.
    all: try solve [intros j; cu; eauto; intros; try lia; try discriminate; try congruence; try (simpl in *; discriminate)
      | intros j J; cu; auto; simpl; rewrite ?v_rets0 by auto; try now rw P
      | cu; auto; simpl; rewrite ?v_prog0; try now rw P].
    + intros j K. cu; rewrite v_rets0 by auto; auto; now rw P.
    + splits; auto.
      * intros f F. rewrite v_ends0 by auto. now rewrite D.
      * intros j K. rewrite v_rets0 by auto. now rewrite A.
    Unshelve. all: exact 0.
Qed.

Lemma inv_step n m s l s' : inv n m s -> step n s l = Some s' -> inv n m s'.
Proof.
  intros I H. destruct l as [k|f|k f|k]; simpl in H.
  - destruct (cur s k) eqn:C; try discriminate. eapply inv_main; eauto.
  - eapply inv_fib; eauto.
  - destruct (cur s k) eqn:C; try discriminate. destruct (fp s f) as [y| | | | | | | ] eqn:P; try (destruct (mains s k); discriminate).
    assert (Ms : msusp (mains s k) = true) by (destruct (mains s k); auto; discriminate).
    assert (E : s' = mkSt (cnt s) (mtx s) (splk s) (upd (fp s) f (FRun y)) (upd (on s) f k) (upd (cur s) k (Some f)) (mains s) (log s))
      by (destruct (mains s k); congruence). subst. clear H.
    assert (L : f < m) by (eapply f_lt; eauto; congruence).
    assert (U := total_upd before (fp s) f (FRun y) m L). rewrite P in U. simpl in U.
    destruct I. constructor; flds; auto.
    all: try solve [intros j; cu; eauto; intros; try lia; try discriminate; try congruence; try (simpl in *; discriminate)
      | intros j J; cu; auto; simpl; rewrite ?v_rets0 by auto; try now rw P
      | cu; auto; simpl; rewrite ?v_prog0; try now rw P].
    + lia.
    + intros j g. cu; simpl.
      * tauto.
      * split; [congruence|]. intros [A B]. exfalso. assert (cur s k = Some g) by (apply v_cur0; auto). congruence.
      * split; [intros A|intros [_ A]; congruence]. apply v_cur0 in A. rewrite P in A. destruct A. discriminate.
      * auto.
    + intros g. cu; auto; simpl; rewrite ?v_mf0; try now rw P.
    + intros j K. apply v_wait0 in K. destruct K as [K|[g K]]; auto. right. exists g. cu; auto; try now rw P.
    + intros g K. cu; auto; simpl; rewrite ?v_ends0 by auto; try now rw P.
  - destruct (cur s k) eqn:C; try discriminate. destruct (mains s k) eqn:P; inversion H; subst; clear H.
    assert (L : k <= n) by (eapply k_le; eauto; congruence).
    destruct I. constructor; flds; auto.
    all: try solve [intros j; cu; eauto; intros; try lia; try discriminate; try congruence; try (simpl in *; discriminate)
      | intros j J; cu; auto; simpl; rewrite ?v_rets0 by auto; try now rw P
      | cu; auto; simpl; rewrite ?v_prog0; try now rw P].
    + intros j. cu; auto; simpl; rewrite ?v_mm0; try now rw P.
    + intros j. cu; auto; simpl; rewrite ?v_sp0; try now rw P.
Qed.

Lemma inv_reach n m y s : reachable (step n) (init n m y) s -> inv n m s.
Proof. apply (reachable_inv (step n) (inv n m) (init n m y) (inv_init n m y) (inv_step n m)). Qed.

(** Every step makes this number smaller. *)
Definition fw (p : fpc) : nat :=
  match p with FReady n => 2 * n + 8 | FRun n => 2 * n + 7 | FLock => 5 | FDec => 4 | FUnl => 1 | FUnl0 => 2 | FNotify => 1 | FDone => 0 end.
Definition mw (c : nat) (p : mpc) : nat :=
  match p with
  | MLock => if c =? 0 then 4 else 20 | MCheck => if c =? 0 then 3 else 19
  | MSplk => 18 | MUnl => 17 | MEnq => 16 | MWaiting => 10 | MReady => 5 | MUnlEnd => 2 | MExit => 1 | MEnd => 0
  end.
Definition measure (n m : nat) (s : st) : nat :=
  total (fun f => fw (fp s f)) m + total (fun k => mw (cnt s) (mains s k)) (S n).

Lemma mw_dec c p : mw (pred c) p <= mw c p.
Proof. destruct p; simpl; auto; destruct c as [|[|c]]; simpl; lia. Qed.

Lemma meas_f m s f p : f < m -> fw p < fw (fp s f) -> total (fun j => fw (upd (fp s) f p j)) m < total (fun j => fw (fp s j)) m.
Proof. intros L H. pose proof (total_upd fw (fp s) f p m L). lia. Qed.
Lemma meas_m n s k p : k <= n -> mw (cnt s) p < mw (cnt s) (mains s k) ->
  total (fun j => mw (cnt s) (upd (mains s) k p j)) (S n) < total (fun j => mw (cnt s) (mains s j)) (S n).
Proof. intros L H. pose proof (total_upd (mw (cnt s)) (mains s) k p (S n) ltac:(lia)). lia. Qed.

Lemma step_measure n m s l s' : inv n m s -> step n s l = Some s' -> measure n m s' < measure n m s.
Proof.
  intros I H. unfold measure. destruct l as [k|f|k f|k]; simpl in H.
  - destruct (cur s k); try discriminate. unfold main_step in H.
    assert (L : mains s k <> MExit -> k <= n) by (eapply k_le; eauto). assert (Z0 := v_zero _ _ _ I k).
    assert (X : forall p, k <= n -> mw (cnt s) p < mw (cnt s) (mains s k) ->
       total (fun j => mw (cnt s) (upd (mains s) k p j)) (S n) < total (fun j => mw (cnt s) (mains s j)) (S n)) by (intros; now apply meas_m).
    destruct (mains s k) eqn:P; try discriminate.
    all: try specialize (L ltac:(discriminate)).
    + destruct (mtx s); inversion H; subst; flds. apply Nat.add_lt_mono_l. apply X; auto. simpl. destruct (cnt s =? 0); lia.
    + inversion H; subst; flds. apply Nat.add_lt_mono_l. apply X; auto. simpl. destruct (cnt s =? 0); simpl; lia.
    + destruct (splk s); inversion H; subst; flds. apply Nat.add_lt_mono_l. apply X; auto; simpl; lia.
    + inversion H; subst; flds. apply Nat.add_lt_mono_l. apply X; auto; simpl; lia.
    + inversion H; subst; flds. apply Nat.add_lt_mono_l. apply X; auto; simpl; lia.
    + inversion H; subst; flds. apply Nat.add_lt_mono_l. apply X; auto; simpl; lia.
    + destruct (Nat.eqb_spec k 0); [|discriminate]. subst. simpl in H. destruct (joined n s); inversion H; subst; flds.
      apply Nat.add_lt_mono_l. apply X; auto. lia.
  - unfold fib_step in H. assert (L : fp s f <> FDone -> f < m) by (eapply f_lt; eauto).
    assert (X : forall p, f < m -> fw p < fw (fp s f) -> total (fun j => fw (upd (fp s) f p j)) m < total (fun j => fw (fp s j)) m)
      by (intros; now apply meas_f).
    destruct (fp s f) as [y|[|y]| | | | | | ] eqn:P; try discriminate; specialize (L ltac:(discriminate)).
    + inversion H; subst; flds. apply Nat.add_lt_mono_r. apply X; auto; simpl; lia.
    + inversion H; subst; flds. apply Nat.add_lt_mono_r. apply X; auto; simpl; lia.
    + destruct (mtx s); inversion H; subst; flds. apply Nat.add_lt_mono_r. apply X; auto; simpl; lia.
    + inversion H; subst; flds. apply Nat.add_lt_le_mono.
      * apply X; auto. destruct (pred (cnt s) =? 0); simpl; lia.
      * apply total_le. intros i _. apply mw_dec.
    + inversion H; subst; flds. apply Nat.add_lt_mono_r. apply X; auto; simpl; lia.
    + inversion H; subst; flds. apply Nat.add_lt_mono_r. apply X; auto; simpl; lia.
    + destruct (splk s); inversion H; subst; flds. apply Nat.add_lt_le_mono.
      * apply X; auto; simpl; lia.
      * apply total_le. intros i _. destruct (mains s i); simpl; lia.
  - destruct (cur s k) eqn:C; try discriminate. destruct (fp s f) as [y| | | | | | | ] eqn:P; try (destruct (mains s k); discriminate).
    assert (E : s' = mkSt (cnt s) (mtx s) (splk s) (upd (fp s) f (FRun y)) (upd (on s) f k) (upd (cur s) k (Some f)) (mains s) (log s))
      by (destruct (mains s k); congruence). subst. flds.
    apply Nat.add_lt_mono_r. apply meas_f; auto; [eapply f_lt; eauto; congruence|]. rewrite P. simpl; lia.
  - destruct (cur s k) eqn:C; try discriminate. destruct (mains s k) eqn:P; inversion H; subst; flds.
    assert (L : k <= n) by (eapply k_le; eauto; congruence).
    assert (Z : cnt s = 0) by (apply (v_zero _ _ _ I k); auto; now rewrite P).
    apply Nat.add_lt_mono_l. apply meas_m; auto. rewrite P, Z. simpl. lia.
Qed.

(** Nothing blocks for good: a state without enabled step is one in which main() has returned. *)
Lemma progress n m s : inv n m s -> mains s 0 <> MEnd -> exists l s', step n s l = Some s'.
Proof.
  intros I E.
  assert (G : forall l, step n s l <> None -> exists l s', step n s l = Some s').
  { intros l H. exists l. destruct (step n s l) as [s'|]; [eauto|congruence]. }
  assert (NC : forall k, msusp (mains s k) = false -> cur s k = None).
  { intros k H. destruct (cur s k) eqn:C; auto. apply (v_main _ _ _ I) in C. congruence. }
  (* the owner of the spinlock *)
  destruct (splk s) as [k|] eqn:S.
  { assert (A := proj1 (v_sp _ _ _ I k) S). apply (G (LMain k)). simpl. unfold main_step.
    rewrite NC by (destruct (mains s k); auto; discriminate). destruct (mains s k); discriminate. }
  (* the owner of the mutex *)
  destruct (mtx s) as [[k|f]|] eqn:M.
  { assert (A := proj1 (v_mm _ _ _ I k) M). apply (G (LMain k)). simpl. unfold main_step. rewrite S.
    rewrite NC by (destruct (mains s k); auto; discriminate). destruct (mains s k); discriminate. }
  { assert (A := proj1 (v_mf _ _ _ I f) M). apply (G (LFib f)). simpl. unfold fib_step. destruct (fp s f); discriminate. }
  (* a running worker fiber *)
  assert (RF : forall f, frun (fp s f) = true -> exists l s', step n s l = Some s').
  { intros f A. apply (G (LFib f)). simpl. unfold fib_step. rewrite S, M. destruct (fp s f) as [y|[|y]| | | | | | ]; discriminate. }
  (* a main fiber that is running or waiting *)
  assert (RM : forall k, mout (mains s k) = false -> exists l s', step n s l = Some s').
  { intros k A. destruct (msusp (mains s k)) eqn:W.
    - destruct (cur s k) as [f|] eqn:C; [apply (RF f); apply (v_cur _ _ _ I) in C; tauto|].
      destruct (mains s k) eqn:P; try discriminate.
      + destruct (v_wait _ _ _ I k) as [B|[f B]]; [now rewrite P| |apply (RF f); destruct (fp s f); auto; discriminate].
        rewrite (v_cnt _ _ _ I) in B. apply total_pos in B. destruct B as (f & F & B).
        destruct (fp s f) as [y| | | | | | | ] eqn:Q; simpl in B; try lia; try (apply (RF f); rewrite Q; reflexivity).
        apply (G (LPick k f)). simpl. rewrite C, P, Q. discriminate.
      + apply (G (LResume k)). simpl. rewrite C, P. discriminate.
    - apply (G (LMain k)). simpl. rewrite NC by auto. unfold main_step. rewrite S, M. destruct (mains s k); discriminate. }
  destruct (joined n s) eqn:J.
  - destruct (mout (mains s 0)) eqn:O; [|eauto]. apply (G (LMain 0)). simpl. unfold main_step.
    rewrite NC by (destruct (mains s 0); auto; discriminate). rewrite J. destruct (mains s 0); try discriminate. congruence.
  - unfold joined in J. assert (X : exists k, In k (seq 1 n) /\ match mains s k with MExit => true | _ => false end = false).
    { clear - J. induction (seq 1 n) as [|k l IH]; simpl in J; [discriminate|].
      destruct (match mains s k with MExit => true | _ => false end) eqn:E; [|exists k; simpl; auto].
      destruct IH as (j & A & B); auto. exists j. simpl; auto. }
    destruct X as (k & A & B). apply in_seq in A. apply (RM k).
    destruct (mains s k) eqn:P; auto; try discriminate. apply (v_end0 _ _ _ I) in P. lia.
Qed.
