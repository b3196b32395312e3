(** Proofs about priorities. *)
From Coq Require Import List Arith ZArith Bool Lia Sorted.
From Verif Require Import Base Prio PrioSpec.
Import ListNotations.

(** ** The ready queue *)
Definition ge_of (pr : nat -> Z) (a b : nat) : Prop := (pr b <= pr a)%Z.
Notation sorted pr := (StronglySorted (ge_of pr)).
Definition at_p (pr : nat -> Z) (p : Z) (l : list nat) : list nat := filter (fun d => (pr d =? p)%Z) l.
Record Q (pr : nat -> Z) (l ar : list nat) : Prop := mkQ {
  q_sorted : sorted pr l;
  q_same : forall p, at_p pr p l = at_p pr p ar
}.
Lemma at_in pr p l d : In d (at_p pr p l) <-> In d l /\ pr d = p.
Proof. unfold at_p. rewrite filter_In. now rewrite Z.eqb_eq. Qed.
Lemma q_in pr l ar d : Q pr l ar -> In d l <-> In d ar.
Proof. intros [_ S]. pose proof (at_in pr (pr d) l d) as A. pose proof (at_in pr (pr d) ar d) as B. rewrite S in A. tauto. Qed.
Lemma enq_in pr c l d : In d (enqueue pr c l) <-> d = c \/ In d l.
Proof. induction l as [|x l IH]; simpl; [intuition|]. destruct (_ <? _)%Z; simpl; [intuition|]. rewrite IH. intuition. Qed.
Lemma enq_sorted pr c l : sorted pr l -> sorted pr (enqueue pr c l).
Proof.
  induction 1 as [|x l S IH F]; simpl; [repeat constructor|]. destruct (Z.ltb_spec (pr x) (pr c)).
  - constructor; [now constructor|]. constructor; [unfold ge_of; lia|]. eapply Forall_impl; [|exact F]. unfold ge_of. simpl. intros. lia.
  - constructor; auto. apply Forall_forall. intros d D. apply enq_in in D. destruct D as [->|D]; [unfold ge_of; lia|]. rewrite Forall_forall in F. auto.
Qed.
Lemma at_low pr p l : (forall d, In d l -> pr d < p)%Z -> at_p pr p l = [].
Proof. intros H. destruct (at_p pr p l) as [|d r] eqn:E; auto. assert (X : In d (at_p pr p l)) by (rewrite E; simpl; auto). apply at_in in X. destruct X as (X & Y). specialize (H d X). lia. Qed.
Lemma enq_at pr c l p : sorted pr l -> at_p pr p (enqueue pr c l) = at_p pr p (l ++ [c]).
Proof.
  induction 1 as [|x l S IH F]; simpl; auto. destruct (Z.ltb_spec (pr x) (pr c)).
  - change (x :: l ++ [c]) with ((x :: l) ++ [c]). unfold at_p. rewrite filter_app. simpl. destruct (Z.eqb_spec (pr c) p); [|now rewrite app_nil_r].
    assert (E : at_p pr p (x :: l) = []). { apply at_low. intros d [->|D]; [lia|]. rewrite Forall_forall in F. specialize (F d D). unfold ge_of in F. lia. }
    unfold at_p in E. simpl in E. rewrite E. destruct (pr x =? p)%Z; [discriminate|now rewrite E].
  - unfold at_p in *. simpl. destruct (pr x =? p)%Z; [f_equal|]; auto.
Qed.
Lemma q_enq pr c l ar : Q pr l ar -> Q pr (enqueue pr c l) (ar ++ [c]).
Proof. intros [S E]. constructor; [now apply enq_sorted|]. intros p. rewrite enq_at by auto. specialize (E p). unfold at_p in *. rewrite !filter_app. now rewrite E. Qed.
Lemma unlink_in c d l : In d (unlink c l) <-> In d l /\ d <> c.
Proof. unfold unlink. rewrite filter_In. destruct (Nat.eqb_spec d c); simpl; intuition congruence. Qed.
Lemma remove_unlink c l : remove Nat.eq_dec c l = unlink c l.
Proof. induction l as [|x l IH]; simpl; auto. destruct (Nat.eq_dec c x) as [->|]; [rewrite Nat.eqb_refl; auto|]. destruct (Nat.eqb_spec x c); [congruence|]. simpl. now f_equal. Qed.
Lemma unlink_at pr p c l : at_p pr p (unlink c l) = unlink c (at_p pr p l).
Proof. unfold at_p, unlink. induction l as [|x l IH]; simpl; auto. destruct (x =? c) eqn:E1, (pr x =? p)%Z eqn:E2; simpl; rewrite ?E1, ?E2; simpl; auto; now f_equal. Qed.
Lemma unlink_sorted pr c l : sorted pr l -> sorted pr (unlink c l).
Proof.
  induction 1 as [|x l S IH F]; simpl; [constructor|]. destruct (negb (x =? c)); auto. constructor; auto. apply Forall_forall. intros d D. apply unlink_in in D. rewrite Forall_forall in F. now apply F.
Qed.
Lemma q_unlink pr c l ar : Q pr l ar -> Q pr (unlink c l) (remove Nat.eq_dec c ar).
Proof. intros [S E]. rewrite remove_unlink. constructor; [now apply unlink_sorted|]. intros p. now rewrite !unlink_at, E. Qed.
Lemma unlink_id c l : ~ In c l -> unlink c l = l.
Proof. intros N. induction l as [|x l IH]; simpl; auto. destruct (Nat.eqb_spec x c) as [->|]; [destruct N; simpl; auto|]. simpl. f_equal. apply IH. intros X. apply N. simpl. auto. Qed.
Lemma unlink_head c r : ~ In c r -> unlink c (c :: r) = r.
Proof. intros N. unfold unlink. simpl. rewrite Nat.eqb_refl. simpl. now apply unlink_id. Qed.
Lemma q_ext pr pr' l ar : (forall d, In d l -> pr d = pr' d) -> Q pr l ar -> Q pr' l ar.
Proof.
  intros H I. assert (H' : forall d, In d ar -> pr d = pr' d) by (intros d D; apply H; now apply (q_in pr l ar d I)). destruct I as [S E].
  assert (X : forall l0 p, (forall d, In d l0 -> pr d = pr' d) -> at_p pr' p l0 = at_p pr p l0).
  { intros l0 p K. apply filter_ext_in. intros d D. now rewrite K. }
  constructor; [|intros p; now rewrite !X].
  clear - H S. induction S as [|x l S IH F]; constructor; [apply IH; intros; apply H; simpl; auto|]. rewrite Forall_forall in *. intros d D. specialize (F d D). unfold ge_of in *. rewrite <- !H; simpl; auto.
Qed.
Lemma q_best pr c r ar : Q pr (c :: r) ar -> best pr ar c.
Proof.
  intros I. destruct I as [S E] eqn:EI. clear EI. assert (Le : forall d, In d ar -> (pr d <= pr c)%Z).
  { intros d D. apply (q_in pr (c :: r) ar d I) in D. destruct D as [->|D]; [lia|]. inversion S as [|? ? _ F]; subst. rewrite Forall_forall in F. apply F; auto. }
  specialize (E (pr c)). unfold at_p in E. simpl in E. rewrite Z.eqb_refl in E. symmetry in E. clear I S. revert E Le. generalize (filter (fun d => (pr d =? pr c)%Z) r). intros f. induction ar as [|x ar IH]; simpl; intros E Le; [discriminate|].
  destruct (Z.eqb_spec (pr x) (pr c)).
  - injection E as -> _. exists [], ar. splits; simpl; auto; easy.
  - destruct IH as (a & b & -> & A & B); auto. exists (x :: a), b. splits; auto. intros d [->|D]; auto. specialize (Le d (or_introl eq_refl)). lia.
Qed.

(** ** The invariant *)
Record PInv (s : pst) : Prop := mkPI {
  p_q : Q (prio s) (rq s) (arrivals (log s));
  p_nd : NoDup (rq s);
  p_run : ~ In (run s) (rq s);
  p_off : forall c, blocked s c = true \/ sleeping s c = true \/ gone s c = true -> c <> disp_c /\ c <> run s /\ ~ In c (rq s);
  p_excl : forall c, (blocked s c = true -> sleeping s c = false /\ gone s c = false) /\ (sleeping s c = true -> gone s c = false);
  p_props : forall c, In (EReady c) (log s) -> props s c <> None /\ algo s c = true;
  p_ready : forall c, In c (rq s) -> In (EReady c) (log s);
  p_disp : run s = disp_c \/ In disp_c (rq s);
  p_fresh : forall k, fresh s k = true -> k <> run s /\ ~ In k (rq s) /\ blocked s k = false /\ sleeping s k = false /\ gone s k = false /\ ~ In (EReady k) (log s);
  p_prio : prio s disp_c = 0%Z;
  p_started : forall k, In k (started s) -> 2 <= k
}.

Lemma fresh_spec s k : fresh s k = true <-> 2 <= k /\ ~ In k (started s).
Proof.
  unfold fresh. rewrite andb_true_iff, Nat.leb_le, negb_true_iff. split; intros (A & B); split; auto.
  - intros I. assert (X : existsb (Nat.eqb k) (started s) = true) by (apply existsb_exists; exists k; split; auto; apply Nat.eqb_refl). congruence.
  - destruct (existsb _ _) eqn:X; auto. apply existsb_exists in X. destruct X as (x & X & Y). apply Nat.eqb_eq in Y. now subst.
Qed.
Lemma aw_prio s c d : prio (awakened s c) d = prio s d.
Proof. unfold prio, awakened. simpl. destruct (props s c) eqn:E; auto. destruct (Nat.eq_dec d c) as [->|N]; [rewrite upd_same, E|rewrite upd_other]; auto. Qed.
Lemma aw_rq s c : rq (awakened s c) = enqueue (prio (awakened s c)) c (rq s).
Proof. reflexivity. Qed.
Lemma enq_nodup pr c l : NoDup l -> ~ In c l -> NoDup (enqueue pr c l).
Proof.
  induction 1 as [|x l N D IH]; simpl; intros H; [constructor; auto; constructor|]. destruct (_ <? _)%Z; [constructor; auto; constructor; auto|]. constructor; [|apply IH; intuition]. rewrite enq_in. intuition.
Qed.
(** A context that is nowhere becomes ready. *)
Lemma inv_awakened s c : PInv s -> c <> run s -> ~ In c (rq s) -> blocked s c = false -> sleeping s c = false -> gone s c = false -> (c < 2 \/ In c (started s)) -> PInv (awakened s c).
Proof.
  intros [q n r o ex p rd dd f pd st] A B C D E F. assert (QI : Q (prio (awakened s c)) (rq s) (arrivals (log s))) by (eapply q_ext; [|exact q]; intros; symmetry; apply aw_prio). constructor.
  - rewrite aw_rq. simpl log. simpl arrivals. apply q_enq. rewrite remove_unlink, unlink_id; auto. intros X. apply B. now apply (q_in _ _ _ c q).
  - rewrite aw_rq. now apply enq_nodup.
  - rewrite aw_rq, enq_in. simpl. intuition congruence.
  - simpl. intros d H. rewrite enq_in. destruct (o d H) as (X & Y & Z). splits; auto. intros [->|]; auto. intuition congruence.
  - auto.
  - simpl. intros d [H|H]; [injection H as <-; rewrite upd_same; split; auto; destruct (props s c) eqn:K; [congruence|rewrite upd_same; discriminate]|]. destruct (p d H) as (X & Y). destruct (Nat.eq_dec d c) as [->|N]; [rewrite upd_same; split; auto; destruct (props s c) eqn:K; congruence|]. rewrite upd_other by auto. split; auto. destruct (props s c); auto. now rewrite upd_other.
  - intros d. rewrite aw_rq, enq_in. simpl. intros [->|H]; auto.
  - rewrite aw_rq, enq_in. simpl. intuition.
  - intros k K. destruct (f k K) as (X1 & X2 & X3 & X4 & X5 & X6). assert (k <> c). { intros ->. apply fresh_spec in K. simpl in K. destruct F; [lia|easy]. }
    rewrite aw_rq, enq_in. simpl. splits; auto; intuition congruence.
  - rewrite aw_prio. auto.
  - auto.
Qed.

(** The running context leaves the processor for the first one of the queue; [off]: what it waits for. *)
Lemma inv_switch s b sl g : PInv s -> run s <> disp_c ->
  (forall c, b c = true -> c <> run s -> blocked s c = true) -> (forall c, sl c = true -> c <> run s -> sleeping s c = true) -> (forall c, g c = true -> c <> run s -> gone s c = true) ->
  (forall c, (b c = true -> sl c = false /\ g c = false) /\ (sl c = true -> g c = false)) ->
  exists c r, rq s = c :: r /\ c <> run s /\ ~ In (run s) r /\
  PInv (switch (mkP (run s) (rq s) (props s) (algo s) b sl g (started s) (failed s) (log s))).
Proof.
  intros [q n r o ex p rd dd f pd st] N Hb Hs Hg Hx. destruct (rq s) as [|c l] eqn:E; [destruct dd; [congruence|easy]|]. exists c, l. inversion n as [|? ? n1 n2]; subst.
  assert (Cr : c <> run s) by (intros ->; apply r; simpl; auto). splits; auto; [intros X; apply r; simpl; auto|]. unfold switch; simpl. constructor; simpl; auto.
  - change (prio _) with (prio s). rewrite <- (unlink_head c l n1). now apply q_unlink.
  - intros d H. assert (X : d = run s \/ (blocked s d = true \/ sleeping s d = true \/ gone s d = true)). { destruct (Nat.eq_dec d (run s)); auto. right. destruct H as [H|[H|H]]; auto. }
    destruct X as [->|X]; [splits; auto; intros Y; apply r; simpl; auto|]. destruct (o d X) as (X1 & X2 & X3). simpl in X3. splits; auto; intros Y; apply X3; auto.
  - intros d [H|H]; [discriminate|auto].
  - intros d D. right. apply rd. simpl. auto.
  - destruct dd as [|[->|D]]; auto. congruence.
  - intros k K. destruct (f k K) as (X1 & X2 & X3 & X4 & X5 & X6). splits; auto; try (intros Y; apply X2; simpl; auto; fail); try (intros [Y|Y]; [discriminate|auto]).
    + destruct (b k) eqn:B; auto. specialize (Hb k B X1). congruence.
    + destruct (sl k) eqn:B; auto. specialize (Hs k B X1). congruence.
    + destruct (g k) eqn:B; auto. specialize (Hg k B X1). congruence.
Qed.
(** A pick by a context that stays ready: also by the dispatcher, if the queue is not empty. *)
Lemma inv_pick s c r : PInv s -> rq s = c :: r -> PInv (awakened (switch s) (run s)).
Proof.
  intros I E. assert (I0 := I). destruct I as [q n rn o ex p rd dd f pd st]. rewrite E in *. inversion n as [|? ? n1 n2]; subst.
  assert (Cr : c <> run s) by (intros ->; apply rn; simpl; auto).
  assert (No : blocked s (run s) = false /\ sleeping s (run s) = false /\ gone s (run s) = false).
  { destruct (blocked s (run s)) eqn:B1; [destruct (o (run s)) as (_ & X & _); auto; easy|]. destruct (sleeping s (run s)) eqn:B2; [destruct (o (run s)) as (_ & X & _); auto; easy|]. destruct (gone s (run s)) eqn:B3; [destruct (o (run s)) as (_ & X & _); auto; easy|]. auto. }
  destruct No as (No1 & No2 & No3). unfold switch. rewrite E.
  assert (QI : Q (prio s) r (remove Nat.eq_dec c (arrivals (log s)))) by (rewrite <- (unlink_head c r n1); now apply q_unlink).
  set (s1 := mkP c r (props s) (algo s) (blocked s) (sleeping s) (gone s) (started s) (failed s) (EPick c :: log s)).
  assert (Rr : ~ In (run s) r) by (intros X; apply rn; simpl; auto).
  constructor.
  - rewrite aw_rq. simpl log. simpl arrivals. apply q_enq. rewrite remove_unlink with (c := run s), unlink_id; [eapply q_ext; [|exact QI]; intros d _; symmetry; exact (aw_prio s1 (run s) d)|].
    intros X. apply Rr. now apply (q_in _ _ _ (run s) QI).
  - rewrite aw_rq. now apply enq_nodup.
  - rewrite aw_rq, enq_in. simpl. intuition.
  - simpl. intros d H. rewrite enq_in. destruct (o d H) as (X & Y & Z). simpl in Z. splits; auto; intuition congruence.
  - auto.
  - simpl. intros d H. assert (X : d = run s \/ (d <> run s /\ In (EReady d) (log s))). { destruct (Nat.eq_dec d (run s)); auto. destruct H as [H|[H|H]]; [injection H as <-; auto|discriminate|auto]. }
    destruct X as [->|(N & X)]; [rewrite upd_same; split; auto; destruct (props s (run s)) eqn:K; [congruence|rewrite upd_same; discriminate]|].
    destruct (p d X) as (Y & Z). rewrite upd_other by auto. split; auto. destruct (props s (run s)); auto. now rewrite upd_other.
  - intros d. rewrite aw_rq, enq_in. simpl. intros [->|D]; auto. right. right. apply rd. simpl. auto.
  - rewrite aw_rq, enq_in. simpl. destruct dd as [->|[->|D]]; auto.
  - intros k K. destruct (f k K) as (X1 & X2 & X3 & X4 & X5 & X6). simpl in X2. rewrite aw_rq, enq_in. simpl. splits; auto; intuition congruence.
  - rewrite aw_prio. exact pd.
  - auto.
Qed.
Lemma inv_yield s : PInv s -> run s <> disp_c -> PInv (yield_ s) /\ failed (yield_ s) = failed s.
Proof.
  intros I N. unfold yield_. destruct (rq s) as [|c r] eqn:E; [destruct (p_disp _ I) as [|D]; [congruence|rewrite E in D; easy]|]. split; [eapply inv_pick; eauto|]. unfold awakened, switch. rewrite E. auto.
Qed.
Lemma inv_create s k p : PInv s -> fresh s k = true -> PInv (create s k p).
Proof.
  intros [q n rn o ex pp rd dd f pd st] F. destruct (f k F) as (X1 & X2 & X3 & X4 & X5 & X6). apply fresh_spec in F. destruct F as (F1 & F2).
  assert (Pr : forall d, d <> k -> prio (create s k p) d = prio s d) by (intros d D; unfold prio, create; simpl; now rewrite upd_other).
  constructor; auto.
  - eapply q_ext; [|exact q]. intros d D. symmetry. apply Pr. intros ->. auto.
  - simpl. intros c C. destruct (pp c C). rewrite !upd_other; auto; intros ->; auto.
  - intros c C. apply fresh_spec in C. simpl in C. apply f. apply fresh_spec. intuition.
  - rewrite Pr; auto. unfold disp_c. lia.
  - simpl. intros c [<-|C]; auto.
Qed.
Lemma inv_set s c q p : PInv s -> props s c = Some q -> algo s c = true -> c <> disp_c -> PInv (set_priority s c q p) /\ failed (set_priority s c q p) = failed s.
Proof.
  intros I P A D. unfold set_priority. destruct (p =? q)%Z; auto. rewrite A. simpl negb. cbv iota.
  assert (Pr : forall d, d <> c -> prio (with_prio s c p) d = prio s d) by (intros d N; unfold prio, with_prio; simpl; now rewrite upd_other).
  assert (Pp : forall d, props s d <> None -> upd (props s) c (Some p) d <> None) by (intros d N; destruct (Nat.eq_dec d c) as [->|]; [rewrite upd_same; discriminate|now rewrite upd_other]).
  destruct (linked (with_prio s c p) c) eqn:L.
  - assert (In c (rq s)). { apply existsb_exists in L. destruct L as (x & X & Y). apply Nat.eqb_eq in Y. now subst. }
    destruct I as [qq n rn o ex pp rd dd f pd st]. split; auto. set (pr := prio (with_prio s c p)).
    change (PInv (mkP (run s) (enqueue pr c (unlink c (rq s))) (upd (props s) c (Some p)) (algo s) (blocked s) (sleeping s) (gone s) (started s) (failed s) (EReady c :: log s))).
    assert (Q1 : Q pr (unlink c (rq s)) (remove Nat.eq_dec c (arrivals (log s)))).
    { eapply q_ext; [|apply q_unlink; exact qq]. intros d X. apply unlink_in in X. symmetry. apply (Pr d). now destruct X. }
    assert (In1 : forall d, In d (enqueue pr c (unlink c (rq s))) <-> In d (rq s)). { intros d. rewrite enq_in, unlink_in. destruct (Nat.eq_dec d c); intuition congruence. }
    constructor; cbn [rq run log blocked sleeping gone algo props started failed]; auto.
    + exact (q_enq pr c _ _ Q1).
    + apply enq_nodup; [now apply NoDup_filter|]. rewrite unlink_in. intuition.
    + now rewrite In1.
    + intros d X. rewrite In1. auto.
    + intros d X. assert (Y : In (EReady d) (log s)) by (destruct X as [X|X]; [injection X as <-; now apply rd|exact X]). destruct (pp d Y). split; auto.
    + intros d. rewrite In1. simpl. auto.
    + rewrite In1. auto.
    + intros k K. destruct (f k K) as (X1 & X2 & X3 & X4 & X5 & X6). rewrite In1. splits; auto. intros [X|X]; auto. injection X as <-. auto.
    + change (prio (with_prio s c p) disp_c = 0%Z). rewrite Pr; auto.
  - assert (~ In c (rq s)). { intros X. assert (Y : linked (with_prio s c p) c = true) by (apply existsb_exists; exists c; split; auto; apply Nat.eqb_refl). congruence. }
    destruct I as [qq n rn o ex pp rd dd f pd st]. split; auto. constructor; auto.
    + eapply q_ext; [|exact qq]. intros d X. symmetry. apply Pr. intros ->. auto.
    + simpl. intros d X. destruct (pp d X). split; auto.
    + rewrite Pr; auto.
Qed.

Definition set_fails (s : pst) (l : label) : Prop :=
  match l with SetPrio c _ => ~ In (EReady c) (log s) | SetMine _ => ~ In (EReady (run s)) (log s) | _ => False end.
Lemma inv_step s l s' : PInv s -> step s l = Some s' -> (set_fails s l /\ (failed s' = Some NotSet \/ failed s' = Some NoAlgo)) \/ (PInv s' /\ failed s' = None).
Proof.
  intros I E. unfold step in E. destruct (failed s) eqn:Fl; [discriminate|].
  assert (Off : forall c, blocked s c = true \/ sleeping s c = true \/ gone s c = true -> c <> disp_c /\ c <> run s /\ ~ In c (rq s)) by apply (p_off _ I).
  destruct l as [k p|k p| | | | |c|c| |c p|p].
  - right. destruct (fresh s k) eqn:F, (run s =? disp_c) eqn:N; try discriminate. simpl in E. injection E as <-. destruct (p_fresh _ I k F) as (X1 & X2 & X3 & X4 & X5 & X6). split; auto. apply inv_awakened; auto; [now apply inv_create|simpl; auto].
  - right. destruct (fresh s k) eqn:F, (run s =? disp_c) eqn:N; try discriminate. simpl in E. injection E as <-. split; auto. apply Nat.eqb_neq in N.
    destruct (p_fresh _ I k F) as (X1 & X2 & X3 & X4 & X5 & X6). pose proof (inv_create s k p I F) as I1.
    assert (No : blocked s (run s) = false /\ sleeping s (run s) = false /\ gone s (run s) = false).
    { destruct (blocked s (run s)) eqn:B1; [destruct (Off (run s)) as (_ & X & _); auto; easy|]. destruct (sleeping s (run s)) eqn:B2; [destruct (Off (run s)) as (_ & X & _); auto; easy|]. destruct (gone s (run s)) eqn:B3; [destruct (Off (run s)) as (_ & X & _); auto; easy|]. auto. }
    destruct No as (No1 & No2 & No3). apply fresh_spec in F. destruct F as (F1 & F2).
    apply inv_awakened; auto.
    + destruct I1 as [q n rn o ex pp rd dd f pd st]. constructor; auto.
      * simpl. rewrite remove_unlink, unlink_id; [exact q|]. intros X. apply X2. apply (q_in _ _ _ k q). exact X.
      * simpl. intros c C. destruct (o c C) as (Y1 & Y2 & Y3). splits; auto. intros ->. simpl in C. intuition congruence.
      * simpl. intros c [C|C]; [discriminate|]. now apply pp.
      * simpl. intros c C. right. now apply rd.
      * simpl. simpl in dd. destruct dd; auto. congruence.
      * simpl. intros c C. assert (C' := C). apply fresh_spec in C'. simpl in C'. destruct (f c C) as (Y1 & Y2 & Y3 & Y4 & Y5 & Y6). splits; auto; [intuition|]. intros [?|?]; [discriminate|auto].
    + exact (p_run _ I).
    + simpl. destruct (Nat.lt_ge_cases (run s) 2) as [|G]; auto. right. right. destruct (in_dec Nat.eq_dec (run s) (started s)) as [|Ni]; auto. assert (X : fresh s (run s) = true) by (apply fresh_spec; auto). now destruct (p_fresh _ I _ X).
  - right. destruct (run s =? disp_c) eqn:N; [discriminate|]. apply Nat.eqb_neq in N. injection E as <-. rewrite <- Fl. now apply inv_yield.
  - right. destruct (run s =? disp_c) eqn:N; [discriminate|]. apply Nat.eqb_neq in N. injection E as <-. destruct (inv_switch s (upd (blocked s) (run s) true) (sleeping s) (gone s)) as (c & r & A & B & C & D); auto.
    + intros c C X. now rewrite upd_other in C.
    + intros c. destruct (Nat.eq_dec c (run s)) as [->|]; [rewrite upd_same|rewrite upd_other by auto; apply (p_excl _ I)].
      destruct (sleeping s (run s)) eqn:S1; [destruct (Off (run s)) as (_ & X & _); auto; easy|]. destruct (gone s (run s)) eqn:S2; [destruct (Off (run s)) as (_ & X & _); auto; easy|]. auto.
    + rewrite <- Fl in *. split; auto. unfold switch. simpl. rewrite A. auto.
  - right. destruct (run s =? disp_c) eqn:N; [discriminate|]. apply Nat.eqb_neq in N. injection E as <-. destruct (inv_switch s (blocked s) (upd (sleeping s) (run s) true) (gone s)) as (c & r & A & B & C & D); auto.
    + intros c C X. now rewrite upd_other in C.
    + intros c. destruct (Nat.eq_dec c (run s)) as [->|]; [rewrite upd_same|rewrite upd_other by auto; apply (p_excl _ I)].
      destruct (blocked s (run s)) eqn:S1; [destruct (Off (run s)) as (_ & X & _); auto; easy|]. destruct (gone s (run s)) eqn:S2; [destruct (Off (run s)) as (_ & X & _); auto; easy|]. split; auto; discriminate.
    + rewrite <- Fl in *. split; auto. unfold switch. simpl. rewrite A. auto.
  - right. destruct (run s <? 2) eqn:N; [discriminate|]. apply Nat.ltb_ge in N. injection E as <-. destruct (inv_switch s (blocked s) (sleeping s) (upd (gone s) (run s) true)) as (c & r & A & B & C & D); auto.
    + unfold disp_c. lia.
    + intros c C X. now rewrite upd_other in C.
    + intros c. destruct (Nat.eq_dec c (run s)) as [->|]; [rewrite upd_same|rewrite upd_other by auto; apply (p_excl _ I)].
      destruct (blocked s (run s)) eqn:S1; [destruct (Off (run s)) as (_ & X & _); auto; easy|]. destruct (sleeping s (run s)) eqn:S2; [destruct (Off (run s)) as (_ & X & _); auto; easy|]. split; auto; discriminate.
    + rewrite <- Fl in *. split; auto. unfold switch. simpl. rewrite A. auto.
  - right. destruct (blocked s c) eqn:B, (run s =? disp_c) eqn:N; try discriminate. simpl in E. injection E as <-. destruct (Off c) as (X1 & X2 & X3); auto. destruct (p_excl _ I c) as (Ex & _). destruct (Ex B) as (Ex1 & Ex2). split; auto.
    assert (Cs : c < 2 \/ In c (started s)). { destruct (Nat.lt_ge_cases c 2); auto. right. destruct (in_dec Nat.eq_dec c (started s)) as [|Ni]; auto. assert (X : fresh s c = true) by (apply fresh_spec; auto). destruct (p_fresh _ I _ X) as (_ & _ & Y & _). congruence. }
    assert (Bl : forall d, upd (blocked s) c false d = true -> blocked s d = true) by (intros d; destruct (Nat.eq_dec d c) as [->|]; [rewrite upd_same; discriminate|now rewrite upd_other]).
    apply inv_awakened; auto; simpl; [|now rewrite upd_same]. destruct I as [q n rn o ex pp rd dd f pd st]. constructor; simpl; auto.
    + intros d [D|D]; auto.
    + intros d. destruct (ex d). split; auto.
    + intros k K. destruct (f k K) as (Y1 & Y2 & Y3 & Y4 & Y5 & Y6). splits; auto. destruct (upd (blocked s) c false k) eqn:Z; auto. apply Bl in Z. congruence.
  - right. destruct (sleeping s c) eqn:B, (run s =? disp_c) eqn:N; try discriminate. simpl in E. injection E as <-. destruct (Off c) as (X1 & X2 & X3); auto. destruct (p_excl _ I c) as (Ex & Ex2). specialize (Ex2 B). split; auto.
    assert (Bc : blocked s c = false) by (destruct (blocked s c) eqn:Z; auto; destruct (Ex eq_refl); congruence).
    assert (Cs : c < 2 \/ In c (started s)). { destruct (Nat.lt_ge_cases c 2); auto. right. destruct (in_dec Nat.eq_dec c (started s)) as [|Ni]; auto. assert (X : fresh s c = true) by (apply fresh_spec; auto). destruct (p_fresh _ I _ X) as (_ & _ & _ & Y & _). congruence. }
    assert (Bl : forall d, upd (sleeping s) c false d = true -> sleeping s d = true) by (intros d; destruct (Nat.eq_dec d c) as [->|]; [rewrite upd_same; discriminate|now rewrite upd_other]).
    apply inv_awakened; auto; simpl; [|now rewrite upd_same]. destruct I as [q n rn o ex pp rd dd f pd st]. constructor; simpl; auto.
    + intros d [D|[D|D]]; auto.
    + intros d. destruct (ex d) as (E1 & E2). split; auto. intros D. destruct (E1 D). split; auto. destruct (upd (sleeping s) c false d) eqn:Z; auto. apply Bl in Z. congruence.
    + intros k K. destruct (f k K) as (Y1 & Y2 & Y3 & Y4 & Y5 & Y6). splits; auto. destruct (upd (sleeping s) c false k) eqn:Z; auto. apply Bl in Z. congruence.
  - right. destruct (run s =? disp_c) eqn:N; [|discriminate]. unfold yield_ in E. destruct (rq s) as [|c r] eqn:R; [injection E as <-; auto|]. injection E as <-. split; [eapply inv_pick; eauto|]. unfold awakened, switch. rewrite R. auto.
  - destruct (existsb (Nat.eqb c) (started s)) eqn:S1; [|discriminate]. destruct (run s =? disp_c) eqn:N; try discriminate. simpl in E.
    destruct (props s c) as [q|] eqn:P; injection E as <-; [|left; split; [intros H; now destruct (p_props _ I c H)|auto]].
    destruct (algo s c) eqn:A.
    + right. rewrite <- Fl. apply inv_set; auto. apply existsb_exists in S1. destruct S1 as (x & S1 & S2). apply Nat.eqb_eq in S2. subst x. pose proof (p_started _ I c S1). unfold disp_c. lia.
    + unfold set_priority. destruct (p =? q)%Z; [right; auto|]. rewrite A. left. split; auto. intros H. destruct (p_props _ I c H). congruence.
  - destruct (run s =? disp_c) eqn:N; try discriminate. apply Nat.eqb_neq in N.
    destruct (props s (run s)) as [q|] eqn:P; injection E as <-; [|right; rewrite <- Fl; now apply inv_yield].
    destruct (algo s (run s)) eqn:A.
    + right. rewrite <- Fl. now apply inv_set.
    + unfold set_priority. destruct (p =? q)%Z; [right; auto|]. rewrite A. left. split; auto. intros H. destruct (p_props _ I _ H). congruence.
Qed.
Lemma inv_init : PInv init.
Proof.
  constructor; simpl; auto; try easy.
  - constructor; [repeat constructor|auto].
  - repeat constructor; easy.
  - unfold main_c, disp_c. intuition discriminate.
  - intros c [|[|]]; discriminate.
  - intros c [H|[]]. injection H as <-. split; [discriminate|auto].
  - intros c [<-|[]]. auto.
  - intros k K. apply fresh_spec in K. destruct K as (K & _). unfold main_c, disp_c. splits; auto; try lia; intros [H|[]]; try injection H as H; lia.
Qed.
Lemma inv_reachable s : reachable step init s -> failed s = None -> PInv s.
Proof.
  intros R F. assert (G : failed s = None -> PInv s); [|auto]. clear F. revert s R. apply (reachable_inv step (fun s => failed s = None -> PInv s)); [intros _; apply inv_init|].
  intros s l s' I E F. assert (F0 : failed s = None) by (unfold step in E; destruct (failed s); [discriminate|auto]).
  destruct (inv_step s l s' (I F0) E) as [(_ & [X|X])|(X & _)]; auto; congruence.
Qed.
