(** Facts about MutexHb. *)
From Coq Require Import List Arith Bool Lia.
From Verif Require Import Base MutexHb MutexHbSpec.
Import ListNotations.

Lemma mem_in : forall n w, mem n w = true <-> In n w.
Proof. intros n w. unfold mem. rewrite existsb_exists. split; [intros (x & A & B); apply Nat.eqb_eq in B; subst; auto | intros H; exists n; rewrite Nat.eqb_refl; auto]. Qed.
Lemma ordered_incl : forall l w, incl l w -> ordered l w = true.
Proof. intros l w H. unfold ordered. apply forallb_forall. intros x X. apply mem_in. auto. Qed.
Lemma released_cons : forall u n e l, released u n (e :: l) -> released u n l \/ (e = ERel u /\ In (EAct u n) l).
Proof.
  intros u n e l (l1 & l2 & A & B). destruct l1 as [|x l1]; simpl in A; injection A as A1 A2.
  - right. subst. auto.
  - left. exists l1, l2. auto.
Qed.
Lemma owns_true : forall s t, owns s t = true <-> owner s = Some t.
Proof. intros s t. unfold owns. destruct (owner s); [|split; discriminate]. rewrite Nat.eqb_eq. split; congruence. Qed.

(** What the next owner knows. *)
Definition known (s : st) : list nat := match owner s with None => mv s | Some t => view s t end.
Record inv (s : st) : Prop := {
  i_rel : forall u n, released u n (log s) -> In n (known s);
  i_acc : incl (acc s) (known s);
  i_act : forall t n, In (EAct t n) (log s) -> In n (view s t);
  i_hold : holder (log s) = owner s;
  i_ex : exclusive (log s);
  i_race : race_free (log s);
  i_sync : synchronizes (log s) }.

Lemma init_inv : inv init_state.
Proof.
  constructor; simpl; auto; try tauto.
  - intros u n (l1 & l2 & A & _). destruct l1; discriminate.
  - intros x [].
  - intros t [].
  - intros l1 t w l2 H. destruct l1; discriminate.
Qed.
Lemma same : forall s s', inv s -> incl (known s) (known s') -> (forall t, incl (view s t) (view s' t)) -> log s' = log s -> owner s' = owner s -> acc s' = acc s -> inv s'.
Proof.
  intros s s' [A B C D E F G] K V L O X. constructor; rewrite ?L, ?O, ?X; auto.
  - intros u n R. apply K. eauto.
  - intros y Y. auto.
  - intros t n Y. apply V. auto.
Qed.
Lemma push : forall s s' e, inv s -> incl (known s) (known s') -> (forall t, incl (view s t) (view s' t)) -> log s' = e :: log s -> owner s' = holder (e :: log s) -> incl (acc s') (known s') ->
  match e with
  | EAcq t w => owner s = None /\ incl (known s) w /\ incl (view s t) w
  | ERel t | ETouch t => owner s = Some t
  | ERace _ => False
  | EAct t n => In n (view s' t)
  | _ => True end -> inv s'.
Proof.
  intros s s' e [A B C D E F G] K V L O X H. constructor; rewrite ?L; auto.
  - intros u n R. apply released_cons in R. destruct R as [R|(-> & R)]; [exact (K n (A u n R))|]. apply K. unfold known. rewrite H. auto.
  - intros t n [Y|Y]; [subst e; auto | apply V; auto].
  - simpl. destruct e; auto; rewrite D; splits; auto. destruct H; auto.
  - intros t [Y|Y]; [subst e; auto | apply (F t Y)].
  - intros l1 t w l2 Y. destruct l1 as [|x l1]; simpl in Y; injection Y as Y1 Y2.
    + subst. destruct H as (_ & H1 & H2). split; [intros u n R; apply H1; eauto | intros n Z; apply H2; auto].
    + apply (G l1 t w l2 Y2).
Qed.

Lemma view_up : forall s t w u, incl (view s t) w -> incl (view s u) (upd (view s) t w u).
Proof. intros s t w u H. destruct (Nat.eq_dec u t) as [->|N]; [rewrite upd_same; auto | rewrite upd_other by auto; apply incl_refl]. Qed.
(** critical sections that do not change the owner *)
Lemma known_section : forall s t c p e, incl (known s) (known (section s t (owner s) c p e)).
Proof.
  intros. unfold known, section. simpl. destruct (owner s) as [u|]; [|apply incl_appl, incl_refl]. apply view_up. apply incl_appr, incl_refl.
Qed.
Lemma view_section : forall s t o c p e u, incl (view s u) (view (section s t o c p e) u).
Proof. intros. unfold section. simpl. apply view_up. apply incl_appr, incl_refl. Qed.
Lemma section_inv : forall s t c p e, inv s -> (e = [] \/ e = [EErr t] \/ e = [EFail t]) -> inv (section s t (owner s) c p e).
Proof.
  intros s t c p e I [->|H].
  - apply (same s); auto; [apply known_section | apply view_section].
  - assert (incl (acc s) (known (section s t (owner s) c p e))) as A by (intros x X; apply known_section; apply (i_acc s I); auto).
    destruct H as [->| ->]; [apply (push s _ (EErr t)) | apply (push s _ (EFail t))]; try (apply known_section); try (apply view_section); auto; simpl; auto; symmetry; apply (i_hold s I).
Qed.
Lemma acquire_inv : forall rec s t o, inv s -> inv (acquire rec s t o).
Proof.
  intros rec s t o I. unfold acquire. destruct (owns s t); [destruct rec; [|destruct o]; apply section_inv; auto|].
  destruct (owner s) as [u|] eqn:O.
  - rewrite <- O. destruct o; apply section_inv; auto.
  - assert (incl (known s) (mv s ++ view s t)) as K by (unfold known; rewrite O; apply incl_appl, incl_refl).
    apply (push s _ (EAcq t (mv s ++ view s t))); simpl; auto; try (unfold known at 2; simpl; rewrite upd_same; auto; fail).
    + intros u. apply view_up, incl_appr, incl_refl.
    + unfold known. simpl. rewrite upd_same. intros x X. apply K, (i_acc s I); auto.
    + splits; auto. apply incl_appr, incl_refl.
Qed.
Lemma release_inv : forall rec s t p, inv s -> inv (release rec s t p).
Proof.
  intros rec s t p I. unfold release. destruct (owns s t) eqn:E; [|apply section_inv; auto]. apply owns_true in E.
  destruct (rec && negb (cnt s =? 1)); [apply section_inv; auto|].
  assert (incl (known s) (mv s ++ view s t)) as K by (unfold known; rewrite E; apply incl_appr, incl_refl).
  apply (push s _ (ERel t)); auto; [apply view_section | intros x X; apply K, (i_acc s I); auto].
Qed.
Lemma csection_inv : forall s t p, inv s -> inv (csection s t p).
Proof.
  intros s t p I. assert (forall u, incl (view s u) (view (csection s t p) u)) as V by (intros u; apply view_up, incl_appr, incl_refl).
  apply (same s); auto. unfold known. simpl. destruct (owner s); [apply V | apply incl_refl].
Qed.
Lemma step_inv : forall rec s l s', inv s -> step rec s l = Some s' -> inv s'.
Proof.
  intros rec s l s' I H. destruct l as [t|t|t o|t|t|t]; simpl in H.
  - destruct (pc s t); try discriminate. injection H as <-. assert (forall u, incl (view s u) (upd (view s) t (next s :: view s t) u)) as V by (intros u; apply view_up, incl_tl, incl_refl).
    assert (incl (known s) (match owner s with None => mv s | Some u => upd (view s) t (next s :: view s t) u end)) as K by (unfold known; destruct (owner s); auto; apply incl_refl).
    apply (push s _ (EAct t (next s))); auto; simpl; auto.
    + symmetry. apply (i_hold s I).
    + intros x X. apply K, (i_acc s I); auto.
    + rewrite upd_same. left. auto.
  - destruct (pc s t); try discriminate. destruct (owns s t) eqn:E; [|discriminate]. apply owns_true in E. injection H as <-.
    assert (known s = view s t) as KS by (unfold known; rewrite E; auto).
    rewrite (ordered_incl (acc s) (view s t)) by (rewrite <- KS; apply (i_acc s I)).
    assert (forall u, incl (view s u) (upd (view s) t (next s :: view s t) u)) as V by (intros u; apply view_up, incl_tl, incl_refl).
    apply (push s _ (ETouch t)); auto; simpl; auto.
    + unfold known at 2. simpl. rewrite E, KS. apply V.
    + symmetry. apply (i_hold s I).
    + unfold known. simpl. rewrite E, upd_same. intros x [X|X]; [left; auto | right; rewrite <- KS; apply (i_acc s I); auto].
  - assert (s' = mkSt (owner s) (cnt s) (mv s) (cv s) (acc s) (view s) (next s) (upd (pc s) t (Go o)) (log s)) as -> by (destruct (pc s t), o; try discriminate; congruence).
    apply (same s); auto; intros; apply incl_refl.
  - destruct (pc s t) as [|o|]; try discriminate. destruct o; injection H as <-; try (apply acquire_inv; auto; fail).
    + apply release_inv; auto.
    + apply release_inv, csection_inv; auto.
    + apply csection_inv; auto.
  - destruct (pc s t); try discriminate. injection H as <-. apply (same s); auto; intros; apply incl_refl.
  - destruct (pc s t) as [| |[]]; try discriminate; injection H as <-.
    + apply section_inv; auto.
    + apply csection_inv; auto.
Qed.
Lemma reach_inv : forall rec s, reachable (step rec) init_state s -> inv s.
Proof. intros rec. apply (reachable_inv (step rec) inv init_state init_inv). intros. eapply step_inv; eauto. Qed.
