(** C49, C71 for detail::spinlock_ttas and detail::spinlock_ttas_adaptive. *)
From Coq Require Import List Arith Bool Lia.
From Verif Require Import Base Ttas TtasSpec.
Import ListNotations.

(** [h]: the holder. *)
Record inv (s : st) (h : option nat) : Prop := {
  i_hold : forall t n, pc s t = Inside n <-> inside (log s) t = Some n;
  i_uniq : forall t n, pc s t = Inside n -> h = Some t;
  i_some : forall t, h = Some t -> exists n, pc s t = Inside n;
  i_lock : locked s = match h with Some _ => true | None => false end;
  i_try : forall l1 t l2, log s = l1 ++ ETryFail t :: l2 -> exists u n, inside l2 u = Some n;
  i_hist : In (locked s) (hist s);
  i_rel : forall t n, In (ERelease t n) (log s) -> match h with Some u => In n (view s u) | None => In n (mview s) end;
  i_acq : forall l1 t n v l2, log s = l1 ++ EAcquire t n v :: l2 -> (forall u, inside l2 u = None) /\ forall u m, In (ERelease u m) l2 -> In m v
}.
Ltac splitlog H := match type of H with _ :: _ = ?l1 ++ _ :: _ => destruct l1 as [|? ?]; simpl in H; [inversion H; subst; clear H|injection H as ? H; subst] end.
Lemma inv_step s h l s' : inv s h -> step s l = Some s' -> exists h', inv s' h'.
Proof.
  intros I St. assert (Qu : forall t p, (forall n, pc s t <> Inside n) -> (forall n, p <> Inside n) -> inv (with_pc s t p) h).
  { intros t p H1 H2. constructor; simpl; try apply I.
    - intros u n. upds; [|apply I]. split; [intros E; now apply H2 in E|]. intros E. apply (i_hold s h I) in E. now apply H1 in E.
    - intros u n. upds; [intros E; now apply H2 in E|apply I].
    - intros u E. destruct (i_some s h I u E) as [n X]. exists n. upds; auto. now apply H1 in X. }
  assert (Ex : forall t p e, (forall n, pc s t <> Inside n) -> (forall n, p <> Inside n) -> (e = [] \/ e = [ETryFail t]) -> exists h', inv (exchange s t p e) h').
  { intros t p e H1 H2 He. unfold exchange. pose proof (i_lock s h I) as L. destruct h as [u|].
    - rewrite L. exists (Some u). assert (u <> t) by (intros ->; destruct (i_some _ _ I t eq_refl) as [n X]; now apply H1 in X).
      assert (Lg : forall v, inside (e ++ log s) v = inside (log s) v) by (intros v; destruct He as [->| ->]; reflexivity).
      constructor; simpl.
      + intros v n. rewrite Lg. upds; [|apply I]. split; [intros E; now apply H2 in E|]. intros E. apply (i_hold _ _ I) in E. now apply H1 in E.
      + intros v n. upds; [intros E; now apply H2 in E|apply I].
      + intros v E. destruct (i_some _ _ I v E) as [n X]. exists n. upds; auto. congruence.
      + reflexivity.
      + intros l1 v l2 E. destruct He as [->| ->]; simpl in E; [now apply (i_try _ _ I) in E|]. splitlog E; [|now apply (i_try _ _ I) in E]. destruct (i_some _ _ I u eq_refl) as [n X]. exists u, n. now apply (i_hold _ _ I).
      + auto.
      + intros v n Hi. updt. apply (i_rel _ _ I v n). destruct He as [->| ->]; simpl in Hi; auto. destruct Hi; auto. discriminate.
      + intros l1 v n w l2 E. destruct He as [->| ->]; simpl in E; [now apply (i_acq _ _ I) in E|]. splitlog E. now apply (i_acq _ _ I) in E.
    - rewrite L. exists (Some t). assert (No : forall v, inside (log s) v = None). { intros v. destruct (inside (log s) v) as [n|] eqn:E; auto. apply (i_hold _ _ I) in E. now apply (i_uniq _ _ I) in E. }
      constructor; simpl.
      + intros v n. destruct (Nat.eqb_spec v t) as [->|N]; updt; [split; congruence|]. apply I.
      + intros v n. upds; auto. intros E. apply (i_uniq _ _ I) in E. discriminate.
      + intros v E. injection E as <-. exists (next s). now updt.
      + reflexivity.
      + intros l1 v l2 E. splitlog E. now apply (i_try _ _ I) in E.
      + auto.
      + intros v n [E|Hi]; [discriminate|]. updt. apply in_or_app. right. apply (i_rel _ _ I v n Hi).
      + intros l1 v n w l2 E. splitlog E; [|now apply (i_acq _ _ I) in E]. split; auto. intros u m Hi. apply in_or_app. right. apply (i_rel _ _ I u m Hi). }
  destruct l as [t|t|t b|t|t]; simpl in St.
  - destruct (pc s t) eqn:P; try discriminate. injection St as <-. exists h. apply Qu; intros n; congruence.
  - destruct (pc s t) eqn:P; try discriminate. injection St as <-. exists h. apply Qu; intros n; congruence.
  - destruct (pc s t) eqn:P; try discriminate. destruct (existsb _ _); [|discriminate]. injection St as <-. exists h. apply Qu; intros n; destruct b; congruence.
  - destruct (pc s t) eqn:P; try discriminate; injection St as <-; apply Ex; auto; intros n; congruence.
  - destruct (pc s t) as [| | | |n] eqn:P; try discriminate. injection St as <-. exists None. assert (h = Some t) by (eapply i_uniq; eauto). subst h. constructor; simpl.
    + intros v m. destruct (Nat.eqb_spec v t) as [->|N]; updt; [split; congruence|]. apply I.
    + intros v m. upds; [congruence|]. intros E. apply (i_uniq _ _ I) in E. congruence.
    + discriminate.
    + reflexivity.
    + intros l1 v l2 E. splitlog E. now apply (i_try _ _ I) in E.
    + auto.
    + intros v m [E|Hi]; [left; congruence|]. right. apply (i_rel _ _ I v m Hi).
    + intros l1 v m w l2 E. splitlog E. now apply (i_acq _ _ I) in E.
Qed.
Lemma inv_reach s : reachable step init_state s -> exists h, inv s h.
Proof.
  revert s. apply reachable_inv.
  - exists None. constructor; simpl; try discriminate; auto; try (intros; now destruct l1); try contradiction. intros t n. split; discriminate.
  - intros s l s' [h I] St. eapply inv_step; eauto.
Qed.

(** ** C49: at most one thread is between lock()/successful try_lock() and unlock(). *)
Theorem C49_ttas_exclusion s : reachable step init_state s -> forall t u n m, inside (log s) t = Some n -> inside (log s) u = Some m -> t = u.
Proof. intros R t u n m H1 H2. destruct (inv_reach s R) as [h I]. apply (i_hold _ _ I) in H1, H2. apply (i_uniq _ _ I) in H1, H2. congruence. Qed.
(** Nobody is inside at the moment of an acquisition, and somebody is when try_lock() fails. *)
Theorem C49_ttas_exact s : reachable step init_state s ->
  (forall l1 t n v l2, log s = l1 ++ EAcquire t n v :: l2 -> forall u, inside l2 u = None) /\
  (forall l1 t l2, log s = l1 ++ ETryFail t :: l2 -> exists u n, inside l2 u = Some n).
Proof. intros R. destruct (inv_reach s R) as [h I]. split; [intros l1 t n v l2 E; apply (i_acq _ _ I _ _ _ _ _ E)|apply I]. Qed.
(** A free lock can be taken by every thread that is inside lock(). *)
Theorem C49_ttas_free s t : reachable step init_state s -> wants s t -> (forall u, inside (log s) u = None) ->
  exists ls s' n v, exec step s ls = Some s' /\ length ls <= 2 /\ log s' = EAcquire t n v :: log s.
Proof.
  intros R W F. destruct (inv_reach s R) as [h I]. assert (L : locked s = false). { rewrite (i_lock _ _ I). destruct h as [u|]; auto. destruct (i_some _ _ I u eq_refl) as [n X]. apply (i_hold _ _ I) in X. now rewrite F in X. }
  destruct W as [P|P].
  - exists [Load t false; Go t]. cbn [exec step]. rewrite P. assert (X : existsb (Bool.eqb false) (hist s) = true). { apply existsb_exists. exists false. split; auto. rewrite <- L. apply I. } rewrite X. cbn [pc with_pc]. updt. unfold exchange. cbn [locked with_pc]. rewrite L. do 3 eexists. splits; [reflexivity|auto|reflexivity].
  - exists [Go t]. cbn [exec step]. rewrite P. unfold exchange. rewrite L. do 3 eexists. splits; [reflexivity|auto|reflexivity].
Qed.
(** ** C71: every critical section happens before the later ones. *)
Theorem C71_ttas s : reachable step init_state s -> forall l1 t n v l2, log s = l1 ++ EAcquire t n v :: l2 -> forall u m, In (ERelease u m) l2 -> In m v.
Proof. intros R l1 t n v l2 E. destruct (inv_reach s R) as [h I]. apply (i_acq _ _ I _ _ _ _ _ E). Qed.

(** Thread 2 waits for thread 1, thread 3 tries in vain. The stale value "unlocked" sends thread 2 to the exchange too early. *)
Lemma ran ls (P : st -> Prop) : match exec step init_state ls with Some s => P s | None => False end -> exists s, exec step init_state ls = Some s /\ P s.
Proof. destruct (exec _ _ ls) as [s|]; [eauto|tauto]. Qed.
Example C49_ttas_ex : exists s, exec step init_state [Lock 1; Load 1 false; Go 1; TryLock 3; Go 3; Lock 2; Load 2 false; Go 2; Load 2 true; Unlock 1; Load 2 false; Go 2; Unlock 2; TryLock 3; Go 3] = Some s /\
  rev (log s) = [EAcquire 1 0 []; ETryFail 3; ERelease 1 0; EAcquire 2 1 [0]; ERelease 2 1; EAcquire 3 2 [1; 0]] /\ inside (log s) 3 = Some 2.
Proof. apply ran. vm_compute. auto. Qed.
Example C49_ttas_free_ex : exists s, exec step init_state [Lock 1; Load 1 false; Go 1; Lock 2; Load 2 false; Unlock 1] = Some s /\ wants s 2 /\ forall u, inside (log s) u = None.
Proof.
  destruct (ran [Lock 1; Load 1 false; Go 1; Lock 2; Load 2 false; Unlock 1] (fun s => pc s 2 = Xchg /\ log s = [ERelease 1 0; EAcquire 1 0 []])) as (s & E & P & L); [vm_compute; auto|]. exists s. splits; [exact E|now right|]. intros u. rewrite L. simpl. destruct (u =? 1); reflexivity.
Qed.

Print Assumptions C49_ttas_exclusion.
Print Assumptions C49_ttas_exact.
Print Assumptions C49_ttas_free.
Print Assumptions C71_ttas.
