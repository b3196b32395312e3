(** C142: promises and futures of values whose constructors throw. *)
From Coq Require Import List Arith Bool Lia.
From Verif Require Import Base FutThrow FutThrowSpec FutThrowFacts.
Import ListNotations.

Theorem C142_once s : reachable step init_state s -> once (log s).
Proof.
  intros R. destruct (reach_inv _ R) as (I & _). pose proof (i_log _ I) as G. split.
  - intros l1 e l2 E M. rewrite E in G. apply good_split in G. destruct G as (_ & G). destruct e; tauto.
  - intros l1 l2 E. rewrite E in G. apply good_split in G. apply G.
Qed.
Theorem C142_faithful s : reachable step init_state s -> faithful (log s).
Proof.
  intros R. destruct (reach_inv _ R) as (I & _). pose proof (i_log _ I) as G. unfold faithful. splits.
  - intros H. destruct (good_in _ _ G H) as (l1 & l2 & E & _ & []).
  - intros H. destruct (good_in _ _ G H) as (l1 & l2 & E & _ & []).
  - intros v H. destruct (good_in _ _ G H) as (l1 & l2 & -> & _ & W). apply in_or_app. right. right. exact W.
  - intros v H. destruct (good_in _ _ G H) as (l1 & l2 & -> & _ & W). apply in_or_app. right. right. exact W.
  - intros v H. destruct (good_in _ _ G H) as (l1 & l2 & -> & _ & w & W). exists w. apply in_or_app. right. right. exact W.
Qed.
Theorem C142_clean s : reachable step init_state s -> clean (log s).
Proof.
  intros R. destruct (reach_inv _ R) as (I & _). pose proof (i_log _ I) as G. unfold clean. splits.
  - intros l1 v l2 E (w & W). rewrite E in G. apply in_app_or in W. destruct W as [W|W].
    + apply in_split in W. destruct W as (k1 & k2 & ->). rewrite <- app_assoc in G. apply good_split in G. destruct G as (_ & G). apply (G v). apply in_or_app. right. left. auto.
    + apply good_split in G. destruct G as (_ & G). exact (G w W).
  - intros l1 v l2 E. rewrite E in G. split; [apply good_split in G; apply G|]. intros (w & W). apply in_app_or in W. destruct W as [W|W].
    + apply in_split in W. destruct W as (k1 & k2 & ->). rewrite <- app_assoc in G. apply good_split in G. destruct G as (_ & _ & G). apply (G v). apply in_or_app. right. left. auto.
    + apply good_split in G. destruct G as (_ & _ & G). exact (G w W).
  - intros F. destruct (log s) as [|e l]; [destruct F|]. destruct G as ((G0 & G1) & G2). destruct F as [->|F]; [|elim (G0 F)]. split; [exists l; auto|]. intros v [H|H]; [discriminate|]. right. auto.
Qed.
Theorem C142_broken_only s : reachable step init_state s -> broken_only (log s).
Proof.
  intros R B v V. destruct (C142_once s R) as (O & _). apply in_split in B. destruct B as (l1 & l2 & E). rewrite E in V. apply in_app_or in V. destruct V as [V|[V|V]].
  - apply in_split in V. destruct V as (k1 & k2 & ->). rewrite <- app_assoc in E. apply (O _ _ _ E Logic.I). exists (EExc Broken). split; auto. apply in_or_app. right. left. auto.
  - discriminate.
  - apply (O _ _ _ E Logic.I). exists (ESet v). split; auto.
Qed.
(** A set_value() that throws leaves promise and state as they were: the next one succeeds. *)
Theorem C142_retry s v x w s1 s2 : reachable step init_state s -> step s (SetValue v (Some x)) = Some s1 -> log s1 = EFail x :: log s -> step s1 (SetValue w None) = Some s2 ->
  log s2 = ESet w :: ECons w :: EFail x :: log s /\ (ready s1, exc s1, obj s1, prov s1, obt s1, fut s1, shr s1, freed s1) = (ready s, exc s, obj s, prov s, obt s, fut s, shr s, freed s).
Proof.
  intros R H1 L H2. simpl in H1. destruct (prov s) eqn:P; [|discriminate]. unfold set_value_ in H1. destruct (ready s) eqn:RD; injection H1 as <-.
  - simpl in L. discriminate.
  - simpl in H2. rewrite P in H2. unfold set_value_ in H2. simpl in H2. rewrite RD in H2. injection H2 as <-. simpl. rewrite RD, P. auto.
Qed.
(** If nothing but failing calls has been made, the destructor of the provider stores broken_promise. *)
Theorem C142_broken s s' : reachable step init_state s -> obt s = true -> ~ satisfied (log s) -> step s DropProv = Some s' -> In (EExc Broken) (log s').
Proof.
  intros R O N H. destruct (reach_inv _ R) as (I & _). assert (RD : ready s = false) by (destruct (ready s) eqn:E; auto; apply (i_sat _ I) in E; tauto).
  simpl in H. destruct (prov s); [|discriminate]. injection H as <-. rewrite O. unfold owner_destroyed, set_exception_. rewrite RD. unfold release. simpl. destruct (fut s); simpl; auto. destruct (shr s); simpl; auto.
Qed.
(** The exception of the constructor of the result becomes the outcome of the packaged_task. *)
Theorem C142_task s v x s' : reachable step init_state s -> ~ satisfied (log s) -> step s (RunVal v (Some x)) = Some s' -> log s' = EExc (User x) :: EFail x :: log s.
Proof.
  intros R N H. destruct (reach_inv _ R) as (I & _). assert (RD : ready s = false) by (destruct (ready s) eqn:E; auto; apply (i_sat _ I) in E; tauto).
  simpl in H. destruct (prov s); [|discriminate]. injection H as <-. unfold run_val, set_exception_. rewrite RD. simpl. rewrite RD. reflexivity.
Qed.

Lemma release_keeps s : fut (release s) = fut s /\ obt (release s) = obt s.
Proof. unfold release. destruct (prov s || fut s || negb (shr s =? 0)); auto. Qed.
Lemma read_keeps s e : fut (read s e) = fut s /\ obt (read s e) = obt s.
Proof. unfold read. destruct (exc s); auto. destruct (obj s); auto. Qed.
Lemma sete_keeps s x : fut (set_exception_ s x) = fut s /\ obt (set_exception_ s x) = obt s.
Proof. unfold set_exception_. destruct (ready s); auto. Qed.
Lemma setv_keeps s v t : fut (set_value_ s v t) = fut s /\ obt (set_value_ s v t) = obt s.
Proof. unfold set_value_. destruct (ready s); auto. destruct t; auto. Qed.
Lemma fut_step s l s' : step s l = Some s' -> (fut s = true -> obt s = true) ->
  (fut s' = true -> obt s' = true) /\ (obt s = true -> fut s = false -> obt s' = true /\ fut s' = false) /\ (consumes l -> obt s' = true /\ fut s' = false /\ fut s = true).
Proof.
  intros H I. destruct l; simpl in H;
    try (destruct (prov s); [|discriminate]; injection H as <-;
         first [rewrite (proj1 (setv_keeps _ _ _)), (proj2 (setv_keeps _ _ _)) | rewrite (proj1 (sete_keeps _ _)), (proj2 (sete_keeps _ _)) | idtac]; simpl; tauto).
  - destruct (prov s); [|discriminate]. injection H as <-. unfold run_val. destruct thr as [x|]; [destruct (ready s); [simpl; tauto|rewrite (proj1 (sete_keeps _ _)), (proj2 (sete_keeps _ _)); simpl; tauto]|rewrite (proj1 (setv_keeps _ _ _)), (proj2 (setv_keeps _ _ _)); simpl; tauto].
  - destruct (prov s && negb (obt s)) eqn:E; [|discriminate]. injection H as <-. simpl. apply andb_prop in E. destruct E as [_ E]. apply negb_true_iff in E. rewrite E. splits; auto; try discriminate; tauto.
  - destruct (fut s && ready s) eqn:E; [|discriminate]. injection H as <-. apply andb_prop in E. destruct E as [E _]. rewrite (proj1 (release_keeps _)), (proj2 (release_keeps _)). simpl. rewrite (proj2 (read_keeps _ _)). splits; auto; discriminate.
  - destruct (fut s) eqn:E; [|discriminate]. injection H as <-. simpl. splits; auto; discriminate.
  - destruct (shr s); [discriminate|]. injection H as <-. simpl. tauto.
  - destruct (shr s); [discriminate|]. destruct (ready s); [|discriminate]. injection H as <-. rewrite (proj1 (read_keeps _ _)), (proj2 (read_keeps _ _)). simpl. tauto.
  - destruct (shr s); [discriminate|]. injection H as <-. rewrite (proj1 (release_keeps _)), (proj2 (release_keeps _)). simpl. tauto.
  - destruct (prov s); [|discriminate]. injection H as <-. rewrite (proj1 (release_keeps _)), (proj2 (release_keeps _)). simpl. destruct (obt s) eqn:E; [|simpl; rewrite E; tauto].
    unfold owner_destroyed. destruct (ready s); [rewrite E; tauto|]. rewrite (proj1 (sete_keeps _ _)), (proj2 (sete_keeps _ _)). rewrite E. tauto.
  - destruct (fut s) eqn:E; [|discriminate]. injection H as <-. rewrite (proj1 (release_keeps _)), (proj2 (release_keeps _)). simpl. splits; auto; discriminate.
Qed.
(** There is one future, and it is used up by the first get(), whether that returns or throws, by share() and by its destruction. *)
Theorem C142_one_future ls1 l ls2 s : exec step init_state (ls1 ++ l :: ls2) = Some s -> consumes l -> forall l', In l' ls2 -> ~ consumes l'.
Proof.
  intros E C. apply exec_app in E. destruct E as (s1 & E1 & E2).
  assert (I1 : fut s1 = true -> obt s1 = true).
  { assert (R : reachable step init_state s1) by (exists ls1; auto). revert s1 R E1 E2. intros s1 R _ _. apply (reachable_inv step (fun s => fut s = true -> obt s = true) init_state); auto.
    intros a b c H1 H2. apply (fut_step _ _ _ H2 H1). }
  simpl in E2. destruct (step s1 l) as [s2|] eqn:S; [|discriminate]. destruct (fut_step _ _ _ S I1) as (_ & _ & X). destruct (X C) as (O & F & _). clear - E2 O F.
  revert s2 E2 O F. induction ls2 as [|m ls2 IH]; intros s2 E O F l' []; simpl in E; (destruct (step s2 m) as [s3|] eqn:S; [|discriminate]); destruct (fut_step _ _ _ S (fun _ => O)) as (_ & K & X).
  - subst m. intros C. destruct (X C) as (_ & _ & Y). congruence.
  - destruct (K O F) as (O3 & F3). apply (IH s3 E O3 F3 l' H).
Qed.

(** set_value() fails, then succeeds, then is refused; the move out of get() fails; everything is destroyed. *)
Definition rough : list label := [GetFuture; SetValue 4 (Some 9); SetValue 5 None; SetValue 6 None; Get (Some 8); DropProv].
Example C142_rough : exists s, reachable step init_state s /\ log s = [EFree; EDest 5; EMoveFail 8; EAlready; ESet 5; ECons 5; EFail 9].
Proof. apply (reach_by step init_state rough). vm_compute. reflexivity. Qed.
Example C142_shared : exists s, reachable step init_state s /\ log s = [EFree; EDest 5; EGot 5; EGot 5; ESet 5; ECons 5].
Proof. apply (reach_by step init_state [GetFuture; Share; SCopy; SetValue 5 None; DropProv; SGet; SDrop; SGet; SDrop]). vm_compute. reflexivity. Qed.
Example C142_broken_meets : exists s s', reachable step init_state s /\ obt s = true /\ ~ satisfied (log s) /\ step s DropProv = Some s' /\ log s' = [EExc Broken; EFail 9].
Proof.
  destruct (exec step init_state [GetFuture; SetValue 4 (Some 9)]) as [s|] eqn:E; [|discriminate]. exists s. pose proof E as E0. vm_compute in E. injection E as <-.
  eexists. splits; [exists [GetFuture; SetValue 4 (Some 9)]; exact E0| | |reflexivity|]; auto. intros (e & [<-|[]] & []).
Qed.
Example C142_retry_meets : exists s1 s2, step init_state (SetValue 1 (Some 2)) = Some s1 /\ log s1 = [EFail 2] /\ step s1 (SetValue 3 None) = Some s2.
Proof. eexists. eexists. splits; reflexivity. Qed.
Example C142_task_meets : exists s, reachable step init_state s /\ log s = [EFree; ERethrow (User 7); EExc (User 7); EFail 7].
Proof. apply (reach_by step init_state [GetFuture; RunVal 3 (Some 7); DropProv; Get None]). vm_compute. reflexivity. Qed.
Example C142_one_future_meets : exists s, exec step init_state ([GetFuture; SetValue 5 None] ++ Get (Some 8) :: [DropProv]) = Some s.
Proof. eexists. reflexivity. Qed.
Print Assumptions C142_once.
Print Assumptions C142_faithful.
Print Assumptions C142_clean.
Print Assumptions C142_broken_only.
Print Assumptions C142_retry.
Print Assumptions C142_broken.
Print Assumptions C142_task.
Print Assumptions C142_one_future.
