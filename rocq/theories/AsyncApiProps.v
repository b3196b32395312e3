(** C151: the adapters of a callback interface behave like a plain variable. *)
From Coq Require Import List Arith NArith Bool Lia.
From Verif Require Import Base AsyncApi.
Import ListNotations.

(** Specification over the log (newest first). The error injected since the last operation began, 0 if none was. *)
Fixpoint injected (l : list event) : N :=
  match l with [] => 0%N | EInject e :: _ => e | EBegin _ _ :: _ => 0%N | ERet _ _ _ :: r => injected r end.
(** The string of the last write that began without an injected error. *)
Fixpoint stored (d0 : N) (l : list event) : N :=
  match l with
  | [] => d0
  | EBegin _ (WriteEc d) :: r | EBegin _ (Write d) :: r => if N.eqb (injected r) 0 then d else stored d0 r
  | _ :: r => stored d0 r
  end.
(** What a synchronous operation would return at the end of [l]. *)
Definition answer (d0 : N) (o : op) (l : list event) : result :=
  match o with
  | WriteEc _ => REc (injected l)
  | Write _ => if N.eqb (injected l) 0 then RUnit else RExcWrite (injected l)
  | ReadEc => RPair (injected l) (stored d0 l)
  | Read => if N.eqb (injected l) 0 then RData (stored d0 l) else RExcRead (injected l)
  end.
(** [pending f o l0 l]: the last event of [f] in [l] is the beginning of [o]; [l0] is the log before it. *)
Definition of_fiber (f : nat) (e : event) : Prop := match e with EInject _ => False | EBegin g _ | ERet g _ _ => g = f end.
Definition pending (f : nat) (o : op) (l0 l : list event) : Prop := exists l1, l = l1 ++ EBegin f o :: l0 /\ forall e, In e l1 -> ~ of_fiber f e.
(** Every return is the answer at the beginning of the operation. *)
Fixpoint all_good (d0 : N) (l : list event) : Prop :=
  match l with
  | [] => True
  | ERet f o r :: l' => (exists l0, pending f o l0 l' /\ r = answer d0 o l0) /\ all_good d0 l'
  | _ :: l' => all_good d0 l'
  end.

Definition inv (d0 : N) (s : st) : Prop :=
  dat s = stored d0 (log s) /\ inj s = injected (log s) /\ all_good d0 (log s) /\
  forall f, match proms s f with
            | PNone => True
            | PSleep o e d => exists l0, pending f o l0 (log s) /\ e = injected l0 /\ d = stored d0 l0
            | PSet o r => exists l0, pending f o l0 (log s) /\ finish o r = answer d0 o l0
            end.
Lemma pending_cons : forall f o l0 l e, pending f o l0 l -> ~ of_fiber f e -> pending f o l0 (e :: l).
Proof. intros f o l0 l e (l1 & -> & H) N. exists (e :: l1). split; auto. intros x [<-|X]; auto. Qed.
Lemma finish_callback : forall d0 o l, finish o (callback o (injected l) (stored d0 l)) = answer d0 o l.
Proof. intros d0 [d|d| |] l; simpl; auto; destruct (N.eqb (injected l) 0); auto. Qed.
Lemma inv_step : forall d0 s l s', inv d0 s -> step s l = Some s' -> inv d0 s'.
Proof.
  intros d0 s l s' (Hd & Hi & Hg & Hp) St. destruct l as [e|f o|f|f]; simpl in St.
  - injection St as <-. unfold inv; simpl. splits; auto. intros f. specialize (Hp f). destruct (proms s f); auto; destruct Hp as (l0 & P & X); exists l0; split; auto; apply pending_cons; auto.
  - destruct (proms s f) eqn:E; try discriminate. injection St as <-. unfold inv; simpl. splits; auto.
    + rewrite <- Hi. destruct o; auto; rewrite Hd; destruct (N.eqb (inj s) 0); auto.
    + intros g. destruct (Nat.eq_dec g f) as [->|N].
      * rewrite upd_same. exists (log s). splits; auto. exists []. split; auto.
      * rewrite upd_other by auto. specialize (Hp g). destruct (proms s g); auto; destruct Hp as (l0 & P & X); exists l0; split; auto; apply pending_cons; auto; simpl; congruence.
  - pose proof (Hp f) as Hf. destruct (proms s f) as [|o e d|] eqn:E; try discriminate. injection St as <-. unfold inv; simpl. splits; auto.
    intros g. destruct (Nat.eq_dec g f) as [->|N]; [rewrite upd_same|rewrite upd_other by auto; apply Hp].
    destruct Hf as (l0 & P & -> & ->). exists l0. split; auto. apply finish_callback.
  - pose proof (Hp f) as Hf. destruct (proms s f) as [| |o r] eqn:E; try discriminate. injection St as <-. unfold inv; simpl. splits; auto.
    intros g. destruct (Nat.eq_dec g f) as [->|N]; [now rewrite upd_same|]. rewrite upd_other by auto.
    specialize (Hp g). destruct (proms s g); auto; destruct Hp as (l0 & P & X); exists l0; split; auto; apply pending_cons; auto; simpl; congruence.
Qed.
Lemma inv_reach : forall d0 s, reachable step (init d0) s -> inv d0 s.
Proof. intros d0. apply reachable_inv; [|apply inv_step]. unfold inv; simpl. splits; auto. Qed.
Lemma good_split : forall d0 l1 l f o r, all_good d0 (l1 ++ ERet f o r :: l) -> exists l0, pending f o l0 l /\ r = answer d0 o l0.
Proof. induction l1 as [|e l1 IH]; simpl; intros l f o r H; [apply H|]. destruct e; try (eapply IH; eauto; fail). destruct H as [_ H]. eapply IH; eauto. Qed.

(** C151: whatever the order in which the threads complete the operations of the fibers, each operation returns what a plain variable would have given at the moment the operation began; an injected error goes to exactly the next operation that begins. *)
Theorem C151_linear : forall d0 s l1 l f o r, reachable step (init d0) s -> log s = l1 ++ ERet f o r :: l -> exists l0, pending f o l0 l /\ r = answer d0 o l0.
Proof. intros d0 s l1 l f o r R E. destruct (inv_reach d0 s R) as (_ & _ & G & _). rewrite E in G. eapply good_split; eauto. Qed.
Print Assumptions C151_linear.

(** C151: an operation that has begun and not returned can return, whatever the others do, and needs nobody else but its thread. *)
Theorem C151_progress : forall d0 s f o l0, reachable step (init d0) s -> pending f o l0 (log s) ->
  exists s', (exec step s [LFire f; LGet f] = Some s' \/ exec step s [LGet f] = Some s') /\ log s' = ERet f o (answer d0 o l0) :: log s.
Proof.
  intros d0 s f o l0 R P.
  assert (U : forall o' l', pending f o' l' (log s) -> o' = o /\ l' = l0).
  { destruct P as (a & Ea & Ha). intros o' l' (b & Eb & Hb). rewrite Ea in Eb. clear - Ha Hb Eb. revert b Eb Hb. induction a as [|x a IH]; intros [|y b] E Hb; simpl in E.
    - injection E as <- <-. auto.
    - injection E as <- E. destruct (Hb (EBegin f o)); simpl; auto.
    - injection E as -> E. destruct (Ha (EBegin f o')); simpl; auto.
    - injection E as <- E. eapply IH; eauto; intros e X; [apply Ha|apply Hb]; simpl; auto. }
  assert (Q : proms s f <> PNone).
  { assert (J : forall s, reachable step (init d0) s -> proms s f = PNone -> forall o l, ~ pending f o l (log s)).
    { apply (reachable_inv step (fun s => proms s f = PNone -> forall o l, ~ pending f o l (log s))).
      - intros _ o1 l1 (a & E & _). destruct a; discriminate.
      - intros t l t' H St. clear - H St.
        assert (K : forall e o1 l1 lg, ~ of_fiber f e -> pending f o1 l1 (e :: lg) -> pending f o1 l1 lg).
        { intros e o1 l1 lg N (a & E & Ha). destruct a as [|x a]; injection E as -> E; [destruct N; reflexivity|]. exists a. split; auto. intros y Y. apply Ha. simpl. auto. }
        destruct l as [e|g o|g|g]; simpl in St.
        + injection St as <-. simpl. intros X o1 l1 P. apply K in P; auto. eapply H; eauto.
        + destruct (proms t g) eqn:E; try discriminate. injection St as <-. simpl. destruct (Nat.eq_dec f g) as [<-|N]; [rewrite upd_same; discriminate|]. rewrite upd_other by auto. intros X o1 l1 P. apply K in P; [|simpl; congruence]. eapply H; eauto.
        + destruct (proms t g) eqn:E; try discriminate. injection St as <-. simpl. destruct (Nat.eq_dec f g) as [<-|N]; [rewrite upd_same; discriminate|]. rewrite upd_other by auto. auto.
        + destruct (proms t g) eqn:E; try discriminate. injection St as <-. simpl. destruct (Nat.eq_dec f g) as [<-|N].
          * intros _ o1 l1 (a & A & Ha). destruct a as [|x a]; [discriminate|]. injection A as X _. subst x. eapply Ha; [left; reflexivity|]. reflexivity.
          * rewrite upd_other by auto. intros X o1 l1 P. apply K in P; [|simpl; congruence]. eapply H; eauto. }
    intros X. exact (J s R X o l0 P). }
  destruct (inv_reach d0 s R) as (_ & _ & _ & Hp). specialize (Hp f). destruct (proms s f) as [|o' e d|o' r] eqn:E; [congruence| |].
  - destruct Hp as (l' & P' & -> & ->). destruct (U _ _ P') as [-> ->]. eexists. split; [left; unfold exec; simpl; rewrite E; simpl; rewrite upd_same; reflexivity|]. simpl. now rewrite finish_callback.
  - destruct Hp as (l' & P' & Hr). destruct (U _ _ P') as [-> ->]. eexists. split; [right; unfold exec; simpl; rewrite E; reflexivity|]. simpl. now rewrite Hr.
Qed.
Print Assumptions C151_progress.

(** C151: what main() of adapt_callbacks.cpp asserts (266-311), whatever the thread does in between: a read that begins after a write that began without error, with no other write and no error in between, gives the string written. *)
Theorem C151_read_back : forall d0 f g d l1 l, injected l = 0%N -> (forall e, In e l1 -> match e with ERet _ _ _ => True | _ => False end) ->
  answer d0 Read (l1 ++ EBegin f (Write d) :: l) = RData d /\ answer d0 ReadEc (l1 ++ EBegin g (WriteEc d) :: l) = RPair 0 d.
Proof.
  intros d0 f g d l1 l H H1. assert (X : forall x, (x = EBegin f (Write d) \/ x = EBegin g (WriteEc d)) -> injected (l1 ++ x :: l) = 0%N /\ stored d0 (l1 ++ x :: l) = d).
  { intros x Hx. induction l1 as [|e l1 IH]; simpl; [destruct Hx as [->| ->]; rewrite H; auto|]. pose proof (H1 e (or_introl eq_refl)) as He. destruct e; try contradiction. simpl. apply IH. intros y Y. apply H1. simpl. auto. }
  unfold answer. destruct (X (EBegin f (Write d))) as [A B]; auto. destruct (X (EBegin g (WriteEc d))) as [A' B']; auto. rewrite A, B, A', B'. auto.
Qed.
Print Assumptions C151_read_back.

(** Two fibers: the second read is completed first; the injected error goes to the write. *)
Definition C151_run : list label := [LBegin 0 (Write 5); LInject 3; LBegin 1 (WriteEc 6); LBegin 2 Read; LFire 2; LGet 2; LFire 1; LGet 1; LFire 0; LGet 0].
Example C151_case : exists s, reachable step (init 0) s /\ log s = [ERet 0 (Write 5) RUnit; ERet 1 (WriteEc 6) (REc 3); ERet 2 Read (RData 5); EBegin 2 Read; EBegin 1 (WriteEc 6); EInject 3; EBegin 0 (Write 5)]%N.
Proof. apply (reach_by step (init 0) C151_run). vm_compute. reflexivity. Qed.
Example C151_case_pending : exists s, reachable step (init 0) s /\ pending 0 (Write 5) [] (log s).
Proof.
  apply (reach_by step (init 0) [LBegin 0 (Write 5); LInject 3]). vm_compute. exists [EInject 3]. split; auto. intros e [<-|[]] [].
Qed.
