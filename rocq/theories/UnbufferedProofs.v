From Coq Require Import List Arith Bool Lia.
From Verif Require Import Base Kernel KernelFacts WakeFacts SlotFacts Unbuffered UnbufferedSpec.
Import ListNotations.

Global Arguments wake : simpl never.
Global Arguments create_waker : simpl never.
Global Arguments suspend : simpl never.
Global Arguments wait_until_begin : simpl never.
Global Arguments wait_until_result : simpl never.
Global Arguments suspend_and_wait_end : simpl never.
Global Arguments yield : simpl never.

Ltac inj H := injection H as <-.
Ltac unf := unfold call_op, try_push, blockP, blockC, notify1, notifyA, goto, ret, set_kn, set_slot, set_closed, set_lkP, set_lkC,
  set_queue, set_frame, set_asrt, set_ub, add_log in *.
(** All the cases of a step; in each [s'] is replaced by the explicit new state. *)
Ltac stepcases Hs :=
  unfold step in Hs;
  match type of Hs with (if ub ?s then None else _) = _ => destruct (ub s) eqn:Eub; [discriminate Hs|] end;
  match type of Hs with (match ?l with _ => _ end) = _ => destruct l as [kl|f o|f|f|f] end;
  [ match type of Hs with (match ?x with _ => _ end) = _ => destruct x as [k'|] eqn:Ek; [|discriminate Hs] end;
    inj Hs
  | match type of Hs with (match ?x with _ => _ end) = _ => destruct x eqn:Ep; try discriminate Hs end;
    match type of Hs with (if ?x then _ else _) = _ => destruct x eqn:Er; [|discriminate Hs] end;
    match type of Hs with Some (call_op _ _ ?o) = _ => inj Hs; destruct o end
  | match type of Hs with (if ?x then _ else _) = _ => destruct x eqn:Er; [|discriminate Hs] end;
    unfold run_step in Hs;
    match type of Hs with (match ?x with _ => _ end) = _ => destruct x eqn:Ep; try discriminate Hs end;
    unfold try_push, blockP, blockC, notify1, notifyA in Hs;
    repeat match type of Hs with
    | context [match lkP ?s with _ => _ end] => destruct (lkP s) eqn:ElP; try discriminate Hs
    | context [match lkC ?s with _ => _ end] => destruct (lkC s) eqn:ElC; try discriminate Hs
    | context [if closed ?s then _ else _] => destruct (closed s) eqn:Ecl
    | context [match deadline ?o with _ => _ end] => destruct (deadline o) eqn:Edl
    | context [match deref ?s ?p with _ => _ end] => destruct (deref s p) eqn:Edr
    | context [if wait_until_result ?a ?b then _ else _] => destruct (wait_until_result a b) eqn:Ewr
    | context [match frames ?s ?f with _ => _ end] => destruct (frames s f) eqn:Efr; try discriminate Hs
    | context [match slot ?s with _ => _ end] => destruct (slot s) eqn:Esl
    | context [if waker_eqb ?a ?b then _ else _] => destruct (waker_eqb a b) eqn:Ewe
    | context [match create_waker ?a ?b with _ => _ end] => destruct (create_waker a b) as [k1 e1] eqn:Ecw
    | context [match notify_one ?a ?b with _ => _ end] => destruct (notify_one a b) as [k1 q1] eqn:Eno
    | context [match notify_all ?a ?b with _ => _ end] => destruct (notify_all a b) as [k1 q1] eqn:Ena
    | context [match suspend_and_wait ?a ?b ?c with _ => _ end] => destruct (suspend_and_wait a b c) as [[k1 q1] e1] eqn:Esw
    | context [match suspend_and_wait_until ?a ?b ?c ?d with _ => _ end] =>
        destruct (suspend_and_wait_until a b c d) as [[k1 q1] e1] eqn:Esw
    end; inj Hs
  | match type of Hs with (match ?x with _ => _ end) = _ => destruct x eqn:Ep; try discriminate Hs end;
    match type of Hs with (if ?x then _ else _) = _ => destruct x eqn:Er; [|discriminate Hs] end; inj Hs
  | match type of Hs with (match ?x with _ => _ end) = _ => destruct x eqn:Ep; try discriminate Hs end;
    match type of Hs with (if ?x then _ else _) = _ => destruct x eqn:Er; [|discriminate Hs] end; inj Hs ];
  unf; simpl in *.

Section Proofs.
Context {V : Type}.
Notation state := (state V). Notation pc := (pc V). Notation op := (op V). Notation event := (event V).

Definition op_of (p : pc) : option op :=
  match p with
  | Idle => None
  | IsC => Some IsClosed
  | PTop o | PTry o | PNotify o _ | PSusp o _ | PSuspT o _ _ | PDone o | PClear o | PLock o | PHold o
  | PWait o _ | PWaitT o _ _ | PRelock o _ _ => Some o
  | CTop o | CNotify o _ | CRead o _ | CWake o _ _ | CLock o | CHold o | CWait o _ | CWaitT o _ _ | CRelock o _ _ => Some o
  | X0 | X1 | X2 _ | X3 | X4 => Some Close
  end.

Definition sst (p : pc) : sstat :=
  match p with
  | PNotify _ e => SOffer e
  | PSusp _ e => SSlot e
  | PSuspT _ tp e => SSlotT tp e
  | PWait _ e => SUntimed 0 e
  | PWaitT _ tp e => STimed 0 tp e
  | PRelock _ tp e => SRelock 0 tp e
  | CWait _ e => SUntimed 1 e
  | CWaitT _ tp e => STimed 1 tp e
  | CRelock _ tp e => SRelock 1 tp e
  | _ => SNone
  end.

Definition wf (p : pc) : Prop :=
  match p with
  | PTop o | PTry o | PNotify o _ | PLock o | PHold o => is_push o
  | PSusp o _ | PWait o _ => exists v, o = Push v
  | PSuspT o tp _ | PWaitT o tp _ | PRelock o tp _ => exists v, o = PushUntil v tp
  | PDone o | PClear o => exists v tp, o = PushUntil v tp
  | CTop o | CNotify o _ | CRead o _ | CWake o _ _ | CLock o | CHold o => is_pop o
  | CWait o _ => o = Pop \/ o = ValuePop
  | CWaitT o tp _ | CRelock o tp _ => o = PopUntil tp
  | _ => True
  end.

Definition hasP (p : pc) : bool := match p with PHold _ | X4 => true | _ => false end.
Definition hasC (p : pc) : bool := match p with CHold _ => true | _ => false end.
(** producers that have not / have published their slot *)
Definition pre (p : pc) : bool :=
  match p with PTop _ | PTry _ | PLock _ | PHold _ | PWait _ _ | PWaitT _ _ _ | PRelock _ _ _ => true | _ => false end.
Definition post (p : pc) : bool :=
  match p with PNotify _ _ | PSusp _ _ | PSuspT _ _ _ | PDone _ | PClear _ => true | _ => false end.
Definition isP (p : pc) : bool := pre p || post p.
(** the epoch of the published waker *)
Definition epub (p : pc) : option nat :=
  match p with PNotify _ e | PSusp _ e | PSuspT _ _ e => Some e | _ => None end.
(** the slot a consumer has taken *)
Definition unread (p : pc) : option sptr := match p with CNotify _ p | CRead _ p => Some p | _ => None end.
Definition holds (p : pc) : option sptr := match p with CNotify _ p | CRead _ p | CWake _ p _ => Some p | _ => None end.
Definition closing (p : pc) : bool := match p with X1 | X2 _ | X3 | X4 => true | _ => false end.

Definition KI (s : state) : Prop := SInv (kn s) (queues s) (fun f => sst (pcs s f)).

Lemma pc_wf (s : state) l s' : (forall f, wf (pcs s f)) -> step s l = Some s' -> forall f, wf (pcs s' f).
Proof.
  intros H Hs g. pose proof (H g) as Hg.
  stepcases Hs; auto; pose proof (H f) as Hf; rewrite Ep in Hf; simpl in Hf; upds; auto; simpl; eauto.
  all: try (destruct o; simpl in *; try contradiction; try discriminate; inversion Edl; subst; eauto; fail).
  all: destruct Hf; subst; simpl; eauto.
Qed.

Lemma KI_upd k qs (pcs : fid -> pc) f p w :
  SInv k qs (upd (fun g => sst (pcs g)) f w) -> w = sst p -> SInv k qs (fun g => sst (upd pcs f p g)).
Proof. intros H ->. eapply SInv_ext; eauto. intros g. simpl. upds; auto. Qed.
Lemma KI_same k qs (pcs : fid -> pc) f p :
  SInv k qs (fun g => sst (pcs g)) -> sst p = sst (pcs f) -> SInv k qs (fun g => sst (upd pcs f p g)).
Proof. intros H E. eapply SInv_ext; eauto. intros g. simpl. upds; auto. Qed.

Definition FrI (s : state) : Prop := forall f,
  match frames s f with
  | Some r => isP (pcs s f) = true /\ call r = calls s f /\ (forall e, epub (pcs s f) = Some e -> we r = e)
  | None => isP (pcs s f) = false
  end.

(** A slot that is published belongs to a producer that has published its waker, or that is leaving. *)
Definition OffI (s : state) : Prop := forall f n,
  In (f, n) (consumed (log s)) \/ slot s = Some (f, n) \/ (exists c, holds (pcs s c) = Some (f, n) \/ pcs s c = X2 (f, n)) ->
  n <= calls s f /\ (n = calls s f -> pre (pcs s f) = false).

Lemma deref_alive (s : state) f n r : FrI s -> deref s (f, n) = Some r ->
  frames s f = Some r /\ n = calls s f /\ isP (pcs s f) = true /\ (forall e, epub (pcs s f) = Some e -> we r = e).
Proof.
  intros H Hd. specialize (H f). unfold deref in Hd. simpl in Hd. destruct (frames s f) as [r'|]; [|discriminate Hd].
  destruct (Nat.eqb_spec (call r') n); [|discriminate Hd]. inversion Hd; subst. intuition.
Qed.


(** Epochs only grow. *)
Definition emono (k k' : kern) : Prop := forall f, epoch (fib k f) <= epoch (fib k' f).
Lemma emono_refl k : emono k k. Proof. intros f. lia. Qed.
Lemma emono_trans k1 k2 k3 : emono k1 k2 -> emono k2 k3 -> emono k1 k3.
Proof. intros A B f. specialize (A f). specialize (B f). lia. Qed.
Lemma emono_wake k w : emono k (fst (wake k w)).
Proof.
  intros g. destruct w as [f e]. unfold wake. destruct (Nat.eqb_spec (epoch (fib k f)) e); simpl; [|lia]. upds; simpl; lia.
Qed.
Lemma emono_notify_one : forall q k k' q', notify_one k q = (k', q') -> emono k k'.
Proof.
  induction q as [|w q IH]; intros k k' q' H; unfold notify_one in H; fold notify_one in H; [inversion H; subst; apply emono_refl|].
  pose proof (emono_wake k w) as M. destruct (wake k w) as [k1 []]; simpl in M; [inversion H; subst; auto|].
  eapply emono_trans; eauto.
Qed.
Lemma emono_notify_all : forall q k k' q', notify_all k q = (k', q') -> emono k k'.
Proof.
  induction q as [|w q IH]; intros k k' q' H; unfold notify_all in H; fold notify_all in H; [inversion H; subst; apply emono_refl|].
  pose proof (emono_wake k w) as M. destruct (wake k w) as [k1 b]; simpl in M.
  eapply emono_trans; eauto.
Qed.
Lemma emono_create k f k' e : create_waker k f = (k', e) -> emono k k' /\ e = S (epoch (fib k f)) /\ epoch (fib k' f) = e.
Proof.
  unfold create_waker, set_fib. intros H. inversion H; subst. simpl. updt. simpl. splits; auto.
  intros g. simpl. upds; simpl; lia.
Qed.
Lemma emono_suspend k f : emono k (suspend k f).
Proof. intros g. unfold suspend. simpl. upds; simpl; lia. Qed.
Lemma emono_wait k f tp e : emono k (wait_until_begin k f tp e).
Proof. intros g. unfold wait_until_begin, suspend, set_fib. simpl. upds; simpl; lia. Qed.
Lemma emono_saw k f q k' q' e : suspend_and_wait k f q = (k', q', e) -> emono k k'.
Proof.
  unfold suspend_and_wait. destruct (create_waker k f) eqn:E. intros H. inversion H; subst.
  apply emono_create in E. eapply emono_trans; [apply E|apply emono_suspend].
Qed.
Lemma emono_sawu k f q tp k' q' e : suspend_and_wait_until k f q tp = (k', q', e) -> emono k k'.
Proof.
  unfold suspend_and_wait_until. destruct (create_waker k f) eqn:E. intros H. inversion H; subst.
  apply emono_create in E. eapply emono_trans; [apply E|apply emono_wait].
Qed.
Lemma emono_yield k f : emono k (yield k f).
Proof. intros g. unfold yield. simpl. upds; simpl; lia. Qed.
Lemma emono_sawe k q w : emono k (suspend_and_wait_end k q w).
Proof. intros g. simpl. lia. Qed.
Lemma emono_kstep k l k' : kstep k l = Some k' -> emono k k'.
Proof. intros H f. destruct (kstep_epoch _ _ _ f H) as [->|(_ & _ & -> & _)]; lia. Qed.

Lemma emono_step (s : state) l s' : step s l = Some s' -> emono (kn s) (kn s').
Proof.
  intros Hs. stepcases Hs; try apply emono_refl.
  all: eauto using emono_kstep, emono_wake, emono_notify_one, emono_notify_all, emono_saw, emono_sawu, emono_yield, emono_sawe.
  - now apply emono_create in Ecw.
  - now apply emono_create in Ecw.
  - eapply emono_trans; [eapply emono_notify_one; eauto|apply emono_wait].
  - eapply emono_trans; [eapply emono_notify_one; eauto|apply emono_suspend].
Qed.

Definition leaving (p : pc) : bool := match p with PDone _ | PClear _ => true | _ => false end.
Definition StI (s : state) : Prop := forall f r, frames s f = Some r -> leaving (pcs s f) = true -> we r < epoch (fib (kn s) f).

Lemma wake_published (s : state) f n r : KI s -> FrI s -> StI s -> deref s (f, n) = Some r ->
  (n = calls s f -> pre (pcs s f) = false) ->
  SInv (fst (wake (kn s) (f, we r))) (queues s) (fun f => sst (pcs s f)).
Proof.
  intros K F St Hd Hp. destruct (deref_alive _ _ _ _ F Hd) as (A & B & C & D). specialize (Hp B).
  unfold isP in C. rewrite Hp in C. simpl in C.
  destruct (leaving (pcs s f)) eqn:El.
  - specialize (St _ _ A El). rewrite wake_stale by lia. exact K.
  - apply sinv_publish_wake; auto. unfold publishes.
    destruct (pcs s f); simpl in *; try discriminate; rewrite (D _ eq_refl); eauto.
Qed.

Lemma ki_step (s : state) l s' : (forall f, wf (pcs s f)) -> FrI s -> StI s -> OffI s -> KI s -> step s l = Some s' -> KI s'.
Proof.
  intros W F St O K Hs. pose proof K as K0. unfold KI in K |- *.
  stepcases Hs; auto.
  1: eapply sinv_kstep; eauto.
  all: try (apply KI_same; [assumption|rewrite Ep; reflexivity]).
  all: try (apply sinv_yield; auto; rewrite Ep; discriminate).
  all: try (assert (Hsn : (fun f => sst (pcs s f)) f = SNone) by (simpl; rewrite Ep; reflexivity)).
  - (* PTry, full *)
    destruct (sinv_create _ _ _ _ _ _ K Hsn Er Ecw) as [_ K1]. apply KI_same; [auto|now rewrite Ep].
  - destruct (sinv_create _ _ _ _ _ _ K Hsn Er Ecw) as [K1 _]. eapply KI_upd; eauto.
  - (* PNotify *)
    destruct (snotify_one_inv 1 _ _ _ _ _ _ K eq_refl Eno) as (K1 & N1 & N2 & _ & N4).
    eapply KI_upd; [eapply sinv_wait_until with (tp := n) (e := e)|reflexivity]; eauto.
    + simpl. now rewrite Ep.
    + destruct N4 as [(g & _ & G & _ & G4 & _)|(-> & _)]; auto. rewrite G4; auto. intros ->. destruct G. congruence.
  - destruct (snotify_one_inv 1 _ _ _ _ _ _ K eq_refl Eno) as (K1 & N1 & N2 & _ & N4).
    eapply KI_upd; [eapply sinv_suspend with (e := e)|reflexivity]; eauto.
    + simpl. now rewrite Ep.
    + destruct N4 as [(g & _ & G & _ & G4 & _)|(-> & _)]; auto. rewrite G4; auto. intros ->. destruct G. congruence.
  - eapply KI_upd; [exact (proj2 (sinv_slot_done _ _ _ f e K Er ltac:(simpl; rewrite Ep; simpl; eauto)))|reflexivity].
  - eapply KI_upd; [exact (proj2 (sinv_slot_done _ _ _ f e K Er ltac:(simpl; rewrite Ep; simpl; eauto)))|reflexivity].
  - eapply KI_upd; [exact (proj2 (sinv_slot_done _ _ _ f e K Er ltac:(simpl; rewrite Ep; simpl; eauto)))|reflexivity].
  - eapply KI_upd; [exact (proj2 (sinv_slot_done _ _ _ f e K Er ltac:(simpl; rewrite Ep; simpl; eauto)))|reflexivity].
  - eapply KI_upd; [eapply sinv_block_until; eauto|reflexivity].
  - eapply KI_upd; [eapply sinv_block; eauto|reflexivity].
  - destruct (sinv_resume _ _ _ f 0 e K Er) as [L K1]; [simpl; rewrite Ep; reflexivity|].
    unfold suspend_and_wait_end. apply sinv_kassert; [|now rewrite L]. eapply KI_upd; eauto.
  - eapply KI_upd; [eapply (sinv_resume_until _ _ _ f 0 tp e); eauto; simpl; rewrite Ep; reflexivity|reflexivity].
  - eapply KI_upd; [eapply (sinv_timeout _ _ _ f 0 tp e); eauto; simpl; rewrite Ep; reflexivity|reflexivity].
  - eapply KI_upd; [eapply (sinv_relock _ _ _ f 0 tp e); eauto; simpl; rewrite Ep; reflexivity|reflexivity].
  - destruct (snotify_one_inv 0 _ _ _ _ _ _ K eq_refl Eno) as (K1 & _). apply KI_same; [auto|now rewrite Ep].
  - destruct p as [g n]. apply KI_same; [|now rewrite Ep]. eapply wake_published; eauto.
    apply (O g n). right; right. exists f. rewrite Ep. auto.
  - eapply KI_upd; [eapply sinv_block_until; eauto|reflexivity].
  - eapply KI_upd; [eapply sinv_block; eauto|reflexivity].
  - destruct (sinv_resume _ _ _ f 1 e K Er) as [L K1]; [simpl; rewrite Ep; reflexivity|].
    unfold suspend_and_wait_end. apply sinv_kassert; [|now rewrite L]. eapply KI_upd; eauto.
  - eapply KI_upd; [eapply (sinv_resume_until _ _ _ f 1 tp e); eauto; simpl; rewrite Ep; reflexivity|reflexivity].
  - eapply KI_upd; [eapply (sinv_timeout _ _ _ f 1 tp e); eauto; simpl; rewrite Ep; reflexivity|reflexivity].
  - eapply KI_upd; [eapply (sinv_relock _ _ _ f 1 tp e); eauto; simpl; rewrite Ep; reflexivity|reflexivity].
  - destruct p as [g n]. apply KI_same; [|now rewrite Ep]. eapply wake_published; eauto.
    apply (O g n). right; right. exists f. auto.
  - destruct (snotify_all_inv 0 _ _ _ _ _ _ K eq_refl Ena) as (K1 & -> & _). apply KI_same; [auto|now rewrite Ep].
  - destruct (snotify_all_inv 1 _ _ _ _ _ _ K eq_refl Ena) as (K1 & -> & _). apply KI_same; [auto|now rewrite Ep].
Qed.
End Proofs.
