(** Proofs about the scheduler: the place of every context is preserved by every step without error. *)
From Coq Require Import List Arith Bool Lia.
From Verif Require Import Base Sched SchedFacts SchedFacts2 SchedFacts3 SchedFacts4.
Import ListNotations.

Lemma IAs_mk s s' v w : IAs s -> vstep (V s) (W s) v w -> (forall c, V s' c = v c) -> (forall t, W s' t = w t) -> IAs s'.
Proof. intros [L I] H Hv Hw. destruct (ia_step _ _ _ _ _ I H) as [L' I']. exists L'. eapply ia_ext; eauto. Qed.

Lemma kind_act s t a : IAs s -> a = act (th s t) -> kind a (pcc (cx s a)).
Proof. intros [L I] E. apply (a_kind _ _ _ I a). Qed.

Ltac vw Qc := intros; unfold V; rewrite ?Qc; cupds; simpl; auto; try congruence.
Ltac tww Qt := intros; unfold W; rewrite ?Qt; tupds; simpl; auto; try congruence.

Theorem IA_step s s' : IAs s -> G1 s -> G3 s -> tr s s' -> IAs s'.
Proof.
  intros I B G T. assert (KA : forall c, kind c (pcc (cx s c))) by (destruct I as [L I0]; intros c; apply (a_kind _ _ _ I0 c)).
  trd T.
  - apply (IAs_mk s s' (V s) (W s)); auto; [apply VSame|vw Qc|tww Qt].
  - apply (IAs_mk s s' (V s) (W s)); auto; [apply VSame|vw Qc|tww Qt].
  - pose proof (KA a) as Ka. eapply (IAs_mk s s' _ _ I).
    + apply (VPc _ _ t a p); simpl; auto; inversion M; subst; rewrite ?H in *; simpl in *; auto; try discriminate; try congruence.
      all: destruct (act (th s t)); auto; try contradiction; discriminate.
    + vw Qc.
    + tww Qt.
  - eapply (IAs_mk s s' _ _ I).
    + apply (VPost _ _ t a n); auto. simpl. now rewrite <- Ec.
    + subst c. vw Qc.
    + subst c. tww Qt.
  - eapply (IAs_mk s s' _ _ I).
    + apply (VDisp _ _ t a n); auto. simpl. now rewrite <- Ec.
    + subst c. vw Qc.
    + subst c. tww Qt.
  - destruct Po as [E1 E2|E1|tp e E1 E2 E3|tp e E1 E2 E3|e E1|E1|E1].
    + eapply (IAs_mk s s' _ _ I); [eapply (VYield _ _ t a PYield c r); auto|vw Qc|tww Qt].
    + eapply (IAs_mk s s' _ _ I); [eapply (VYield _ _ t a DRes c r); auto|vw Qc|tww Qt].
    + eapply (IAs_mk s s' _ _ I); [eapply (VBlock _ _ t a (WTimed tp) _ c r); eauto|vw Qc|tww Qt].
    + eapply (IAs_mk s s' _ _ I); [eapply (VBlock _ _ t a (WSleep tp) _ c r); eauto|vw Qc|tww Qt].
    + eapply (IAs_mk s s' _ _ I); [eapply (VSusp _ _ t a e c r); eauto|vw Qc|tww Qt].
    + eapply (IAs_mk s s' _ _ I); [eapply (VLeave _ _ t a PDead c r); eauto|vw Qc|tww Qt].
    + eapply (IAs_mk s s' _ _ I); [eapply (VLeave _ _ t a PShut2 c r); eauto|vw Qc|tww Qt].
  - eapply (IAs_mk s s' _ _ I); [eapply (VArm _ _ t a); eauto|vw Qc|tww Qt].
  - destruct (pwake_keep _ _ _ _ _ _ _ _ _ Pw) as (K1 & K2 & K3 & K4 & K5). apply (IAs_mk s s' (V s) (W s)); auto; [apply VSame|vw Qc|tww Qt].
  - destruct (pwake_keep _ _ _ _ _ _ _ _ _ Pw) as (K1 & K2 & K3 & K4 & K5). eapply (IAs_mk s s' _ _ I).
    + eapply (VWakeL _ _ t a g k); auto. simpl. destruct (wake_waits _ _ _ _ _ _ _ _ _ I B G Pw Ee) as [[_ [h X]]|(_ & _ & [X|[tp X]])]; rewrite ?Ee; eauto.
    + vw Qc.
    + tww Qt.
  - destruct (pwake_keep _ _ _ _ _ _ _ _ _ Pw) as (K1 & K2 & K3 & K4 & K5). eapply (IAs_mk s s' _ _ I).
    + eapply (VWakeR _ _ t a g k); auto.
      * simpl. destruct (wake_waits _ _ _ _ _ _ _ _ _ I B G Pw Ee) as [[_ [h X]]|(_ & _ & [X|[tp X]])]; rewrite ?Ee; eauto.
      * pose proof (KA a) as Ka. rewrite K5 in Ka. destruct Pw as [| |nw tp r X1 X2 X3]; simpl in *; auto. destruct (b_slp _ B t tp g e) as (Y1 & _); [rewrite X2; now left|]. congruence.
    + vw Qc. unfold spc. simpl. congruence.
    + tww Qt.
  - eapply (IAs_mk s s' _ _ I); [eapply (VPush _ _ t a g k u); eauto|vw Qc|tww Qt].
  - pose proof (KA a) as Ka. rewrite Ep in Ka. eapply (IAs_mk s s' _ _ I); [eapply (VPc _ _ t a (kpc k)); simpl; auto|vw Qc|tww Qt].
    all: rewrite ?Ep; destruct k; simpl in *; auto; try discriminate; contradiction.
  - pose proof (KA a) as Ka. rewrite Ep in Ka. eapply (IAs_mk s s' _ _ I); [eapply (VPc _ _ t a (PJoin h c)); simpl; auto|vw Qc|tww Qt].
    all: rewrite ?Ep; simpl in *; auto; try discriminate.
  - eapply (IAs_mk s s' _ _ I); [eapply (VBlock _ _ t a (WJoin h c) _ d r); eauto|vw Qc|tww Qt].
  - destruct (prel_keep _ _ _ _ _ Pz) as (K1 & K2 & K3 & K4 & K5 & K6 & K7).
    pose proof (KA a) as Ka. rewrite Ep in Ka. eapply (IAs_mk s s' _ _ I); [eapply (VPc _ _ t a PIdle); simpl; auto| |tww Qt].
    all: rewrite ?Ep; simpl in *; auto; try discriminate. vw Qc; rewrite ?K1, ?K2, ?K3, ?K4; cupds; simpl; auto.
  - destruct (prel_keep _ _ _ _ _ Pz) as (K1 & K2 & K3 & K4 & K5 & K6 & K7). apply (IAs_mk s s' (V s) (W s)); auto; [apply VSame|vw Qc|tww Qt].
  - apply (IAs_mk s s' (V s) (W s)); auto; [apply VSame|vw Qc|tww Qt].
  - eapply (IAs_mk s s' _ _ I); [eapply (VShut _ _ t (Mn u)); simpl; auto|vw Qc|tww Qt].
  - pose proof (KA a) as Ka. rewrite Ep in Ka. eapply (IAs_mk s s' _ _ I); [eapply (VPc _ _ t a PTerm); simpl; auto|vw Qc|tww Qt].
    all: rewrite ?Ep; simpl in *; auto; try discriminate.
  - pose proof (KA a) as Ka. rewrite Ep in Ka. eapply (IAs_mk s s' _ _ I); [eapply (VPc _ _ t a PLeave); simpl; auto|vw Qc|tww Qt].
    all: rewrite ?Ep; simpl in *; auto; try discriminate.
  - destruct (prel_keep _ _ _ _ _ Pz) as (K1 & K2 & K3 & K4 & K5 & K6 & K7).
    pose proof (KA a) as Ka. rewrite Ep in Ka. assert (Na : a <> Dp t) by (intros E; rewrite E in Ka; exact Ka). cupds.
    eapply (IAs_mk s s' _ _ I); [eapply (VPc _ _ t a PGone); simpl; auto|vw Qc|tww Qt].
    all: rewrite ?Ep; simpl in *; auto; try discriminate.
  - eapply (IAs_mk s s' _ _ I); [eapply (VPc _ _ t (Dp t) (match wkr (th s t) with [] => DFin | _ => DRel end)); simpl; auto|vw Qc|tww Qt].
    all: rewrite ?Ep; destruct (wkr (th s t)); simpl in *; auto; try discriminate.
  - destruct (prel_keep _ _ _ _ _ Pz) as (K1 & K2 & K3 & K4 & K5 & K6 & K7). apply (IAs_mk s s' (V s) (W s)); auto; [apply VSame|vw Qc|tww Qt].
  - eapply (IAs_mk s s' _ _ I); [eapply (VSwap _ _ t); simpl; auto|vw Qc|tww Qt].
  - eapply (IAs_mk s s' _ _ I); [eapply (VDrain _ _ t c r); simpl; auto|vw Qc|tww Qt].
  - eapply (IAs_mk s s' _ _ I); [eapply (VPc _ _ t (Dp t) DTop); simpl; auto|vw Qc|tww Qt].
    all: rewrite ?Ep; simpl in *; auto; try discriminate.
  - eapply (IAs_mk s s' _ _ I); [eapply (VEnd _ _ t); simpl; auto|vw Qc|tww Qt].
Qed.
