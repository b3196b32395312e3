From Coq Require Import List Arith Bool Lia.
From Verif Require Import Base Kernel KernelFacts WakeFacts SlotFacts Unbuffered UnbufferedSpec UnbufferedProofs UnbufferedProofs2 UnbufferedProofs3 UnbufferedProofs4 UnbufferedProofs5 UnbufferedProofs6 UnbufferedProofs7.
Import ListNotations.

Section Proofs.
Context {V : Type}.
Notation state := (state V). Notation pc := (pc V). Notation op := (op V). Notation event := (event V).

(** What the results in the log mean; [h] is the log before the return. *)
Definition rok (h : list event) (f : fid) (o : op) (r : res V) (t : nat) : Prop :=
  pending h f = Some o /\
  match r with
  | RStatus Success => is_push o /\ In (f, npush h f) (consumed h)
  | RStatus Timeout => exists tp, deadline o = Some tp /\ tp <= t
  | RStatus Closed | RThrow => exists g, In (ECall g Close) h
  | _ => True
  end.
Definition LogI (s : state) : Prop := forall h2 h1 f o r t, log s = h2 ++ ERet f o r t :: h1 -> rok h1 f o r t.

Lemma log_step T (s : state) l s' : Inv s -> ClI s -> WokI T s -> LogI s -> step s l = Some s' -> LogI s'.
Proof.
  intros I C W H Hs. pose proof (step_mono _ _ _ Hs) as (_ & _ & X).
  assert (Y : forall f o r t, log s' = ERet f o r t :: log s -> rok (log s) f o r t).
  { intros g o1 r t. pose proof (i_wf _ I) as Wf. pose proof (cl_called _ C) as CC. pose proof (i_ki _ I) as K. unfold KI in K.
    pose proof (i_calls _ I) as Ca.
    assert (Sus : forall f o e, pcs s f = PSusp o e -> running (fib (kn s) f) = true -> closed s = false -> In (f, npush (log s) f) (consumed (log s))).
    { intros f o e P R Cl. destruct (w_pub _ _ W f e) as [[D _]|[D|(o2 & tp & D & _)]]; try congruence.
      - now rewrite P.
      - destruct (sinv_slot_done _ _ _ f e K R) as [E _]; [simpl; rewrite P; simpl; auto|]. lia.
      - now rewrite <- Ca. }
    assert (Dn : forall f o, pcs s f = PDone o -> closed s = false -> In (f, npush (log s) f) (consumed (log s))).
    { intros f o P Cl. destruct (w_done _ _ W f o P) as [[D _]|D]; [|congruence]. now rewrite <- Ca. }
    pose proof (w_clear _ _ W) as Wc.
    assert (Rl : forall f i tp e, sst (pcs s f) = SRelock i tp e -> tp <= now (kn s)).
    { intros f i tp e P. pose proof (si_f _ _ _ K f) as S. unfold sfok in S. simpl in S. rewrite P in S. lia. }
    pose proof (i_pend _ I) as Pe. clear I C W H X K Ca.
    stepcases Hs; intros E; try discriminate E; try (exfalso; revert E; clear; intros E; apply (f_equal (@length _)) in E; simpl in E; lia); inversion E; subst; clear E; (split; [rewrite Pe, Ep; reflexivity|]); clear Pe; simpl; auto.
    all: pose proof (Wf g) as Wg; rewrite Ep in Wg; simpl in Wg.
    all: try (destruct (Wc _ _ Ep) as (v1 & tp1 & -> & Z); exists tp1; split; [reflexivity|exact Z]).
    - split; [destruct Wg as [v ->]; exact I|]. eapply Sus; eauto.
    - split; [destruct Wg as (v & tp & ->); exact I|]. eapply Dn; eauto.
    - destruct Wg as [v ->]. exists tp. split; auto. eapply Rl. rewrite Ep. reflexivity.
    - destruct o1; simpl in Wg; try contradiction; simpl; auto.
    - subst o1. exists tp. split; auto. eapply Rl. rewrite Ep. reflexivity. }
  destruct X as [X|[e X]]; unfold LogI; rewrite X; auto.
  intros [|e' h2] h1 f o r t E; simpl in E; inversion E; subst; eauto.
Qed.

Record All (s : state) : Prop := {
  a_i : Inv s;
  a_cl : ClI s;
  a_wok : WokI (fun _ => False) s;
  a_log : LogI s
}.
Lemma all_reach (s : state) : reachable step init s -> All s.
Proof.
  apply reachable_inv.
  - constructor; [apply inv_init| | |].
    + constructor; simpl; try discriminate. intros (f & t & []).
    + constructor; simpl; try discriminate.
    + intros [|e h2] h1 f o r t E; discriminate E.
  - intros s0 l s1 [A B C D] Hs. constructor; eauto using inv_step, cl_step, wok_step, log_step.
Qed.
End Proofs.
