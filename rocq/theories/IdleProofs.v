(** Proofs for idle threads (Idle.v). *)
From Coq Require Import List Arith Bool Lia.
From Verif Require Import Base Algo AlgoSpec AlgoFacts Drive DriveSpec DriveAlgo DriveProofs DriveInv Idle IdleSpec.
Import ListNotations.

Section Proofs.
Variable kind : nat -> akind.
Variable sched : nat -> nat -> option nat.
Variable susp : nat -> bool.
Variable cfg : well_configured kind sched.
Notation astep := (Algo.step pinned kind sched).
Notation dstep := (dstep kind sched).
Notation step := (istep kind sched susp).
Notation sleeps := (sleeps kind susp).

(** *** What one call of an algorithm does to the queues *)
Record qeff (a : st) (t : nat) (a' : st) : Prop := mkQ {
  e_cur : forall u, cur a' u = cur a u;
  e_q : forall u, u <> t -> q a u = [] -> q a' u = [];
  e_sh : kind t <> SharedWork -> shq a' = shq a
}.
Ltac brk := repeat match goal with
  | |- context [if ?b then _ else _] => destruct b
  | |- context [match ?x with _ => _ end] => destruct x
  end.
Lemma finish_q s t k o : q (finish s t k o) = q s /\ shq (finish s t k o) = shq s /\ cur (finish s t k o) = cur s.
Proof. unfold finish. destruct k, o; auto. Qed.
Lemma attach_q s t k c : q (attach_finish s t k c) = q s /\ shq (attach_finish s t k c) = shq s /\ cur (attach_finish s t k c) = cur s.
Proof. unfold attach_finish. destruct (can_attach s c); [|auto]. unfold finish. destruct k; auto. Qed.
Lemma awake_q a t c a' : cur a t = t -> astep a (Awake t c) = Some a' -> qeff a t a'.
Proof.
  intros Ct E. simpl in E. destruct (pc a t); try discriminate. destruct (att a c); [|discriminate]. destruct (_ && _); [|discriminate]. injection E as <-.
  rewrite Ct. unfold awakened. simpl. destruct (kind t) eqn:K.
  - destruct (linked _ _); constructor; simpl; auto. intros u N. now rewrite upd_other.
  - destruct (pinned c); [destruct (linked _ _)|destruct (can_detach _ _ _ _)]; constructor; simpl; auto; try congruence. intros u N. now rewrite upd_other.
  - destruct (pinned c); [|destruct (can_detach _ _ _ _)]; constructor; simpl; auto; intros u N; now rewrite upd_other.
Qed.
Lemma start_q a t c a' : astep a (Start t c) = Some a' -> qeff a t a'.
Proof.
  intros E. simpl in E. destruct (pc a t); try discriminate. destruct (att a c); [discriminate|]. destruct (_ || _); [discriminate|]. injection E as <-. now constructor.
Qed.
(** pick_next(): if it returns nullptr or goes on with the search, the own queue is empty, and the shared one too. *)
Definition nothing (a : st) (t : nat) : Prop := q a t = [] /\ (kind t = SharedWork -> shq a = []).
Lemma pick_q a t a' : cur a t = t -> astep a (Pick t) = Some a' -> qeff a t a' /\
  (match pc a' t, log a' with Idle, EPick _ (Some _) :: _ => True | Crashed, _ => True | _, _ => nothing a' t end).
Proof.
  intros Ct E. simpl in E. destruct (pc a t) eqn:P; try discriminate. injection E as <-. rewrite Ct. unfold pick_next. destruct (kind t) eqn:K.
  - destruct (q a t) as [|c l] eqn:Q; unfold finish, with_log, with_pc; simpl; split; try (constructor; simpl; auto; intros u N; now rewrite ?upd_other by auto); rewrite upd_same; auto. split; auto. congruence.
  - destruct (shq a) as [|c l] eqn:S.
    + destruct (q a t) as [|c l] eqn:Q; unfold finish, with_log, with_pc; simpl; split; try (constructor; simpl; auto; intros u N; now rewrite ?upd_other by auto); rewrite upd_same; auto. split; auto.
    + unfold attach_finish. match goal with |- context [can_attach ?x ?y] => destruct (can_attach x y) end; unfold finish, with_log, with_pc, with_err; simpl; split; try (constructor; simpl; auto; congruence); rewrite upd_same; auto.
  - destruct (q a t) as [|c l] eqn:Q.
    + unfold with_pc. simpl. split; [constructor; auto|]. rewrite upd_same. split; auto. congruence.
    + destruct (pinned c).
      * unfold finish, with_log, with_pc. simpl. split; [constructor; simpl; auto; intros u N; now rewrite upd_other by auto|]. rewrite upd_same. auto.
      * unfold attach_finish. match goal with |- context [can_attach ?x ?y] => destruct (can_attach x y) end; unfold finish, with_log, with_pc, with_err; simpl; (split; [constructor; simpl; auto; intros u N; now rewrite upd_other by auto|]); rewrite upd_same; auto.
Qed.
Lemma draw_q a t d a' r m : cur a t = t -> astep a (Draw t d) = Some a' -> pc a t = Steal r m None -> q a t = [] -> qeff a t a' /\
  (match pc a' t, log a' with Idle, EPick _ (Some _) :: _ => True | Crashed, _ => True | _, _ => nothing a' t end).
Proof.
  intros Ct E P Q. cbn [Algo.step] in E. rewrite P in E. unfold draw in E. rewrite Ct in E. destruct (kind t) as [| |own loc remote] eqn:K; try discriminate. simpl in E.
  assert (Er : forall s e, q s t = [] -> qeff a t s -> qeff a t (with_err s t e) /\ match pc (with_err s t e) t, log (with_err s t e) with Idle, EPick _ (Some _) :: _ => True | Crashed, _ => True | _, _ => nothing (with_err s t e) t end).
  { intros s e Qs [A B C]. split; [constructor; simpl; auto|]. simpl. now rewrite upd_same. }
  assert (Id : qeff a t a) by (constructor; auto).
  destruct (nth_error _ d) as [id|].
  2: { destruct (if r then remote else loc); [|discriminate]. injection E as <-. now apply Er. }
  destruct (id =? own).
  { destruct r; injection E as <-; [now apply Er|]. split; [now constructor|]. simpl. rewrite upd_same. split; auto. congruence. }
  destruct (sched t id) as [v|]; [|injection E as <-; now apply Er].
  unfold steal in E. destruct (q a v) as [|c l] eqn:Qv.
  - destruct (_ <? _); [|destruct (negb r && _)]; injection E as <-; simpl; (split; [now constructor|]); rewrite upd_same; split; auto; congruence.
  - destruct (pinned c) eqn:Pn.
    + destruct (_ <? _); [|destruct (negb r && _)]; injection E as <-; simpl; (split; [now constructor|]); rewrite upd_same; split; auto; congruence.
    + rewrite Pn in E. injection E as <-. unfold attach_finish. match goal with |- context [can_attach ?x ?y] => destruct (can_attach x y) end; unfold finish, with_log, with_pc, with_err; simpl.
      * split; [constructor; simpl; auto; intros u N Qu; upds; congruence|]. now rewrite upd_same.
      * split; [constructor; simpl; auto; intros u N Qu; upds; congruence|]. now rewrite upd_same.
Qed.

(** *** What one step of Drive.v does, seen from outside *)
Record deff (s : dst) (l : label) (s' : dst) : Prop := mkE {
  x_mode : forall u, u <> who l -> mode s' u = mode s u;
  x_q : forall u, u <> who l -> q (al s) u = [] -> q (al s') u = [];
  x_sh : kind (who l) <> SharedWork -> shq (al s') = shq (al s);
  x_null : null_picked s s' (who l) = true -> mode s' (who l) = Run (disp (who l)) /\ nothing (al s') (who l);
  x_search : mode s' (who l) = Picking KDisp -> nothing (al s') (who l);
  x_rem : forall u, rem s' u <> [] -> rem s u <> [] /\ l <> Loop u \/ target s l = Some u;
  x_on : mode s' (who l) <> Off /\ mode s (who l) <> Gone;
  x_head : mode s (who l) = Run (disp (who l)) -> mode s' (who l) = Run (disp (who l)) \/ mode s' (who l) = Gone \/ l = Loop (who l)
}.
Lemma picked_eff s t k a' : let s' := picked (with_al s a') t k in
  al s' = a' /\ rem s' = rem s /\ (forall u, u <> t -> mode s' u = mode s u) /\
  (mode s' t = match pc a' t, log a' with
               | Idle, EPick _ (Some n) :: _ => match k with KYield c => Post n c | KBlock => Run n | KDisp => Post n (disp t) end
               | Idle, _ => match k with KDisp => Run (disp t) | _ => Null end
               | _, _ => Picking k end).
Proof.
  simpl. unfold picked. cbn [al with_al]. destruct (pc a' t); [destruct (log a') as [|[?|? [?|]|?|?] ?]|..]; try destruct k; simpl; splits; auto; intros; now rewrite ?upd_same, ?upd_other by auto.
Qed.
Lemma picked_all s s0 l t k a' : DInv kind sched (picked (with_al s0 a') t k) -> t = who l -> mode s0 = mode s -> rem s0 = rem s -> (forall u, l <> Loop u) -> mode s t <> Off -> mode s t <> Gone ->
  (mode s t = Run (disp t) -> False) -> (k <> KDisp -> null_picked s (picked (with_al s0 a') t k) t = false) ->
  qeff (al s) t a' -> (match pc a' t, log a' with Idle, EPick _ (Some _) :: _ => True | Crashed, _ => True | _, _ => nothing a' t end) -> deff s l (picked (with_al s0 a') t k).
Proof.
  intros I -> Em Er Nl M1 M2 M3 Hk [Q1 Q2 Q3] N. destruct (picked_eff s0 (who l) k a') as (P1 & P2 & P3 & P4).
  set (s' := picked (with_al s0 a') (who l) k) in *. clearbody s'. pose proof (d_pc _ _ _ I (who l)) as Dp. rewrite P1 in Dp.
  assert (Mo : mode s' (who l) <> Off). { rewrite P4. destruct (pc a' (who l)); [destruct (log a') as [|[?|? [?|]|?|?] ?]|..]; destruct k; discriminate. }
  constructor; auto; rewrite ?P1; auto.
  - intros u Hu. rewrite P3, Em; auto.
  - intros Hn. destruct k as [c| |]; [rewrite Hk in Hn; discriminate|rewrite Hk in Hn; discriminate|].
    unfold null_picked in Hn. rewrite P4 in *. destruct (pc a' (who l)); [destruct (log a') as [|[?|? [?|]|?|?] ?]|..]; auto;
    destruct (mode s (who l)) as [| | |[| |]| | |]; discriminate.
  - intros Hp. rewrite Hp in *. destruct Dp as (_ & r & n & Dp). rewrite Dp in *. auto.
  - intros u Hu. left. split; auto. congruence.
  - intros F. destruct (M3 F).
Qed.
Ltac fin := try discriminate; try congruence; auto; try (split; discriminate); try (intros ? ?; now rewrite upd_other); try (intros ? N; left; split; [exact N|discriminate]).
Lemma dstep_eff s l s' : DInv kind sched s -> (forall t, mode s t = Picking KDisp -> nothing (al s) t) -> dstep s l = Some s' -> deff s l s'.
Proof.
  intros I Hp H. assert (I' := dinv_step kind sched cfg s l s' I H). assert (Gd := d_good _ _ _ I). assert (Cu := g_cur _ _ _ _ _ Gd).
  destruct l as [t|t k|t k|t|t|t|t c|t|t|t|t|t d]; cbn [Drive.dstep] in H.
  - destruct (mode s t) eqn:M; try discriminate. unfold call_awake in H. cbn [al with_mode] in H. destruct (astep (al s) _) as [a'|] eqn:E; [|discriminate]. injection H as <-.
    destruct (awake_q _ _ _ _ (Cu t) E) as [Q1 Q2 Q3]. constructor; simpl; auto; unfold null_picked; simpl; rewrite ?M, ?upd_same; fin.
  - destruct (mode s t) as [|c| | | | |] eqn:M; try discriminate. destruct (Nat.eqb_spec c (disp t)) as [|Nc]; [discriminate|]. destruct (existsb (Nat.eqb k) (started s)); [discriminate|]. cbn [orb] in H.
    destruct (astep (al s) (Start t (fiber k))) as [a|] eqn:Es; [|discriminate]. unfold call_awake in H. cbn [al] in H. destruct (astep a _) as [a'|] eqn:E; [|discriminate]. injection H as <-.
    destruct (start_q _ _ _ _ Es) as [Q1 Q2 Q3]. destruct (awake_q _ _ _ _ ltac:(now rewrite Q1) E) as [R1 R2 R3].
    constructor; simpl; auto; unfold null_picked; simpl; rewrite ?M; fin.
    + intros N. rewrite R3; auto.
  - destruct (mode s t) as [|c| | | | |] eqn:M; try discriminate. destruct (Nat.eqb_spec c (disp t)) as [|Nc]; [discriminate|]. destruct (existsb (Nat.eqb k) (started s)); [discriminate|]. cbn [orb] in H.
    destruct (astep (al s) (Start t (fiber k))) as [a|] eqn:Es; [|discriminate]. injection H as <-. destruct (start_q _ _ _ _ Es) as [Q1 Q2 Q3].
    constructor; simpl; auto; unfold null_picked; simpl; rewrite ?M, ?upd_same; fin.
  - destruct (mode s t) as [|c| | | | |] eqn:M; try discriminate. destruct (Nat.eqb_spec c (disp t)) as [|Nc]; [discriminate|]. unfold call_pick in H.
    destruct (astep (al s) (Pick t)) as [a'|] eqn:Ea; [|discriminate]. injection H as <-. destruct (pick_q _ _ _ (Cu t) Ea) as (Qe & Qn).
    apply picked_all; auto; try discriminate; try congruence. intros _. unfold null_picked. now rewrite M.
  - destruct (mode s t) as [|c| | | | |] eqn:M; try discriminate. destruct (Nat.eqb_spec c (disp t)) as [|Nc]; [discriminate|]. unfold call_pick in H. cbn [al] in H.
    destruct (astep (al s) (Pick t)) as [a'|] eqn:Ea; [|discriminate]. injection H as <-. destruct (pick_q _ _ _ (Cu t) Ea) as (Qe & Qn).
    apply picked_all; auto; try discriminate; try congruence. intros _. unfold null_picked. now rewrite M.
  - destruct (mode s t) as [|c| | | | |] eqn:M; try discriminate. destruct (pinned c) eqn:Pn; [discriminate|]. assert (Nc : c <> disp t) by (intros ->; rewrite pinned_disp in Pn; discriminate). unfold call_pick in H. cbn [al] in H.
    destruct (astep (al s) (Pick t)) as [a'|] eqn:Ea; [|discriminate]. injection H as <-. destruct (pick_q _ _ _ (Cu t) Ea) as (Qe & Qn).
    apply picked_all; auto; try discriminate; try congruence. intros _. unfold null_picked. now rewrite M.
  - destruct (mode s t) as [|c0| | | | |] eqn:M; try discriminate. destruct (bl s c) eqn:B; [|discriminate]. destruct (att (al s) c) as [t'|] eqn:A; [|discriminate].
    destruct (Nat.eqb_spec t' t) as [->|N].
    + unfold call_awake in H. cbn [al] in H. destruct (astep (al s) _) as [a'|] eqn:E; [|discriminate]. injection H as <-.
      destruct (awake_q _ _ _ _ (Cu t) E) as [Q1 Q2 Q3]. constructor; simpl; auto; unfold null_picked; simpl; rewrite ?M; fin.
    + injection H as <-. constructor; simpl; auto; unfold null_picked; simpl; rewrite ?M; fin.
      * intros u. destruct (Nat.eq_dec u t') as [->|Nu]; updt; [|now left]. right. rewrite A. now destruct (Nat.eqb_spec t' t).
  - destruct (mode s t) as [|c| | | | |] eqn:M; try discriminate. destruct (Nat.eqb_spec c (mainc t)) as [->|]; [|discriminate]. pose proof (main_disp t) as Nc. unfold call_pick in H. cbn [al] in H.
    destruct (astep (al s) (Pick t)) as [a'|] eqn:Ea; [|discriminate]. injection H as <-. destruct (pick_q _ _ _ (Cu t) Ea) as (Qe & Qn).
    apply picked_all; auto; try discriminate; try congruence. intros _. unfold null_picked. now rewrite M.
  - destruct (mode s t) as [|c| | | | |] eqn:M; try discriminate. destruct (_ && _); [|discriminate]. injection H as <-.
    constructor; simpl; auto; unfold null_picked; simpl; rewrite ?M, ?upd_same; fin.
  - destruct (mode s t) as [|c| | | | |] eqn:M; try discriminate. destruct (_ && _); [|discriminate]. injection H as <-.
    constructor; simpl; auto; unfold null_picked; simpl; rewrite ?M, ?upd_same; fin.
    + intros u. destruct (Nat.eq_dec u t) as [->|N]; updt; [congruence|]. left. split; auto. congruence.
  - destruct (mode s t) as [| |[|c l]| |n p| |] eqn:M; try discriminate.
    + unfold call_pick in H. destruct (astep (al s) (Pick t)) as [a'|] eqn:Ea; [|discriminate]. injection H as <-. destruct (pick_q _ _ _ (Cu t) Ea) as (Qe & Qn).
      apply picked_all; auto; try discriminate; try congruence.
    + unfold call_awake in H. cbn [al with_mode] in H. destruct (astep (al s) _) as [a'|] eqn:E; [|discriminate]. injection H as <-.
      destruct (awake_q _ _ _ _ (Cu t) E) as [Q1 Q2 Q3]. constructor; simpl; auto; unfold null_picked; simpl; rewrite ?M, ?upd_same; fin.
    + unfold call_awake in H. cbn [al with_mode] in H. destruct (astep (al s) _) as [a'|] eqn:E; [|discriminate]. injection H as <-.
      destruct (awake_q _ _ _ _ (Cu t) E) as [Q1 Q2 Q3]. constructor; simpl; auto; unfold null_picked; simpl; rewrite ?M, ?upd_same; fin.
  - destruct (mode s t) as [| | |k| | |] eqn:M; try discriminate. pose proof (d_pc _ _ _ I t) as Pt. rewrite M in Pt. destruct Pt as (-> & r & m & Pt).
    destruct (astep (al s) (Draw t d)) as [a'|] eqn:Ea; [|discriminate]. injection H as <-. destruct (draw_q _ _ _ _ _ _ (Cu t) Ea Pt (proj1 (Hp t M))) as (Qe & Qn).
    apply picked_all; auto; try discriminate; try congruence.
Qed.

(** *** The invariant *)
Record IInv (s : ist) : Prop := mkII {
  v_dr : reachable dstep dinit (dr s);
  v_idle : forall t, idle s t <> Busy -> mode (dr s) t = Run (disp t) /\ q (al (dr s)) t = [];
  v_search : forall t, mode (dr s) t = Picking KDisp -> q (al (dr s)) t = [];
  v_sleeps : forall t, asleep s t -> sleeps t = true;
  v_remote : forall t, sleeps t = true -> rem (dr s) t <> [] ->
    flag s t = true \/ (exists u, note s u = Some t) \/ (idle s t = Busy /\ (mode (dr s) t = Run (disp t) \/ mode (dr s) t = Gone));
  v_shared : shq (al (dr s)) <> [] -> exists t, kind t = SharedWork /\ mode (dr s) t <> Off /\ idle s t = Busy;
  v_off : forall t, mode (dr s) t = Off -> q (al (dr s)) t = []
}.
Lemma iinit_inv : IInv iinit.
Proof. constructor; simpl; try (intros; congruence); try discriminate; [apply reachable_refl|]. intros t (dl & X). discriminate. Qed.
Lemma notify_mono f a t : f t = true -> notify kind susp f a t = true.
Proof. unfold notify. destruct (sleeps a); auto. upds; auto. Qed.
Lemma iinv_step s l s' : IInv s -> step s l = Some s' -> IInv s'.
Proof.
  intros J H. assert (J' := J). destruct J' as [R V1 V2 V3 V4 V5 V6]. destruct l as [l|t|t dl|t|t]; simpl in H.
  - destruct (idle s (who l)) eqn:Ei; try discriminate. destruct (note s (who l)) eqn:En; [discriminate|]. destruct (dstep (dr s) l) as [d|] eqn:E; [|discriminate]. injection H as <-.
    assert (I := dinv_reachable kind sched cfg _ R).
    assert (Sr : forall t, mode (dr s) t = Picking KDisp -> nothing (al (dr s)) t).
    { intros t M. split; auto. intros K. exfalso. pose proof (d_pc _ _ _ I t) as P. rewrite M in P. destruct P as (_ & r & n & P).
      destruct (good_inv pinned home kind sched cfg _ (d_good _ _ _ I)) as (pl & A). destruct (AlgoFacts.i_steal _ _ _ _ _ _ A t r n None P) as (own & loc & remote & Kk & _).
      rewrite (g_cur _ _ _ _ _ (d_good _ _ _ I)) in Kk. congruence. }
    destruct (dstep_eff _ _ _ I Sr E) as [X1 X2 X3 X4 X5 X6 X7 X8]. set (t := who l) in *.
    constructor; simpl.
    + eapply reachable_step; eauto.
    + intros u Hu. destruct (Nat.eq_dec u t) as [->|N].
      * destruct (null_picked (dr s) d t); [|congruence]. destruct X4 as (A & B & _); auto.
      * rewrite X1 by auto. destruct (V1 u) as (A & B); [destruct (null_picked (dr s) d t); updt; auto|]. auto.
    + intros u Hu. destruct (Nat.eq_dec u t) as [->|N]; [now apply X5|]. rewrite X1 in Hu by auto. apply X2; auto.
    + intros u (dl & Hu). simpl in Hu. apply V3. exists dl. destruct (null_picked (dr s) d t); auto. destruct (Nat.eq_dec u t) as [->|N]; updt; [discriminate|auto].
    + intros u Su Ru. destruct (X6 u Ru) as [(Ru0 & Nl)|T].
      2: { right. left. exists t. now rewrite upd_same. }
      destruct (V4 u Su Ru0) as [A|[(v & A)|(A & B)]].
      * left. destruct l; auto; destruct (down (dr s) t); auto; now apply notify_mono.
      * right. left. exists v. destruct (Nat.eq_dec v t) as [->|N]; [congruence|now rewrite upd_other].
      * right. right. destruct (Nat.eq_dec u t) as [->|N].
        -- destruct B as [B|B]; [|now destruct (proj2 X7)].
           assert (Np : null_picked (dr s) d t = false) by (unfold null_picked; now rewrite B). rewrite Np. split; auto.
           destruct (X8 B) as [C|[C|C]]; auto. now destruct Nl.
        -- rewrite X1 by auto. split; auto. destruct (null_picked (dr s) d t); auto. now rewrite upd_other.
    + intros Sh. destruct (kind t) eqn:K.
      2: { exists t. splits; auto; [apply X7|]. destruct (null_picked (dr s) d t) eqn:Np; auto. destruct X4 as (_ & _ & Z); auto. now destruct Sh; apply Z. }
      all: rewrite X3 in Sh by congruence; destruct (V5 Sh) as (u & A & B & C); exists u; assert (u <> t) by congruence; rewrite X1 by auto; splits; auto; destruct (null_picked (dr s) d t); auto; now rewrite upd_other.
    + intros u Hu. destruct (Nat.eq_dec u t) as [->|N]; [now destruct X7|]. rewrite X1 in Hu by auto. auto.
  - destruct (note s t) as [u|] eqn:En; [|discriminate]. injection H as <-. constructor; simpl; auto.
    intros v Sv Rv. destruct (V4 v Sv Rv) as [A|[(w & A)|A]]; auto.
    + left. now apply notify_mono.
    + destruct (Nat.eq_dec w t) as [->|N].
      * left. rewrite A in En. injection En as <-. unfold notify. rewrite Sv. now rewrite upd_same.
      * right. left. exists w. now rewrite upd_other.
  - destruct (idle s t) eqn:Ei; try discriminate. destruct (V1 t ltac:(congruence)) as (Mt & Qt).
    destruct (sleeps t) eqn:St; [destruct (flag s t) eqn:Ft|]; simpl in H; injection H as <-; constructor; simpl; auto.
    + intros u Hu. apply V1. destruct (Nat.eq_dec u t) as [->|N]; updt; congruence.
    + intros u (dl' & Hu). simpl in Hu. apply V3. exists dl'. destruct (Nat.eq_dec u t) as [->|N]; updt; congruence.
    + intros u Su Ru. destruct (Nat.eq_dec u t) as [->|N]; updt; auto.
    + intros Sh. destruct (V5 Sh) as (u & A & B & C). exists u. splits; auto. destruct (Nat.eq_dec u t) as [->|N]; updt; auto.
    + intros u Hu. apply V1. destruct (Nat.eq_dec u t) as [->|N]; updt; congruence.
    + intros u (dl' & Hu). simpl in Hu. destruct (Nat.eq_dec u t) as [->|N]; auto. updt. apply V3. now exists dl'.
    + intros u Su Ru. destruct (Nat.eq_dec u t) as [->|N]; updt; auto. destruct (V4 t Su Ru) as [A|[A|(A & B)]]; auto. congruence.
    + intros Sh. destruct (V5 Sh) as (u & A & B & C). exists u. splits; auto. destruct (Nat.eq_dec u t) as [->|N]; updt; [congruence|auto].
    + intros u Hu. apply V1. destruct (Nat.eq_dec u t) as [->|N]; updt; congruence.
    + intros u (dl' & Hu). simpl in Hu. apply V3. exists dl'. destruct (Nat.eq_dec u t) as [->|N]; updt; congruence.
    + intros u Su Ru. destruct (Nat.eq_dec u t) as [->|N]; updt; auto.
    + intros Sh. destruct (V5 Sh) as (u & A & B & C). exists u. splits; auto. destruct (Nat.eq_dec u t) as [->|N]; updt; auto.
  - destruct (idle s t) eqn:Ei; try discriminate. destruct (flag s t) eqn:Ft; [|discriminate]. injection H as <-. destruct (V1 t ltac:(congruence)) as (Mt & Qt). constructor; simpl; auto.
    + intros u Hu. apply V1. destruct (Nat.eq_dec u t) as [->|N]; updt; congruence.
    + intros u (dl' & Hu). simpl in Hu. apply V3. exists dl'. destruct (Nat.eq_dec u t) as [->|N]; updt; congruence.
    + intros u Su Ru. destruct (Nat.eq_dec u t) as [->|N]; updt; auto.
    + intros Sh. destruct (V5 Sh) as (u & A & B & C). exists u. splits; auto. destruct (Nat.eq_dec u t) as [->|N]; updt; auto.
  - destruct (idle s t) as [| |[|]] eqn:Ei; try discriminate. injection H as <-. destruct (V1 t ltac:(congruence)) as (Mt & Qt). constructor; simpl; auto.
    + intros u Hu. apply V1. destruct (Nat.eq_dec u t) as [->|N]; updt; congruence.
    + intros u (dl' & Hu). simpl in Hu. apply V3. exists dl'. destruct (Nat.eq_dec u t) as [->|N]; updt; congruence.
    + intros u Su Ru. destruct (Nat.eq_dec u t) as [->|N]; updt; auto.
    + intros Sh. destruct (V5 Sh) as (u & A & B & C). exists u. splits; auto. destruct (Nat.eq_dec u t) as [->|N]; updt; auto.
Qed.
Lemma iinv_reachable s : reachable step iinit s -> IInv s.
Proof. revert s. apply (reachable_inv step IInv); [apply iinit_inv|]. intros s l s' I E. eapply iinv_step; eauto. Qed.
End Proofs.
