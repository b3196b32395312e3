From Coq Require Import List Arith Bool Lia.
From Verif Require Import Base Kernel KernelFacts CondVar CondVarSpec CondVarProofs CondVarProps Client ClientProofs Barrier BarrierSpec.
Import ListNotations.

Definition b_op (p : bpc) : op :=
  match p with PLock => Lock | PUnlockT _ | PUnlockF _ => Unlock | PNotify _ => NotifyAll | PWait _ => Wait end.
Definition b_hold (p : bpc) : bool := match p with PLock | PNotify _ => false | _ => true end.

Lemma barrier_wb n : wellbehaved (barrier n) b_op b_hold.
Proof.
  constructor.
  - intros d o d' xs o' p H. inversion H; subst. auto.
  - intros d p r d' xs o' p' Hr H. destruct r; [| |congruence]; simpl in H; unfold wait_loop in H;
      destruct p; try (destruct (Nat.eqb (pred (current d)) 0)); simpl in H;
        rewrite ?Nat.eqb_refl in H; simpl in H; try (destruct (Nat.eqb c (cycle d))); simpl in H; inversion H; subst; auto.
  - intros d p r d' xs r' Hr H. destruct r; [| |congruence]; simpl in H; unfold wait_loop in H;
      destruct p; try (destruct (Nat.eqb (pred (current d)) 0)); simpl in H;
        rewrite ?Nat.eqb_refl in H; simpl in H; try (destruct (Nat.eqb c (cycle d))); simpl in H; inversion H; subst; auto.
  - intros []; simpl; auto.
Qed.

Definition tk (n : nat) (d : bdata) (h : list bevent) (f : fid) (x : option bpc) : Prop :=
  match x with
  | None => in_wait h f = false
  | Some p => in_wait h f = true /\
    match p with
    | PLock => ticket h f = None
    | PUnlockT c | PNotify c => ticket h f = Some (c * n + (n - 1)) /\ c < cycle d
    | PWait c => exists i, ticket h f = Some (c * n + i) /\ i < n - 1 /\ c <= cycle d
    | PUnlockF c => exists i, ticket h f = Some (c * n + i) /\ i < n - 1 /\ c < cycle d
    end
  end.

(** A fiber of a completed round that waits unnotified has a fiber that is going to notify it. *)
Definition served (s : bstate) : Prop :=
  forall f c, cpc s f = Some (PWait c) -> pending (log (cv s)) f = Some Wait -> woken (log (cv s)) f = false -> c < cycle (dat s) ->
  exists g, g <> f /\
    ((cpc s g = Some (PUnlockT c) /\ since_acq (log (cv s)) f = true) \/
     (cpc s g = Some (PNotify c) /\ pending (log (cv s)) g = Some NotifyAll /\ after_acq (log (cv s)) f g = true)).

Record BInv (n : nat) (s : bstate) : Prop := {
  b_cur : 1 <= current (dat s) <= n;
  b_arr : arrivals (clog s) = cycle (dat s) * n + (n - current (dat s));
  b_tk : forall f, tk n (dat s) (clog s) f (cpc s f);
  b_srv : served s;
  b_log : barrier_ok n (clog s)
}.

Lemma tk_call n d h g o f x : f <> g -> tk n d h f x -> tk n d (CCall g o :: h) f x.
Proof. intros Hne. unfold tk. simpl. now rewrite (proj2 (Nat.eqb_neq g f)) by auto. Qed.
Lemma tk_ret n d h g r a f x : f <> g -> tk n d h f x -> tk n d (CRet g r a :: h) f x.
Proof. intros Hne. unfold tk. simpl. now rewrite (proj2 (Nat.eqb_neq g f)) by auto. Qed.
Lemma tk_arr n d d' h g f x : f <> g -> cycle d <= cycle d' -> tk n d h f x -> tk n d' (CX g XArrive :: h) f x.
Proof.
  intros Hne Hc. unfold tk. simpl. rewrite (proj2 (Nat.eqb_neq g f)) by auto.
  destruct x as [[| | | | ]|]; auto.
  - intros (A & B & C); splits; auto; lia.
  - intros (A & B & C); splits; auto; lia.
  - intros (A & i & B & C & E); split; auto; exists i; splits; auto; lia.
  - intros (A & i & B & C & E); split; auto; exists i; splits; auto; lia.
Qed.

Lemma div_lt n c i : i < n -> (c * n + i) / n = c.
Proof. intros H. rewrite Nat.add_comm, Nat.div_add by lia. rewrite Nat.div_small by auto. lia. Qed.
Lemma mod_lt n c i : i < n -> (c * n + i) mod n = i.
Proof. intros H. rewrite Nat.add_comm, Nat.mod_add by lia. now apply Nat.mod_small. Qed.

Lemma binv_init n : n <> 0 -> BInv n (binit n).
Proof.
  intros Hn. constructor; simpl; auto; try lia. intros f c H. discriminate.
Qed.

(** Calls of other fibers do not disturb [served]. *)
Lemma served_call (s s' : bstate) x o : served s ->
  log (cv s') = ECall x o :: log (cv s) -> dat s' = dat s ->
  (forall g, g <> x -> cpc s' g = cpc s g) ->
  (forall c, cpc s x = Some (PUnlockT c) -> cpc s' x = Some (PNotify c) /\ o = NotifyAll) ->
  (forall c, cpc s' x = Some (PWait c) -> c = cycle (dat s)) ->
  pending (log (cv s)) x = None ->
  served s'.
Proof.
  intros S El Ed Ec Ex Ew Hx f c Hf Hp Hk Hc. rewrite Ed in Hc. rewrite El in Hp, Hk. simpl in Hp, Hk.
  destruct (Nat.eq_dec f x) as [->|Hne]; [exfalso; specialize (Ew _ Hf); lia|].
  rewrite (proj2 (Nat.eqb_neq x f)) in Hp, Hk by auto. rewrite Ec in Hf by auto.
  destruct (S f c Hf Hp Hk Hc) as (g & Hg & [(G1 & G2)|(G1 & G2 & G3)]); exists g; split; auto; rewrite El; simpl.
  - destruct (Nat.eq_dec g x) as [->|Hgx].
    + right. destruct (Ex _ G1) as [E ->]. rewrite Nat.eqb_refl. auto.
    + left. rewrite (proj2 (Nat.eqb_neq x f)) by auto. rewrite Ec; auto.
  - right. destruct (Nat.eq_dec g x) as [->|Hgx]; [congruence|].
    rewrite (proj2 (Nat.eqb_neq x g)), (proj2 (Nat.eqb_neq x f)) by auto. rewrite Ec; auto.
Qed.

Lemma served_cv (s : bstate) v l : served s -> CInv (cv s) -> CInv v -> CondVar.step (cv s) l = Some v ->
  (forall f o, l <> LCall f o) -> (forall f, fstat b_op b_hold (log (cv s)) f (cpc s f)) ->
  served (mkC v (dat s) (cpc s) (clog s)).
Proof.
  intros S I I' Hs Hl Fs f c Hf Hp Hk Hc. simpl in *.
  destruct (cv_step_log _ _ _ I Hs Hl) as [E|(x & o & r & fs & El & E & Hx & _)].
  - rewrite E in *. apply S; auto.
  - pose proof (c_log _ I') as L. rewrite E in L, Hp, Hk. simpl in Hp, Hk. destruct (Nat.eqb_spec x f) as [|Hne]; [discriminate|].
    rewrite wevs_pending in Hp.
    assert (Hk0 : woken (log (cv s)) f = false).
    { destruct (in_dec Nat.eq_dec f fs) as [Hi|Hi]; [rewrite wevs_woken in Hk; auto; discriminate|rewrite wevs_woken_other in Hk; auto]. }
    destruct (S f c Hf Hp Hk0 Hc) as (g & Hg & [(G1 & G2)|(G1 & G2 & G3)]); exists g; split; auto; rewrite E; simpl.
    + left. split; auto. rewrite wevs_since. destruct (negb (Nat.eqb x f) && acquires o r); auto.
    + right. rewrite wevs_pending, wevs_after. destruct (Nat.eqb_spec x g) as [->|Hxg]; [|auto]. exfalso.
      rewrite Hx in G2. inversion G2; subst o. simpl in L. destruct L as [[_ L] _].
      destruct (L f Wait) as [X|X]; rewrite ?wevs_pending, ?wevs_called, ?wevs_after; auto.
      * specialize (Fs f). rewrite Hf in Fs. simpl in Fs. destruct Fs as [(_ & F & _)|(F & _)]; [exact F|congruence].
      * congruence.
Qed.

Theorem binv_step n s l s' : n <> 0 -> reachable (bstep n) (binit n) s -> BInv n s -> bstep n s l = Some s' -> BInv n s'.
Proof.
  intros Hn R0 [Cur Arr Tk Srv Lg] Hs. pose proof (cinv_reachable _ (proj_reachable _ _ R0)) as I.
  pose proof (fstat_reachable _ _ _ (barrier_wb n) s R0) as F.
  unfold bstep, cstep in Hs. destruct l as [f []|f|l].
  - destruct (cpc s f) eqn:Ec; [discriminate|]. destruct (can_go s f) eqn:Eg; [|discriminate].
    unfold begin, barrier, do_act in Hs. destruct (CondVar.step (cv s) (LCall f Lock)) as [v|] eqn:Ev; [|discriminate].
    inversion Hs; subst s'; clear Hs. pose proof (call_shape _ _ _ _ Ev) as (Ei & _ & Hv).
    pose proof (Tk f) as Tf. rewrite Ec in Tf. simpl in Tf.
    constructor; simpl; auto.
    + intros g. destruct (Nat.eq_dec g f) as [->|Hne]; updt; [|apply tk_call; auto]. simpl. now rewrite Nat.eqb_refl.
    + eapply (served_call s _ f Lock); simpl; auto.
      * subst v. reflexivity.
      * intros g Hne. now updt.
      * intros c. congruence.
      * intros c. updt. discriminate.
      * apply pend_idle; auto.
  - destruct (cpc s f) as [p|] eqn:Ec; [|discriminate]. destruct (can_go s f) eqn:Eg; [|discriminate].
    apply can_go_spec in Eg. destruct Eg as [Er Ei]. pose proof (pend_idle _ _ I Ei) as Hpi.
    pose proof (F f) as Ff. rewrite Ec in Ff. simpl in Ff. destruct Ff as [(Ff & _)|(F1 & F2 & F3 & F4)]; [congruence|].
    pose proof (Tk f) as Tf. rewrite Ec in Tf. simpl in Tf. destruct Tf as [Tw Tf].
    assert (Ex : cont (barrier n) (dat s) p (last_res (log (cv s)) f) = barrier_cont n (dat s) p ROk).
    { simpl. unfold barrier_cont. destruct (last_res (log (cv s)) f); auto. congruence. }
    rewrite Ex in Hs. clear Ex. unfold barrier_cont in Hs.
    destruct p as [|c|c|c|c].
    + cbv zeta in Hs. destruct (Nat.eqb_spec (pred (current (dat s))) 0) as [E0|E0].
      * (* last arrival *)
        unfold do_act in Hs. destruct (CondVar.step (cv s) (LCall f Unlock)) as [v|] eqn:Ev; [|discriminate].
        inversion Hs; subst s'; clear Hs. pose proof (call_shape _ _ _ _ Ev) as (_ & _ & Hv).
        assert (Hc1 : current (dat s) = 1) by lia.
        constructor; simpl; auto; try lia.
        -- intros g. destruct (Nat.eq_dec g f) as [->|Hne]; updt.
           ++ simpl. rewrite Nat.eqb_refl. splits; auto. f_equal. lia.
           ++ apply (tk_arr n (dat s)); auto; simpl; lia.
        -- intros g c Hg Hp Hk Hc. simpl in *. assert (g <> f) by (intros ->; rewrite upd_same in Hg; discriminate). updt.
           subst v. simpl in Hp, Hk. rewrite (proj2 (Nat.eqb_neq f g)) in Hp, Hk by auto.
           simpl. destruct (Nat.eq_dec c (cycle (dat s))) as [->|Hcc].
           ++ exists f. split; auto. left. updt. split; auto. rewrite (proj2 (Nat.eqb_neq f g)) by auto.
              eapply (acq_later_reachable _ (proj_reachable _ _ R0) g f Wait); auto.
              specialize (F g). rewrite Hg in F. simpl in F. destruct F as [(_ & X & _)|(X & _)]; [exact X|congruence].
           ++ destruct (Srv g c Hg Hp Hk ltac:(lia)) as (x & Hx & [(G1 & G2)|(G1 & G2 & G3)]); exists x; split; auto;
                assert (x <> f) by congruence; updt; rewrite ?(proj2 (Nat.eqb_neq f g)), ?(proj2 (Nat.eqb_neq f x)) by auto; auto.
      * unfold wait_loop in Hs. cbn [cycle] in Hs. rewrite Nat.eqb_refl in Hs. simpl negb in Hs. cbv iota in Hs.
        unfold do_act in Hs. destruct (CondVar.step (cv s) (LCall f Wait)) as [v|] eqn:Ev; [|discriminate].
        inversion Hs; subst s'; clear Hs. pose proof (call_shape _ _ _ _ Ev) as (_ & _ & Hv).
        constructor; simpl; auto; try lia.
        -- intros g. destruct (Nat.eq_dec g f) as [->|Hne]; updt.
           ++ simpl. rewrite Nat.eqb_refl. splits; auto. exists (n - current (dat s)). splits; auto; try lia; f_equal; lia.
           ++ apply (tk_arr n (dat s)); auto; simpl; lia.
        -- assert (served (mkC v (dat s) (upd (cpc s) f (Some (PWait (cycle (dat s))))) (clog s))) as X; [|exact X].
           eapply (served_call s _ f Wait); simpl; auto.
           ++ subst v. reflexivity.
           ++ intros g Hne. now updt.
           ++ intros c. congruence.
           ++ intros c. updt. congruence.
    + (* unlocked, notify *)
      unfold do_act in Hs. destruct (CondVar.step (cv s) (LCall f NotifyAll)) as [v|] eqn:Ev; [|discriminate].
      inversion Hs; subst s'; clear Hs. pose proof (call_shape _ _ _ _ Ev) as (_ & _ & Hv).
      constructor; simpl; auto.
      * intros g. destruct (Nat.eq_dec g f) as [->|Hne]; updt; [|apply Tk]. simpl. auto.
      * eapply (served_call s _ f NotifyAll); simpl; auto.
        -- subst v. reflexivity.
        -- intros g Hne. now updt.
        -- intros c'. updt. rewrite Ec. intros H; inversion H; auto.
        -- intros c'. updt. discriminate.
    + (* return true *)
      unfold do_act in Hs. simpl in Hs. inversion Hs; subst s'; clear Hs. destruct Tf as [Tf Tc].
      constructor; simpl; auto.
      * intros g. destruct (Nat.eq_dec g f) as [->|Hne]; updt; [|apply tk_ret; auto]. simpl. now rewrite Nat.eqb_refl.
      * intros g c' Hg Hp Hk Hc. simpl in *. assert (g <> f) by (intros ->; rewrite upd_same in Hg; discriminate). updt.
        destruct (Srv g c' Hg Hp Hk Hc) as (x & Hx & [(G1 & G2)|(G1 & G2 & G3)]); exists x; split; auto;
          assert (x <> f) by congruence; updt; auto.
      * splits; auto. eexists. splits; eauto.
        -- rewrite div_lt by lia. rewrite Arr. nia.
        -- rewrite mod_lt by lia. now rewrite Nat.eqb_refl.
    + (* woken *)
      destruct Tf as (i & T1 & T2 & T3).
      unfold wait_loop in Hs. destruct (Nat.eqb_spec c (cycle (dat s))) as [->|Hcc]; simpl negb in Hs; cbv iota in Hs; unfold do_act in Hs.
      * destruct (CondVar.step (cv s) (LCall f Wait)) as [v|] eqn:Ev; [|discriminate].
        inversion Hs; subst s'; clear Hs. pose proof (call_shape _ _ _ _ Ev) as (_ & _ & Hv).
        constructor; simpl; auto.
        -- intros g. destruct (Nat.eq_dec g f) as [->|Hne]; updt; [|apply Tk]. simpl. split; auto. exists i. auto.
        -- eapply (served_call s _ f Wait); simpl; auto.
           ++ subst v. reflexivity.
           ++ intros g Hne. now updt.
           ++ intros c'. congruence.
           ++ intros c'. updt. congruence.
      * destruct (CondVar.step (cv s) (LCall f Unlock)) as [v|] eqn:Ev; [|discriminate].
        inversion Hs; subst s'; clear Hs. pose proof (call_shape _ _ _ _ Ev) as (_ & _ & Hv).
        constructor; simpl; auto.
        -- intros g. destruct (Nat.eq_dec g f) as [->|Hne]; updt; [|apply Tk]. simpl. split; auto. exists i. splits; auto. lia.
        -- eapply (served_call s _ f Unlock); simpl; auto.
           ++ subst v. reflexivity.
           ++ intros g Hne. now updt.
           ++ intros c'. congruence.
           ++ intros c'. updt. congruence.
    + (* return false *)
      unfold do_act in Hs. simpl in Hs. inversion Hs; subst s'; clear Hs. destruct Tf as (i & T1 & T2 & T3).
      constructor; simpl; auto.
      * intros g. destruct (Nat.eq_dec g f) as [->|Hne]; updt; [|apply tk_ret; auto]. simpl. now rewrite Nat.eqb_refl.
      * intros g c' Hg Hp Hk Hc. simpl in *. assert (g <> f) by (intros ->; rewrite upd_same in Hg; discriminate). updt.
        destruct (Srv g c' Hg Hp Hk Hc) as (x & Hx & [(G1 & G2)|(G1 & G2 & G3)]); exists x; split; auto;
          assert (x <> f) by congruence; updt; auto.
      * splits; auto. eexists. splits; eauto.
        -- rewrite div_lt by lia. rewrite Arr. nia.
        -- rewrite mod_lt by lia. now rewrite (proj2 (Nat.eqb_neq i (n - 1))) by lia.
  - destruct (allowed s l) eqn:Ea; [|discriminate]. destruct (CondVar.step (cv s) l) as [v|] eqn:Ev; [|discriminate].
    inversion Hs; subst s'; clear Hs. constructor; simpl; auto.
    eapply served_cv; eauto.
    + eapply cinv_step; eauto.
    + intros f o ->. discriminate.
Qed.

Lemma binv_reachable n s : n <> 0 -> reachable (bstep n) (binit n) s -> BInv n s.
Proof.
  intros Hn. apply reachable_inv2; [now apply binv_init|]. intros t l t' R I Hs. eapply binv_step; eauto.
Qed.
