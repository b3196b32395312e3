(** Theorems about fiber-local storage (properties C51, C52, C69). *)
From Coq Require Import List Arith Bool Lia.
From Verif Require Import Base Fss FssSpec.
Import ListNotations.

(** ** The map *)
Lemma find_erase k k' m : find k (erase k' m) = if k =? k' then None else find k m.
Proof.
  induction m as [|[k2 e] m IH]; simpl; [now destruct (k =? k')|]. destruct (Nat.eqb_spec k' k2) as [->|N1]; simpl.
  - rewrite IH. now destruct (k =? k2).
  - destruct (Nat.eqb_spec k k2) as [->|N2]; [destruct (Nat.eqb_spec k2 k'); congruence|apply IH].
Qed.
Lemma find_put k k' e m : find k (put k' e m) = if k =? k' then Some e else find k m.
Proof. unfold put. simpl. rewrite find_erase. now destruct (k =? k'). Qed.
Lemma erase_keys k m x : In x (map fst (erase k m)) <-> In x (map fst m) /\ x <> k.
Proof.
  unfold erase. rewrite !in_map_iff. split.
  - intros (y & <- & H). apply filter_In in H. destruct H as [H1 H2]. destruct (Nat.eqb_spec k (fst y)); [discriminate|]. split; eauto.
  - intros [(y & <- & H) N1]. exists y. split; auto. apply filter_In. split; auto. destruct (Nat.eqb_spec k (fst y)); auto; congruence.
Qed.
Lemma erase_nodup k m : NoDup (map fst m) -> NoDup (map fst (erase k m)).
Proof.
  induction m as [|[k2 e] m IH]; simpl; intros H; [constructor|]. inversion H; subst. destruct (negb (k =? k2)); simpl; auto. constructor; auto. intros Hi. apply erase_keys in Hi. tauto.
Qed.
Lemma put_nodup k e m : NoDup (map fst m) -> NoDup (map fst (put k e m)).
Proof. intros H. simpl. constructor; [|now apply erase_nodup]. intros Hi. apply erase_keys in Hi. tauto. Qed.
Lemma find_in k e m : NoDup (map fst m) -> (find k m = Some e <-> In (k, e) m).
Proof.
  induction m as [|[k2 e2] m IH]; simpl; intros H; [split; [discriminate|tauto]|]. inversion H; subst. destruct (Nat.eqb_spec k k2) as [->|N1].
  - split; [intros X; injection X as ->; auto|]. intros [X|X]; [congruence|]. exfalso. apply H2. apply (in_map fst) in X. auto.
  - rewrite IH by auto. split; auto. intros [X|X]; auto. congruence.
Qed.

(** ** The record *)
Definition of_fiber (f : nat) (e : event) : Prop := match e with ECleanup f' _ _ => f' = f | _ => False end.
Lemma stored_clean f c lg f' p : Forall (of_fiber f) c -> stored (c ++ lg) f' p = stored lg f' p.
Proof. induction 1 as [|e c He F IH]; simpl; auto. destruct e; try contradiction. auto. Qed.
Lemma ended_clean f c lg f' : Forall (of_fiber f) c -> ended (c ++ lg) f' = ended lg f'.
Proof. induction 1 as [|e c He F IH]; simpl; auto. destruct e; try contradiction. auto. Qed.
Lemma respects_clean f c lg : Forall (of_fiber f) c -> (respects (c ++ lg) <-> respects lg).
Proof. induction 1 as [|e c He F IH]; simpl; [tauto|]. destruct e; try contradiction. auto. Qed.
Lemma stores_clean f c lg f' p o : Forall (of_fiber f) c -> stores (c ++ lg) f' p o = stores lg f' p o.
Proof. induction 1 as [|e c He F IH]; simpl; auto. destruct e; try contradiction. auto. Qed.
Lemma releases_clean f c lg f' p o : Forall (of_fiber f) c -> releases (c ++ lg) f' p o = releases lg f' p o.
Proof. induction 1 as [|e c He F IH]; simpl; auto. destruct e; try contradiction. auto. Qed.
Lemma gives_clean f c lg : Forall (of_fiber f) c -> (gives_up_values_only (c ++ lg) <-> gives_up_values_only lg).
Proof. induction 1 as [|e c He F IH]; simpl; [tauto|]. destruct e; try contradiction. auto. Qed.
Lemma cleaned_app c lg f p o : cleaned (c ++ lg) f p o = cleaned c f p o + cleaned lg f p o.
Proof. induction c as [|e c IH]; simpl; auto. destruct e; auto. rewrite IH. lia. Qed.
Lemma cleaned_other f c f' p o : Forall (of_fiber f) c -> f' <> f -> cleaned c f' p o = 0.
Proof. induction 1 as [|e c He F IH]; simpl; intros N1; auto. destruct e; try contradiction. simpl in He. subst. destruct (Nat.eqb_spec f' f); [congruence|]. simpl. auto. Qed.
Lemma set_clean f m k p d b : Forall (of_fiber f) (snd (set_fss_data f m k p d b)).
Proof. unfold set_fss_data. destruct (find k m) as [[v q]|]; simpl; [|constructor]. destruct b; repeat constructor. Qed.
Lemma cleanups_clean f m : Forall (of_fiber f) (cleanups f m).
Proof. unfold cleanups. apply Forall_rev. apply Forall_forall. intros e He. apply in_map_iff in He. destruct He as (x & <- & _). reflexivity. Qed.
Lemma cleaned_rev c f p o : cleaned (rev c) f p o = cleaned c f p o.
Proof.
  induction c as [|e c IH]; simpl; auto. rewrite cleaned_app, IH. destruct e; simpl; lia.
Qed.
Lemma is_le v o : is v o <= 1. Proof. destruct v; simpl; [destruct (_ =? _)|]; lia. Qed.
Lemma cleaned_none f (m : fmap) p o : (forall k, ~ In (k, (Some o, p)) m) -> cleaned (map (fun x => ECleanup f (snd (snd x)) (fst (snd x))) m) f p o = 0.
Proof.
  induction m as [|[k [v q]] m IH]; simpl; intros H; auto. rewrite IH by (intros k' Hk; apply (H k'); auto). rewrite Nat.eqb_refl. simpl. destruct (Nat.eqb_spec p q) as [->|]; auto. destruct v as [x|]; simpl; auto. destruct (Nat.eqb_spec x o) as [->|]; auto. exfalso. apply (H k). auto.
Qed.
Lemma cleaned_one f k (m : fmap) p o : NoDup (map fst m) -> In (k, (Some o, p)) m -> (forall k', In (k', (Some o, p)) m -> k' = k) -> cleaned (map (fun x => ECleanup f (snd (snd x)) (fst (snd x))) m) f p o = 1.
Proof.
  induction m as [|[k2 [v q]] m IH]; simpl; intros Nd Hi U; [contradiction|]. inversion Nd; subst. destruct (Nat.eq_dec k2 k) as [->|Nk].
  - assert (Nh : forall k', ~ In (k', (Some o, p)) m). { intros k' Hk. assert (k' = k) by (apply U; auto). subst. apply (in_map fst) in Hk. auto. }
    rewrite cleaned_none by auto. destruct Hi as [Hi|Hi]; [|exfalso; now apply (Nh k)]. injection Hi as -> ->. rewrite !Nat.eqb_refl. simpl. now rewrite Nat.eqb_refl.
  - destruct Hi as [Hi|Hi]; [congruence|]. rewrite IH by auto. rewrite Nat.eqb_refl. simpl. destruct (Nat.eqb_spec p q) as [->|]; auto. destruct v as [x|]; simpl; auto. destruct (Nat.eqb_spec x o) as [->|]; auto. exfalso. apply Nk. apply U. auto.
Qed.
Lemma same_eq a b : same a b = true <-> a = b.
Proof. destruct a, b; simpl; try rewrite Nat.eqb_eq; split; congruence. Qed.

Section Inv.
Variable is_main : nat -> bool.
Notation step := (step is_main).

Record inv (s : st) : Prop := {
  i_a : forall f k p, gone s f = false -> ptr_at s k = Some p -> stored (log s) f p = get_fss_data (fss s f) k;
  i_b : forall f k o q, gone s f = false -> find k (fss s f) = Some (Some o, q) -> ptr_at s k = Some q;
  i_c : forall f, NoDup (map fst (fss s f));
  i_d : forall k k' p, ptr_at s k = Some p -> ptr_at s k' = Some p -> k = k';
  i_fr : forall k p, ptr_at s k = Some p -> p < fresh s;
  i_new : forall f p, fresh s <= p -> stored (log s) f p = None;
  i_dead : forall f p o, gone s f = false -> stored (log s) f p = Some o -> exists k, ptr_at s k = Some p;
  i_end : forall f, ended (log s) f = gone s f;
  i_cnt : forall f p o, stores (log s) f p o = cleaned (log s) f p o + releases (log s) f p o + is (stored (log s) f p) o
}.

Ltac eqs := repeat match goal with
  | |- context [?a =? ?b] => destruct (Nat.eqb_spec a b); subst; simpl
  | H : context [?a =? ?b] |- _ => destruct (Nat.eqb_spec a b); subst; simpl in H
  end.

Lemma inv_init : inv init_state.
Proof. constructor; simpl; auto; try discriminate. constructor. Qed.

(** A call of fiber f on the pointer p at address k that leaves [m'] in the map and ends with event [e]. *)
Lemma inv_update s f k p m' c e : inv s -> gone s f = false -> ptr_at s k = Some p -> Forall (of_fiber f) c ->
  (forall k', k' <> k -> find k' m' = find k' (fss s f)) -> NoDup (map fst m') -> (forall o q, find k m' = Some (Some o, q) -> q = p) ->
  match e with EReset f' p' v => f' = f /\ p' = p /\ get_fss_data m' k = v | ERelease f' p' r => f' = f /\ p' = p /\ get_fss_data m' k = None /\ r = stored (log s) f p
             | EGet f' p' _ => m' = fss s f | _ => False end ->
  (forall p' o, cleaned c f p' o = if p' =? p then (is (stored (log s) f p) o + (match e with EReset _ _ v => is v o - is (stored (log s) f p) o | _ => 0 end)) - (match e with EGet _ _ _ | ERelease _ _ _ => is (stored (log s) f p) o | EReset _ _ v => is v o | _ => 0 end) else 0) ->
  inv (update s f (m', c) e).
Proof.
  intros I G P C Ot Nd Q Ev Cn. pose proof (i_a s I f k p G P) as Ia.
  assert (Stf : forall f' p', stored (e :: c ++ log s) f' p' = if (f' =? f) && (p' =? p) then get_fss_data m' k else stored (log s) f' p').
  { intros f' p'. destruct e; try contradiction; simpl; rewrite (stored_clean f) by auto.
    - destruct Ev as (-> & -> & ->). reflexivity.
    - destruct Ev as (-> & -> & -> & _). reflexivity.
    - subst m'. destruct (Nat.eqb_spec f' f); [subst|]; simpl; auto. destruct (Nat.eqb_spec p' p); [subst|]; auto. }
  constructor; simpl.
  - intros f' k' p' G' P'. specialize (Stf f' p'). simpl in Stf. rewrite Stf. clear Stf. destruct (Nat.eqb_spec f' f) as [->|Nf]; simpl.
    + rewrite upd_same. destruct (Nat.eqb_spec p' p) as [->|Np].
      * now rewrite (i_d s I k' k p P' P).
      * rewrite (i_a s I f k' p' G' P'). unfold get_fss_data. rewrite Ot; auto. intros ->. congruence.
    + rewrite upd_other by auto. now apply (i_a s I).
  - intros f' k' o q G' F. destruct (Nat.eq_dec f' f) as [->|Nf]; [rewrite upd_same in F|rewrite upd_other in F by auto; now apply (i_b s I f' k' o)]. destruct (Nat.eq_dec k' k) as [->|Nk]; [apply Q in F; congruence|]. rewrite Ot in F by auto. now apply (i_b s I f k' o).
  - intros f'. destruct (Nat.eq_dec f' f) as [->|Nf]; [now rewrite upd_same|rewrite upd_other by auto; apply (i_c s I)].
  - apply (i_d s I).
  - apply (i_fr s I).
  - intros f' p' Hp. specialize (Stf f' p'). simpl in Stf. rewrite Stf. clear Stf. pose proof (i_fr s I k p P). destruct (Nat.eqb_spec p' p); [lia|]. rewrite andb_false_r. now apply (i_new s I).
  - intros f' p' o G' Dd. specialize (Stf f' p'). simpl in Stf. rewrite Stf in Dd. clear Stf. destruct (Nat.eqb_spec p' p) as [->|]; [now exists k|]. rewrite andb_false_r in Dd. now apply (i_dead s I f' p' o).
  - intros f'. destruct e; try contradiction; simpl; rewrite (ended_clean f) by auto; apply (i_end s I).
  - intros f' p' o. specialize (Stf f' p'). simpl in Stf. rewrite Stf. clear Stf. pose proof (i_cnt s I f' p' o) as B. specialize (Cn p' o).
    assert (Cn' : cleaned c f' p' o = if (f' =? f) && (p' =? p) then cleaned c f p o else 0).
    { destruct (Nat.eqb_spec f' f) as [->|Nf]; simpl; [|now apply (cleaned_other f)]. destruct (Nat.eqb_spec p' p); [now subst|auto]. }
    destruct e; try contradiction; simpl; rewrite (stores_clean f), (releases_clean f), cleaned_app, Cn' by auto; rewrite ?(stored_clean f) by auto.
    + destruct Ev as (-> & -> & ->). pose proof (is_le v o). pose proof (is_le (stored (log s) f p) o). destruct (Nat.eqb_spec f' f) as [->|], (Nat.eqb_spec p' p) as [->|]; simpl; lia.
    + destruct Ev as (-> & -> & -> & ->). destruct (Nat.eqb_spec f' f) as [->|], (Nat.eqb_spec p' p) as [->|]; simpl; lia.
    + subst m'. destruct (Nat.eqb_spec f' f) as [->|], (Nat.eqb_spec p' p) as [->|]; simpl; rewrite <- ?Ia; lia.
Qed.
Lemma entry_owner s f k p v q : inv s -> gone s f = false -> ptr_at s k = Some p -> find k (fss s f) = Some (v, q) -> stored (log s) f p = v /\ (v <> None -> q = p).
Proof.
  intros I G P F. split; [rewrite (i_a s I f k p G P); unfold get_fss_data; now rewrite F|]. intros N1. destruct v as [o|]; [|congruence]. apply (i_b s I f k o q G) in F. congruence.
Qed.
Lemma inv_step s l s' : inv s -> step s l = Some s' -> respects (log s') -> inv s'.
Proof.
  intros I St R. destruct l as [k|f k t|f k|f k|f k|f]; simpl in St; unfold on in St.
  - destruct (ptr_at s k) eqn:P; [discriminate|]. injection St as <-. constructor; simpl.
    + intros f k' p' G P'. destruct (Nat.eq_dec k' k) as [->|Nk].
      * rewrite upd_same in P'. injection P' as <-. rewrite (i_new s I) by lia. unfold get_fss_data. destruct (find k (fss s f)) as [[[o|] q]|] eqn:F; auto. apply (i_b s I f k o q G) in F. congruence.
      * rewrite upd_other in P' by auto. now apply (i_a s I).
    + intros f k' o q G F. apply (i_b s I f k' o q G) in F. rewrite upd_other; auto. intros ->. congruence.
    + apply (i_c s I).
    + intros k1 k2 p P1 P2. destruct (Nat.eq_dec k1 k) as [->|N1], (Nat.eq_dec k2 k) as [->|N2]; auto; rewrite ?upd_same, ?upd_other in P1 by auto; rewrite ?upd_same, ?upd_other in P2 by auto.
      * injection P1 as <-. apply (i_fr s I) in P2. lia.
      * injection P2 as <-. apply (i_fr s I) in P1. lia.
      * now apply (i_d s I k1 k2 p).
    + intros k' p P'. destruct (Nat.eq_dec k' k) as [->|Nk]; [rewrite upd_same in P'; injection P' as <-; lia|]. rewrite upd_other in P' by auto. apply (i_fr s I) in P'. lia.
    + intros f p Hp. apply (i_new s I). lia.
    + intros f p o G Dd. destruct (i_dead s I f p o G Dd) as [k' P']. exists k'. rewrite upd_other; auto. intros ->. congruence.
    + apply (i_end s I).
    + apply (i_cnt s I).
  - destruct (gone s f) eqn:G; [discriminate|]. destruct (ptr_at s k) as [p|] eqn:P; [|discriminate]. injection St as <-. unfold reset. pose proof (i_a s I f k p G P) as Ia. destruct (same (get_fss_data (fss s f) k) t) eqn:Sm.
    + apply same_eq in Sm. apply (inv_update s f k p); auto; [apply (i_c s I)| |].
      * intros o q F. apply (i_b s I f k o q G) in F. congruence.
      * intros p' o. simpl. rewrite Ia, Sm. pose proof (is_le t o). destruct (p' =? p); lia.
    + assert (Ne : get_fss_data (fss s f) k <> t) by (rewrite <- same_eq; congruence). pose proof (set_clean f (fss s f) k p t true) as C. unfold set_fss_data in *. destruct (find k (fss s f)) as [[v q]|] eqn:F; simpl in C.
      * destruct (entry_owner s f k p v q I G P F) as [Sv Ow]. rewrite <- Ia, Sv in Ne. apply (inv_update s f k p); auto.
        -- intros k' Nk. destruct t; rewrite ?find_put, ?find_erase; destruct (Nat.eqb_spec k' k); congruence.
        -- destruct t; [apply put_nodup|apply erase_nodup]; apply (i_c s I).
        -- intros o q' F'. destruct t; rewrite ?find_put, ?find_erase, Nat.eqb_refl in F'; congruence.
        -- splits; auto. unfold get_fss_data. destruct t; rewrite ?find_put, ?find_erase, Nat.eqb_refl; reflexivity.
        -- intros p' o. simpl. rewrite Nat.eqb_refl, Sv. simpl. destruct v as [x|].
           ++ rewrite Ow by discriminate. destruct (Nat.eqb_spec p' p); auto. simpl. destruct t as [y|]; simpl; [|destruct (x =? o); lia]. destruct (Nat.eqb_spec x o), (Nat.eqb_spec y o); subst; try lia. congruence.
           ++ simpl. destruct (p' =? q), (p' =? p); simpl; lia.
      * assert (Sv : stored (log s) f p = None) by (rewrite Ia; unfold get_fss_data; now rewrite F). apply (inv_update s f k p); auto.
        -- intros k' Nk. rewrite find_put. destruct (Nat.eqb_spec k' k); congruence.
        -- apply put_nodup, (i_c s I).
        -- intros o q' F'. rewrite find_put, Nat.eqb_refl in F'. congruence.
        -- splits; auto. unfold get_fss_data. now rewrite find_put, Nat.eqb_refl.
        -- intros p' o. simpl. rewrite Sv. simpl. destruct (p' =? p); lia.
  - destruct (gone s f) eqn:G; [discriminate|]. destruct (ptr_at s k) as [p|] eqn:P; [|discriminate]. injection St as <-. unfold release. pose proof (i_a s I f k p G P) as Ia. unfold set_fss_data. destruct (find k (fss s f)) as [[v q]|] eqn:F.
    + apply (inv_update s f k p); auto.
      * intros k' Nk. rewrite find_erase. destruct (Nat.eqb_spec k' k); congruence.
      * apply erase_nodup, (i_c s I).
      * intros o q' F'. rewrite find_erase, Nat.eqb_refl in F'. discriminate.
      * splits; auto. unfold get_fss_data. now rewrite find_erase, Nat.eqb_refl.
      * intros p' o. simpl. destruct (p' =? p); lia.
    + apply (inv_update s f k p); auto.
      * intros k' Nk. rewrite find_put. destruct (Nat.eqb_spec k' k); congruence.
      * apply put_nodup, (i_c s I).
      * intros o q' F'. rewrite find_put, Nat.eqb_refl in F'. discriminate.
      * splits; auto. unfold get_fss_data. now rewrite find_put, Nat.eqb_refl.
      * intros p' o. simpl. destruct (p' =? p); lia.
  - destruct (gone s f) eqn:G; [discriminate|]. destruct (ptr_at s k) as [p|] eqn:P; [|discriminate]. injection St as <-. unfold get. apply (inv_update s f k p); auto; [apply (i_c s I)| |].
    + intros o q F. apply (i_b s I f k o q G) in F. congruence.
    + intros p' o. simpl. destruct (p' =? p); lia.
  - destruct (gone s f) eqn:G; [discriminate|]. destruct (ptr_at s k) as [p|] eqn:P; [|discriminate]. injection St as <-. pose proof (i_a s I f k p G P) as Ia. unfold delete in *. simpl in R |- *.
    set (m' := fst (set_fss_data f (fss s f) k p None true)) in *. set (c := snd (set_fss_data f (fss s f) k p None true)) in *. assert (C : Forall (of_fiber f) c) by apply set_clean.
    assert (M : (forall k', k' <> k -> find k' m' = find k' (fss s f)) /\ NoDup (map fst m') /\ (forall o q, find k m' = Some (Some o, q) -> False) /\ forall p' o, cleaned c f p' o = if p' =? p then is (stored (log s) f p) o else 0).
    { subst m' c. unfold set_fss_data. rewrite Ia. unfold get_fss_data. destruct (find k (fss s f)) as [[v q]|] eqn:F; simpl.
      - destruct (entry_owner s f k p v q I G P F) as [Sv Ow]. splits.
        + intros k' Nk. rewrite find_erase. destruct (Nat.eqb_spec k' k); congruence.
        + apply erase_nodup, (i_c s I).
        + intros o q'. rewrite find_erase, Nat.eqb_refl. discriminate.
        + intros p' o. rewrite Nat.eqb_refl. simpl. destruct v as [x|]; [rewrite Ow by discriminate|simpl]; repeat match goal with |- context [if ?b then _ else _] => destruct b end; lia.
      - splits.
        + intros k' Nk. rewrite find_erase. destruct (Nat.eqb_spec k' k); congruence.
        + constructor; [|apply erase_nodup, (i_c s I)]. intros Hi. apply erase_keys in Hi. tauto.
        + intros o q'. rewrite Nat.eqb_refl. discriminate.
        + intros p' o. now destruct (p' =? p). }
    destruct M as (Ot & Nd & Q & Cn). clearbody m' c. destruct R as [R1 R2].
    assert (Rq : forall f', f' <> f -> gone s f' = false -> stored (log s) f' p = None). { intros f' Nf G'. rewrite <- (stored_clean f c (log s)) by auto. apply R1; auto. rewrite (ended_clean f) by auto. now rewrite (i_end s I). }
    assert (Stf : forall f' p', stored (EDelete f p :: c ++ log s) f' p' = if (f' =? f) && (p' =? p) then None else stored (log s) f' p') by (intros; simpl; now rewrite (stored_clean f)).
    constructor; simpl ptr_at; simpl fss; simpl gone; simpl log; simpl fresh.
    + intros f' k' p' G' P'. rewrite Stf. destruct (Nat.eq_dec k' k) as [->|Nk]; [rewrite upd_same in P'; discriminate|]. rewrite upd_other in P' by auto. assert (Np : p' <> p) by (intros ->; apply Nk, (i_d s I k' k p); auto). destruct (Nat.eqb_spec p' p); [congruence|]. rewrite andb_false_r. rewrite (i_a s I f' k' p' G' P'). destruct (Nat.eq_dec f' f) as [->|Nf]; [rewrite upd_same; unfold get_fss_data; now rewrite Ot|now rewrite upd_other].
    + intros f' k' o q G' F. destruct (Nat.eq_dec k' k) as [->|Nk].
      * exfalso. destruct (Nat.eq_dec f' f) as [->|Nf]; [rewrite upd_same in F; now apply Q in F|]. rewrite upd_other in F by auto. pose proof (i_b s I f' k o q G' F) as Bq. assert (q = p) by congruence. subst q. pose proof (i_a s I f' k p G' P) as A'. rewrite (Rq f' Nf G') in A'. unfold get_fss_data in A'. rewrite F in A'. discriminate.
      * rewrite upd_other by auto. destruct (Nat.eq_dec f' f) as [->|Nf]; [rewrite upd_same, Ot in F by auto|rewrite upd_other in F by auto]; now apply (i_b s I _ k' o) in F.
    + intros f'. destruct (Nat.eq_dec f' f) as [->|Nf]; [now rewrite upd_same|rewrite upd_other by auto; apply (i_c s I)].
    + intros k1 k2 p' P1 P2. destruct (Nat.eq_dec k1 k) as [->|N1]; [rewrite upd_same in P1; discriminate|]. destruct (Nat.eq_dec k2 k) as [->|N2]; [rewrite upd_same in P2; discriminate|]. rewrite upd_other in P1, P2 by auto. now apply (i_d s I k1 k2 p').
    + intros k' p' P'. destruct (Nat.eq_dec k' k) as [->|N1]; [rewrite upd_same in P'; discriminate|]. rewrite upd_other in P' by auto. now apply (i_fr s I k').
    + intros f' p' Hp. rewrite Stf, (i_new s I) by auto. now destruct (_ && _).
    + intros f' p' o G' Dd. rewrite Stf in Dd. destruct (Nat.eqb_spec p' p) as [->|Np].
      * destruct (Nat.eqb_spec f' f) as [->|Nf]; [discriminate|]. simpl in Dd. rewrite Rq in Dd by auto. discriminate.
      * rewrite andb_false_r in Dd. destruct (i_dead s I f' p' o G' Dd) as [k' P']. exists k'. rewrite upd_other; auto. intros ->. congruence.
    + intros f'. simpl. rewrite (ended_clean f) by auto. apply (i_end s I).
    + intros f' p' o. rewrite Stf. simpl. rewrite (stores_clean f), (releases_clean f), cleaned_app by auto. pose proof (i_cnt s I f' p' o) as B. destruct (Nat.eqb_spec f' f) as [->|Nf]; simpl.
      * rewrite Cn. destruct (Nat.eqb_spec p' p) as [->|]; simpl; lia.
      * rewrite (cleaned_other f) by auto. simpl. lia.
  - destruct (gone s f) eqn:G; [discriminate|]. injection St as <-. unfold exit in *. destruct (is_main f).
    + constructor; simpl; try apply I.
      * intros f' k p G' P. destruct (Nat.eq_dec f' f) as [->|Nf]; [rewrite upd_same in G'; discriminate|]. rewrite upd_other in G' by auto. now apply (i_a s I).
      * intros f' k o q G'. destruct (Nat.eq_dec f' f) as [->|Nf]; [rewrite upd_same in G'; discriminate|]. rewrite upd_other in G' by auto. now apply (i_b s I).
      * intros f' p o G'. destruct (Nat.eq_dec f' f) as [->|Nf]; [rewrite upd_same in G'; discriminate|]. rewrite upd_other in G' by auto. now apply (i_dead s I).
      * intros f'. rewrite (i_end s I). unfold upd. destruct (f' =? f); auto.
    + pose proof (cleanups_clean f (fss s f)) as C. constructor; simpl.
      * intros f' k p G' P. destruct (Nat.eq_dec f' f) as [->|Nf]; [rewrite upd_same in G'; discriminate|]. rewrite upd_other in G' by auto. rewrite upd_other by auto. destruct (Nat.eqb_spec f' f); [congruence|]. rewrite (stored_clean f) by auto. now apply (i_a s I).
      * intros f' k o q G'. destruct (Nat.eq_dec f' f) as [->|Nf]; [rewrite upd_same in G'; discriminate|]. rewrite upd_other in G' by auto. rewrite upd_other by auto. now apply (i_b s I).
      * intros f'. destruct (Nat.eq_dec f' f) as [->|Nf]; [rewrite upd_same; constructor|rewrite upd_other by auto; apply (i_c s I)].
      * apply (i_d s I).
      * apply (i_fr s I).
      * intros f' p Hp. rewrite (stored_clean f), (i_new s I) by auto. now destruct (f' =? f).
      * intros f' p o G' Dd. destruct (Nat.eq_dec f' f) as [->|Nf]; [rewrite upd_same in G'; discriminate|]. rewrite upd_other in G' by auto. rewrite (stored_clean f) in Dd by auto. destruct (Nat.eqb_spec f' f); [congruence|]. now apply (i_dead s I f' p o).
      * intros f'. rewrite (ended_clean f), (i_end s I) by auto. unfold upd. destruct (f' =? f); auto.
      * intros f' p o. rewrite (stores_clean f), (releases_clean f), cleaned_app, (stored_clean f) by auto. pose proof (i_cnt s I f' p o) as B. destruct (Nat.eqb_spec f' f) as [->|Nf]; simpl.
        -- assert (X : cleaned (cleanups f (fss s f)) f p o = is (stored (log s) f p) o); [|lia]. unfold cleanups. rewrite cleaned_rev.
           assert (En : forall k, In (k, (Some o, p)) (fss s f) -> ptr_at s k = Some p /\ stored (log s) f p = Some o).
           { intros k Hk. apply (find_in k (Some o, p) _ (i_c s I f)) in Hk. pose proof (i_b s I f k o p G Hk) as P. split; auto. rewrite (i_a s I f k p G P). unfold get_fss_data. now rewrite Hk. }
           destruct (stored (log s) f p) as [x|] eqn:Sx; simpl.
           ++ destruct (i_dead s I f p x G Sx) as [k P]. pose proof (i_a s I f k p G P) as A. rewrite Sx in A. unfold get_fss_data in A. destruct (find k (fss s f)) as [[v q]|] eqn:F; [|discriminate]. subst v. pose proof (i_b s I f k x q G F) as Bq. assert (q = p) by congruence. subst q. destruct (Nat.eqb_spec x o) as [->|Nx].
              ** apply (cleaned_one f k); [apply (i_c s I)|now apply (find_in k _ _ (i_c s I f))|]. intros k' Hk. apply En in Hk. apply (i_d s I k' k p); tauto.
              ** apply cleaned_none. intros k' Hk. apply En in Hk. destruct Hk. congruence.
           ++ apply cleaned_none. intros k' Hk. apply En in Hk. destruct Hk. congruence.
        -- rewrite (cleaned_other f) by auto. lia.
Qed.

(** ** What the steps append to the record *)
Lemma step_log s l s' : step s l = Some s' -> exists x, log s' = x ++ log s.
Proof.
  intros St. destruct l; simpl in St; unfold on in St; repeat match type of St with match ?b with _ => _ end = _ => destruct b; try discriminate end; injection St as <-; simpl; try (eexists; apply app_comm_cons); try (eexists (_ :: nil); reflexivity).
  unfold exit. destruct (is_main f); simpl; [exists [EMainEnd f]; reflexivity|eexists; apply app_comm_cons].
Qed.
Lemma respects_app x lg : respects (x ++ lg) -> respects lg.
Proof. induction x as [|e x IH]; simpl; auto. destruct e; tauto. Qed.
Lemma gives_app x lg : gives_up_values_only (x ++ lg) -> gives_up_values_only lg.
Proof. induction x as [|e x IH]; simpl; auto. destruct e; tauto. Qed.
Lemma exec_inv_req (I : st -> Prop) (R : list event -> Prop) : (forall x lg, R (x ++ lg) -> R lg) -> (forall s l s', I s -> step s l = Some s' -> R (log s') -> I s') ->
  forall ls s s', I s -> exec step s ls = Some s' -> R (log s') -> I s'.
Proof.
  intros Rm H ls. induction ls as [|l ls IH]; simpl; intros s s' Is E Rs; [congruence|]. destruct (step s l) as [s1|] eqn:St; [|discriminate]. apply (IH s1 s'); auto. apply (H s l); auto.
  clear - E Rs Rm. revert s1 E. induction ls as [|l ls IH]; simpl; intros s1 E; [congruence|]. destruct (step s1 l) as [s2|] eqn:St; [|discriminate]. destruct (step_log _ _ _ St) as [x Hx]. apply (Rm x). rewrite <- Hx. auto.
Qed.
Lemma inv_reach ls s : exec step init_state ls = Some s -> respects (log s) -> inv s.
Proof. intros E R. apply (exec_inv_req inv respects) with (ls := ls) (s := init_state); auto; [apply respects_app|apply inv_step|apply inv_init]. Qed.

(** Answers of get() and release(). *)
Fixpoint answers (lg : list event) : Prop :=
  match lg with [] => True | EGet f p r :: lg' | ERelease f p r :: lg' => r = stored lg' f p /\ answers lg' | _ :: lg' => answers lg' end.
Lemma answers_clean f c lg : Forall (of_fiber f) c -> (answers (c ++ lg) <-> answers lg).
Proof. induction 1 as [|e c He F IH]; simpl; [tauto|]. destruct e; try contradiction. auto. Qed.
Lemma answers_step s l s' : inv s -> answers (log s) -> step s l = Some s' -> answers (log s').
Proof.
  intros I A St. destruct l as [k|f k t|f k|f k|f k|f]; simpl in St; unfold on in St.
  - destruct (ptr_at s k); [discriminate|]. injection St as <-. exact A.
  - destruct (gone s f) eqn:G; [discriminate|]. destruct (ptr_at s k) as [p|] eqn:P; [|discriminate]. injection St as <-. simpl. destruct (same _ _); [exact A|]. apply (answers_clean f); auto. apply set_clean.
  - destruct (gone s f) eqn:G; [discriminate|]. destruct (ptr_at s k) as [p|] eqn:P; [|discriminate]. injection St as <-. simpl. rewrite (stored_clean f), (i_a s I f k p G P) by apply set_clean. split; auto. apply (answers_clean f); auto. apply set_clean.
  - destruct (gone s f) eqn:G; [discriminate|]. destruct (ptr_at s k) as [p|] eqn:P; [|discriminate]. injection St as <-. simpl. rewrite (i_a s I f k p G P). auto.
  - destruct (gone s f) eqn:G; [discriminate|]. destruct (ptr_at s k) as [p|] eqn:P; [|discriminate]. injection St as <-. simpl. apply (answers_clean f); auto. apply set_clean.
  - destruct (gone s f) eqn:G; [discriminate|]. injection St as <-. unfold exit. destruct (is_main f); simpl; auto. apply (answers_clean f); auto. apply cleanups_clean.
Qed.
Lemma answers_reach ls s : exec step init_state ls = Some s -> respects (log s) -> answers (log s).
Proof.
  intros E R. apply (exec_inv_req (fun s => inv s /\ answers (log s)) respects) with (ls := ls) (s := init_state); auto; [apply respects_app| |split; [apply inv_init|exact Logic.I]].
  intros s1 l s2 [I A] St R2. split; [eapply inv_step; eauto|eapply answers_step; eauto].
Qed.
Lemma answers_split l1 : forall l2 f p r, answers (l1 ++ EGet f p r :: l2) \/ answers (l1 ++ ERelease f p r :: l2) -> r = stored l2 f p.
Proof.
  induction l1 as [|e l1 IH]; intros l2 f p r; simpl; [tauto|]. intros H. apply IH. destruct e; tauto.
Qed.

(** A fiber that has ended takes part in nothing any more. *)
Lemma gone_step s l s' f : step s l = Some s' -> gone s f = true -> gone s' f = true /\ forall p, stored (log s') f p = stored (log s) f p /\ forall o, cleaned (log s') f p o = cleaned (log s) f p o.
Proof.
  intros St Gf. assert (Up : forall f' (r : fmap * list event) e, gone s f' = false -> Forall (of_fiber f') (snd r) -> match e with EReset f2 _ _ | ERelease f2 _ _ | EGet f2 _ _ | EDelete f2 _ => f2 = f' | _ => False end ->
    forall p, stored (e :: snd r ++ log s) f p = stored (log s) f p /\ forall o, cleaned (e :: snd r ++ log s) f p o = cleaned (log s) f p o).
  { intros f' r e G' C Ev p. assert (Nf : f <> f') by congruence. destruct e; try contradiction; subst; simpl; rewrite (stored_clean f') by auto; destruct (Nat.eqb_spec f f'); try congruence; simpl; (split; [reflexivity|]); intros o; rewrite cleaned_app, (cleaned_other f') by auto; reflexivity. }
  destruct l as [k|f' k t|f' k|f' k|f' k|f']; simpl in St; unfold on in St.
  - destruct (ptr_at s k); [discriminate|]. injection St as <-. simpl. auto.
  - destruct (gone s f') eqn:G; [discriminate|]. destruct (ptr_at s k) as [p|] eqn:P; [|discriminate]. injection St as <-. split; auto. apply (Up f'); auto. destruct (same (get_fss_data (fss s f') k) t); [constructor|apply set_clean].
  - destruct (gone s f') eqn:G; [discriminate|]. destruct (ptr_at s k) as [p|] eqn:P; [|discriminate]. injection St as <-. split; auto. apply (Up f'); auto. apply set_clean.
  - destruct (gone s f') eqn:G; [discriminate|]. destruct (ptr_at s k) as [p|] eqn:P; [|discriminate]. injection St as <-. split; auto.
  - destruct (gone s f') eqn:G; [discriminate|]. destruct (ptr_at s k) as [p|] eqn:P; [|discriminate]. injection St as <-. split; auto. apply (Up f'); auto. apply set_clean.
  - destruct (gone s f') eqn:G; [discriminate|]. injection St as <-. assert (Nf : f <> f') by congruence. unfold exit. destruct (is_main f'); simpl; rewrite upd_other by auto; split; auto.
    intros p. destruct (Nat.eqb_spec f f'); [congruence|]. rewrite (stored_clean f') by apply cleanups_clean. split; auto. intros o. rewrite cleaned_app, (cleaned_other f'); auto. apply cleanups_clean.
Qed.
Lemma exited_stored ls s : exec step init_state ls = Some s -> forall f p, In (EExit f) (log s) -> stored (log s) f p = None.
Proof.
  intros E. assert (X : (forall f p, In (EExit f) (log s) -> stored (log s) f p = None) /\ (forall f, In (EExit f) (log s) -> gone s f = true)).
  { apply (exec_inv step (fun s => (forall f p, In (EExit f) (log s) -> stored (log s) f p = None) /\ (forall f, In (EExit f) (log s) -> gone s f = true))) with (ls := ls) (s := init_state); [|simpl; split; intros; contradiction|exact E].
    clear. intros s l s' [H1 H2] St.
    assert (Old : forall f p, In (EExit f) (log s) -> stored (log s') f p = None /\ gone s' f = true). { intros f p Hi. destruct (gone_step s l s' f St (H2 f Hi)) as [G S]. destruct (S p) as [-> _]. auto. }
    assert (New : forall f, In (EExit f) (log s') -> In (EExit f) (log s) \/ (l = Exit f /\ is_main f = false)).
    { intros f Hi. assert (Nc : forall f' c, Forall (of_fiber f') c -> ~ In (EExit f) c) by (intros f' c C Hc; rewrite Forall_forall in C; now apply C in Hc).
      destruct l as [k|f' k t|f' k|f' k|f' k|f']; simpl in St; unfold on in St; repeat match type of St with match ?b with _ => _ end = _ => destruct b; try discriminate end; injection St as <-; simpl in Hi.
      - destruct Hi; [discriminate|auto].
      - destruct Hi as [|Hi]; [discriminate|]. apply in_app_or in Hi. destruct Hi as [Hi|Hi]; auto. exfalso. destruct (same _ _); [destruct Hi|]. revert Hi. eapply Nc, set_clean.
      - destruct Hi as [|Hi]; [discriminate|]. apply in_app_or in Hi. destruct Hi as [Hi|Hi]; auto. exfalso. revert Hi. eapply Nc, set_clean.
      - destruct Hi as [|Hi]; [discriminate|]. auto.
      - destruct Hi as [|Hi]; [discriminate|]. apply in_app_or in Hi. destruct Hi as [Hi|Hi]; auto. exfalso. revert Hi. eapply Nc, set_clean.
      - unfold exit in Hi. destruct (is_main f') eqn:Mn; simpl in Hi.
        + destruct Hi; [discriminate|auto].
        + destruct Hi as [Hi|Hi]; [injection Hi as ->; auto|]. apply in_app_or in Hi. destruct Hi as [Hi|Hi]; auto. exfalso. revert Hi. eapply Nc, cleanups_clean. }
    split.
    - intros f p Hi. destruct (New f Hi) as [Ho|[-> Mn]]; [now apply Old|]. simpl in St. destruct (gone s f); [discriminate|]. injection St as <-. unfold exit. rewrite Mn. simpl. now rewrite Nat.eqb_refl.
    - intros f Hi. destruct (New f Hi) as [Ho|[-> Mn]]; [now apply (Old f 0)|]. simpl in St. destruct (gone s f); [discriminate|]. injection St as <-. unfold exit. rewrite Mn. simpl. apply upd_same. }
  apply X.
Qed.

(** No cleanup of nullptr. *)
Definition no_null (s : st) : Prop := (forall f k q, gone s f = false -> find k (fss s f) <> Some (None, q)) /\ forall f p, ~ In (ECleanup f p None) (log s).
Lemma no_null_step s l s' : inv s -> no_null s -> step s l = Some s' -> gives_up_values_only (log s') -> no_null s'.
Proof.
  intros I [N1 N2] St Gv.
  assert (Set_ : forall f k p t b, gone s f = false -> (t <> None \/ get_fss_data (fss s f) k <> None) -> forall r, r = set_fss_data f (fss s f) k p t b ->
    (forall f' k' q, gone s f' = false -> find k' (upd (fss s) f (fst r) f') <> Some (None, q)) /\ forall f' p', ~ In (ECleanup f' p' None) (snd r)).
  { intros f k p t b G Ne r ->. split.
    - intros f' k' q G' F. destruct (Nat.eq_dec f' f) as [->|Nf]; [rewrite upd_same in F|rewrite upd_other in F by auto; now apply (N1 f' k' q)]. revert F. unfold set_fss_data. unfold get_fss_data in Ne. destruct (find k (fss s f)) as [[v q']|] eqn:Fk; simpl.
      + destruct t; [rewrite find_put|rewrite find_erase]; destruct (k' =? k); try discriminate; apply N1; auto.
      + rewrite find_erase. destruct (k' =? k); [|apply N1; auto]. intros X. injection X as -> _. destruct Ne; congruence.
    - intros f' p'. unfold set_fss_data. destruct (find k (fss s f)) as [[v q']|] eqn:Fk; simpl; [|tauto]. destruct b; simpl; [|tauto]. intros [X|[]]. injection X as <- <- ->. now apply (N1 f k q'). }
  destruct l as [k|f k t|f k|f k|f k|f]; simpl in St; unfold on in St.
  - destruct (ptr_at s k); [discriminate|]. injection St as <-. split; simpl; auto. intros f p [X|X]; [discriminate|]. now apply N2 in X.
  - destruct (gone s f) eqn:G; [discriminate|]. destruct (ptr_at s k) as [p|] eqn:P; [|discriminate]. injection St as <-. unfold reset. destruct (same (get_fss_data (fss s f) k) t) eqn:Sm.
    + split; simpl.
      * intros f' k' q G'. destruct (Nat.eq_dec f' f) as [->|Nf]; [rewrite upd_same|rewrite upd_other by auto]; now apply N1.
      * intros f' p' [X|X]; [discriminate|]. now apply N2 in X.
    + assert (Ne : t <> None \/ get_fss_data (fss s f) k <> None) by (destruct t; [left; discriminate|right; intros X; rewrite X in Sm; discriminate]). destruct (Set_ f k p t true G Ne _ eq_refl) as [A B]. split; [exact A|]. simpl. intros f' p' [X|X]; [discriminate|]. apply in_app_or in X. destruct X as [X|X]; [now apply B in X|now apply N2 in X].
  - destruct (gone s f) eqn:G; [discriminate|]. destruct (ptr_at s k) as [p|] eqn:P; [|discriminate]. injection St as <-. simpl in Gv. rewrite (stored_clean f), (i_a s I f k p G P) in Gv by apply set_clean. destruct (Set_ f k p None false G (or_intror (proj1 Gv)) _ eq_refl) as [A B]. split; [exact A|]. simpl. intros f' p' [X|X]; [discriminate|]. apply in_app_or in X. destruct X as [X|X]; [now apply B in X|now apply N2 in X].
  - destruct (gone s f) eqn:G; [discriminate|]. destruct (ptr_at s k) as [p|] eqn:P; [|discriminate]. injection St as <-. split; simpl.
    + intros f' k' q G'. destruct (Nat.eq_dec f' f) as [->|Nf]; [rewrite upd_same|rewrite upd_other by auto]; now apply N1.
    + intros f' p' [X|X]; [discriminate|]. now apply N2 in X.
  - destruct (gone s f) eqn:G; [discriminate|]. destruct (ptr_at s k) as [p|] eqn:P; [|discriminate]. injection St as <-. simpl in Gv. rewrite (stored_clean f), (i_a s I f k p G P) in Gv by apply set_clean. destruct (Set_ f k p None true G (or_intror (proj1 Gv)) _ eq_refl) as [A B]. split; [exact A|]. simpl. intros f' p' [X|X]; [discriminate|]. apply in_app_or in X. destruct X as [X|X]; [now apply B in X|now apply N2 in X].
  - destruct (gone s f) eqn:G; [discriminate|]. injection St as <-. unfold exit in *. destruct (is_main f); split; simpl.
    + intros f' k' q G'. destruct (Nat.eq_dec f' f) as [->|Nf]; [rewrite upd_same in G'; discriminate|]. rewrite upd_other in G' by auto. now apply N1.
    + intros f' p' [X|X]; [discriminate|]. now apply N2 in X.
    + intros f' k' q G'. destruct (Nat.eq_dec f' f) as [->|Nf]; [rewrite upd_same in G'; discriminate|]. rewrite upd_other in G' by auto. rewrite upd_other by auto. now apply N1.
    + intros f' p' [X|X]; [discriminate|]. apply in_app_or in X. destruct X as [X|X]; [|now apply N2 in X]. unfold cleanups in X. apply in_rev in X. apply in_map_iff in X. destruct X as ([k [v q]] & X & Hi). simpl in X. injection X as -> -> ->. apply (find_in k (None, p') _ (i_c s I f')) in Hi. now apply (N1 f' k p').
Qed.

(** ** C51. get() (and release()) return the value that the same fiber last stored in the same pointer object and did not give up - whatever other fibers and pointer objects do, and although pointer objects are identified by their addresses, which are reused. *)
Theorem C51_isolation ls s l1 l2 f p r : exec step init_state ls = Some s -> respects (log s) ->
  log s = l1 ++ EGet f p r :: l2 \/ log s = l1 ++ ERelease f p r :: l2 -> r = stored l2 f p.
Proof. intros E R H. pose proof (answers_reach ls s E R) as A. apply (answers_split l1). destruct H as [<- | <-]; auto. Qed.
(** Every time a fiber stores an object, the cleanup function of that pointer object is later called for it once, by that fiber, or the object is released, or it is still stored; nothing else is ever cleaned up. *)
Theorem C51_exactly_once ls s : exec step init_state ls = Some s -> respects (log s) ->
  forall f p o, stores (log s) f p o = cleaned (log s) f p o + releases (log s) f p o + is (stored (log s) f p) o.
Proof. intros E R. apply (i_cnt s (inv_reach ls s E R)). Qed.
(** After the function of a fiber has returned, nothing is stored any more. *)
Theorem C51_exit ls s : exec step init_state ls = Some s -> respects (log s) ->
  forall f, In (EExit f) (log s) -> forall p o, stores (log s) f p o = cleaned (log s) f p o + releases (log s) f p o.
Proof. intros E R f Hi p o. rewrite (C51_exactly_once ls s E R), (exited_stored ls s E f p Hi). simpl. lia. Qed.

(** ** C52. If no fiber releases or destroys a pointer in which it has no value, no cleanup function is called with nullptr. *)
Theorem C52_not_null_partial ls s : exec step init_state ls = Some s -> respects (log s) -> gives_up_values_only (log s) -> forall f p, ~ In (ECleanup f p None) (log s).
Proof.
  intros E R Gv. apply (exec_inv_req (fun s => inv s /\ no_null s) (fun lg => respects lg /\ gives_up_values_only lg)) with (ls := ls) (s := init_state); auto.
  - intros x lg [A B]. split; [eapply respects_app|eapply gives_app]; eauto.
  - intros s1 l s2 [I N1] St [R2 G2]. split; [eapply inv_step; eauto|eapply no_null_step; eauto].
  - split; [apply inv_init|]. split; simpl; [discriminate|tauto].
Qed.
(** ** C69. The objects stored by the main fiber of a thread are not cleaned up when it ends, nor later. *)
Theorem C69_main_never_cleaned_up ls s ls' s' f : exec step init_state ls = Some s -> gone s f = true -> exec step s ls' = Some s' ->
  forall p o, cleaned (log s') f p o = cleaned (log s) f p o.
Proof.
  intros _ G E. assert (X : gone s' f = true /\ forall p o, cleaned (log s') f p o = cleaned (log s) f p o); [|apply X].
  apply (exec_inv step (fun x => gone x f = true /\ forall p o, cleaned (log x) f p o = cleaned (log s) f p o)) with (ls := ls') (s := s); auto.
  intros s1 l s2 [G1 H] St. destruct (gone_step s1 l s2 f St G1) as [G2 K]. split; auto. intros p o. destruct (K p) as [_ ->]. auto.
Qed.
End Inv.

(** ** Refutations *)
(** A fiber calls release() on a pointer in which it never stored anything, and returns: the cleanup function is called with nullptr. *)
Theorem C52_refuted : exists s, exec (step (fun _ => false)) init_state [New 7; Release 1 7; Exit 1] = Some s /\ respects (log s) /\
  rev (log s) = [ENew 0; ERelease 1 0 None; ECleanup 1 0 None; EExit 1].
Proof. eexists. splits; [reflexivity|simpl; auto|reflexivity]. Qed.
(** The same in reset(), where the documentation excludes it explicitly. *)
Theorem C52_refuted_reset : exists s, exec (step (fun _ => false)) init_state [New 7; Release 1 7; Get 1 7; Reset 1 7 (Some 5)] = Some s /\ respects (log s) /\
  rev (log s) = [ENew 0; ERelease 1 0 None; EGet 1 0 None; ECleanup 1 0 None; EReset 1 0 (Some 5)].
Proof. eexists. splits; [reflexivity|simpl; auto|reflexivity]. Qed.
Theorem C69_refuted : exists s, exec (step (fun f => f =? 9)) init_state [New 7; Reset 9 7 (Some 5); Exit 9] = Some s /\ respects (log s) /\ ended (log s) 9 = true /\
  stores (log s) 9 0 5 = 1 /\ releases (log s) 9 0 5 = 0 /\ forall ls' s', exec (step (fun f => f =? 9)) s ls' = Some s' -> cleaned (log s') 9 0 5 = 0.
Proof.
  set (run := exec (step (fun f => f =? 9)) init_state [New 7; Reset 9 7 (Some 5); Exit 9]).
  assert (L : option_map log run = Some [EMainEnd 9; EReset 9 0 (Some 5); ENew 0]) by reflexivity. assert (G : option_map (fun s => gone s 9) run = Some true) by reflexivity.
  destruct run as [s|] eqn:E; [|discriminate]. simpl in L, G. injection L as L. injection G as G. exists s. rewrite L. split; [reflexivity|]. split; [simpl; auto|]. split; [reflexivity|]. split; [reflexivity|]. split; [reflexivity|].
  intros ls' s' E'. rewrite (C69_main_never_cleaned_up _ _ s ls' s' 9 E G E'), L. reflexivity.
Qed.

(** ** Example: two fibers, a pointer object whose address is reused. *)
Definition ex : list label := [New 7; Reset 1 7 (Some 5); Reset 2 7 (Some 6); Get 1 7; Reset 1 7 (Some 8); Release 2 7; Exit 1; Delete 2 7; New 7; Reset 2 7 (Some 9); Get 2 7; Exit 2].
Lemma logged (r : option st) lg : option_map log r = Some lg -> exists s, r = Some s /\ log s = lg.
Proof. destruct r as [s|]; [|discriminate]. injection 1 as <-. eauto. Qed.
Example C51_ex : exists s, exec (step (fun _ => false)) init_state ex = Some s /\ respects (log s) /\
  rev (log s) = [ENew 0; EReset 1 0 (Some 5); EReset 2 0 (Some 6); EGet 1 0 (Some 5); ECleanup 1 0 (Some 5); EReset 1 0 (Some 8); ERelease 2 0 (Some 6); ECleanup 1 0 (Some 8); EExit 1; EDelete 2 0; ENew 1; ECleanup 2 0 None; EReset 2 1 (Some 9); EGet 2 1 (Some 9); ECleanup 2 1 (Some 9); EExit 2].
Proof.
  destruct (logged (exec (step (fun _ => false)) init_state ex) [EExit 2; ECleanup 2 1 (Some 9); EGet 2 1 (Some 9); EReset 2 1 (Some 9); ECleanup 2 0 None; ENew 1; EDelete 2 0; EExit 1; ECleanup 1 0 (Some 8); ERelease 2 0 (Some 6); EReset 1 0 (Some 8); ECleanup 1 0 (Some 5); EGet 1 0 (Some 5); EReset 2 0 (Some 6); EReset 1 0 (Some 5); ENew 0]) as (s & E & L); [vm_compute; reflexivity|].
  exists s. rewrite L. split; [exact E|]. split; [|reflexivity]. simpl. split; auto. intros f Nf. destruct (f =? 1); simpl; [discriminate|]. intros _. destruct (Nat.eqb_spec f 2); [congruence|reflexivity].
Qed.
Example C52_ex : exists s, exec (step (fun _ => false)) init_state [New 7; Reset 1 7 (Some 5); Reset 1 7 None; Reset 2 7 (Some 6); Release 2 7; Exit 1; Exit 2] = Some s /\ respects (log s) /\ gives_up_values_only (log s) /\ In (ECleanup 1 0 (Some 5)) (log s).
Proof.
  destruct (logged (exec (step (fun _ => false)) init_state [New 7; Reset 1 7 (Some 5); Reset 1 7 None; Reset 2 7 (Some 6); Release 2 7; Exit 1; Exit 2]) [EExit 2; EExit 1; ERelease 2 0 (Some 6); EReset 2 0 (Some 6); EReset 1 0 None; ECleanup 1 0 (Some 5); EReset 1 0 (Some 5); ENew 0]) as (s & E & L); [vm_compute; reflexivity|].
  exists s. rewrite L. split; [exact E|]. split; [exact I|]. split; [simpl; split; [discriminate|exact I]|simpl; tauto].
Qed.

Print Assumptions C51_isolation.
Print Assumptions C51_exactly_once.
Print Assumptions C51_exit.
Print Assumptions C52_not_null_partial.
Print Assumptions C52_refuted.
Print Assumptions C52_refuted_reset.
Print Assumptions C69_main_never_cleaned_up.
Print Assumptions C69_refuted.
