(** Facts about FutureHb. *)
From Coq Require Import List Arith Bool Lia.
From Verif Require Import Base MutexHb MutexHbFacts FutureHb FutureHbSpec.
Import ListNotations.

Definition fknown (s : fst) : list nat := match fown s with None => fmv s | Some t => fview s t end.
Definition holdf (p : fpc) : Prop := match p with SBody _ | SUnl _ | GPred _ _ | GWait _ | GUnl _ _ => True | _ => False end.
Definition fok (s : fst) (t : nat) (p : fpc) : Prop :=
  match p with
  | GUnl _ true | GRead => exists r, ready s = Some r /\ stored (flog s) r (fview s t) /\ incl (swr s) (fview s t)
  | SUnl false => exists u r, In (FSet u r) (flog s)
  | _ => True
  end.
Record finv (s : fst) : Prop := {
  f_some : forall r, ready s = Some r -> stored (flog s) r (fknown s);
  f_none : ready s = None -> swr s = [] /\ srd s = [];
  f_res : results (flog s) = match ready s with None => [] | Some r => [r] end;
  f_acc : incl (facc s) (fknown s);
  f_swr : incl (swr s) (fknown s);
  f_act : forall t a, In (FAct t a) (flog s) -> In a (fview s t);
  f_own : forall t, fown s = Some t <-> holdf (fpcs s t);
  f_pc : forall t, fok s t (fpcs s t);
  f_race : race_free (flog s);
  f_pass : passed (flog s) }.

Lemma stored_up : forall l l' r w w', stored l r w -> incl w w' -> stored (l' ++ l) r w'.
Proof. intros l l' r w w' (u & l1 & l2 & A & B) H. exists u, (l' ++ l1), l2. split; [rewrite A, app_assoc; auto|]. intros a X. apply H. auto. Qed.
Lemma finit_inv : finv finit.
Proof.
  constructor; simpl; auto; try tauto; try discriminate.
  - intros x [].
  - intros x [].
  - intros t. split; [discriminate | tauto].
  - intros t [].
  - split; [|split]; intros l1; intros; destruct l1; discriminate.
Qed.

(** A step of fiber t that stores no result. *)
Lemma fmono : forall s s' t e, finv s ->
  (forall u, u <> t -> fview s' u = fview s u /\ fpcs s' u = fpcs s u) -> incl (fview s t) (fview s' t) -> flog s' = e ++ flog s -> incl (fknown s) (fknown s') ->
  ready s' = ready s -> swr s' = swr s -> (srd s' = srd s \/ ready s <> None) -> incl (facc s') (fknown s') ->
  (forall u, fown s' = Some u <-> holdf (fpcs s' u)) -> fok s' t (fpcs s' t) ->
  match e with [] => True | [FAct u a] => u = t /\ In a (fview s' t) | [FGot u r w] => stored (flog s) r w | [FReady u w] => exists r, stored (flog s) r w | [FThrow _] => exists u r, In (FSet u r) (flog s) | [FTime _] => True | _ => False end ->
  finv s'.
Proof.
  intros s s' t e I HU HV HL HK HR HW HD AC OW PC HE.
  assert (forall u, incl (fview s u) (fview s' u)) as V.
  { intros u. destruct (Nat.eq_dec u t) as [->|X]; auto. destruct (HU u X) as (-> & _). apply incl_refl. }
  assert (forall r w w', stored (flog s) r w -> incl w w' -> stored (flog s') r w') as SU by (intros; rewrite HL; eapply stored_up; eauto).
  constructor; auto; rewrite ?HR, ?HW.
  - intros r X. apply (SU r (fknown s)); auto. apply (f_some s I); auto.
  - intros X. destruct (f_none s I X) as (A & B). split; auto. destruct HD as [HD|HD]; congruence.
  - rewrite HL. destruct e as [|x [|y e]]; [apply (f_res s I) | | destruct x; destruct HE]. destruct x; simpl; try (apply (f_res s I)). destruct HE.
  - intros x X. apply HK, (f_swr s I); auto.
  - intros u a X. rewrite HL in X. apply in_app_or in X. destruct X as [X|X]; [|apply V, (f_act s I); auto].
    destruct e as [|x [|y e]]; [destruct X | | destruct x; destruct HE]. destruct X as [X|[]]. subst x. destruct HE as (-> & HE). auto.
  - intros u. destruct (Nat.eq_dec u t) as [->|X]; auto. destruct (HU u X) as (A & B). rewrite B. pose proof (f_pc s I u) as P. unfold fok in P |- *.
    assert ((exists r, ready s = Some r /\ stored (flog s) r (fview s u) /\ incl (swr s) (fview s u)) -> exists r, ready s' = Some r /\ stored (flog s') r (fview s' u) /\ incl (swr s') (fview s' u)) as Q.
    { intros (r & Q1 & Q2 & Q3). exists r. rewrite HR, HW, A. splits; auto. apply (SU r (fview s u)); auto. apply incl_refl. }
    assert ((exists u r, In (FSet u r) (flog s)) -> exists u r, In (FSet u r) (flog s')) as Q'.
    { intros (v & r & Y). exists v, r. rewrite HL. apply in_or_app. auto. }
    destruct (fpcs s u); auto; destruct ok || destruct b; auto.
  - rewrite HL. intros u X. apply in_app_or in X. destruct X as [X|X]; [|apply (f_race s I u X)]. destruct e as [|x [|y e]]; [destruct X | | destruct x; destruct HE]. destruct X as [X|[]]. subst x. destruct HE.
  - rewrite HL. destruct (f_pass s I) as (P1 & P2 & P3). destruct e as [|x [|y e]]; [apply (f_pass s I) | | destruct x; destruct HE]. split; [|split].
    + intros l1 u r w l2 X. destruct l1 as [|z l1]; simpl in X; injection X as X1 X2; [|eauto]. subst x l2. auto.
    + intros l1 u w l2 X. destruct l1 as [|z l1]; simpl in X; injection X as X1 X2; [|eauto]. subst x l2. auto.
    + intros l1 u l2 X. destruct l1 as [|z l1]; simpl in X; injection X as X1 X2; [|eauto]. subst x l2. auto.
Qed.
Lemma fknown_other : forall s t w, fown s <> Some t -> fknown s = match fown s with None => fmv s | Some u => upd (fview s) t w u end.
Proof. intros s t w H. unfold fknown. destruct (fown s) as [u|]; auto. symmetry. apply upd_other. congruence. Qed.
Lemma fown_ne : forall s t, finv s -> ~ holdf (fpcs s t) -> fown s <> Some t.
Proof. intros s t I H X. apply H. apply (f_own s I). auto. Qed.

Lemma flock_inv : forall s t p, finv s -> ~ holdf (fpcs s t) -> fpcs s t <> GRead -> holdf p -> fok s t p -> (forall m b, p <> GUnl m b) -> finv (flock s t p).
Proof.
  intros s t p I H1 HG H2 P PN. pose proof (fown_ne s t I H1) as NE. unfold flock. pose proof (f_acc s I) as A. destruct (fown s) as [u|] eqn:O.
  - apply (fmono s _ t []); simpl; auto.
    + intros v X. rewrite !upd_other; auto.
    + rewrite upd_same. apply incl_appr, incl_refl.
    + unfold fknown. simpl. rewrite O, upd_other by congruence. apply incl_refl.
    + unfold fknown in *. simpl. rewrite upd_other by congruence. rewrite O in A. auto.
    + intros v. rewrite <- O, (f_own s I). destruct (Nat.eq_dec v t) as [->|X]; [rewrite upd_same | rewrite upd_other by auto]; tauto.
    + rewrite upd_same. pose proof (f_pc s I t) as Q. unfold fok in *. simpl. destruct (fpcs s t); auto; simpl in *; tauto || congruence.
  - apply (fmono s _ t []); simpl; auto.
    + intros v X. rewrite !upd_other; auto.
    + rewrite upd_same. apply incl_appr, incl_refl.
    + unfold fknown. simpl. rewrite O, upd_same. apply incl_appl, incl_refl.
    + unfold fknown in *. simpl. rewrite upd_same. rewrite O in A. apply incl_appl; auto.
    + intros v. destruct (Nat.eq_dec v t) as [->|X]; [rewrite upd_same | rewrite upd_other by auto; rewrite <- (f_own s I), O]; [tauto|]. split; intros Y; congruence.
    + rewrite upd_same. unfold fok in *. destruct p; auto; simpl in H2; try contradiction. destruct (PN m b); auto.
Qed.
Lemma funlock_inv : forall s t p m c w e, finv s -> fown s = Some t -> ~ holdf p -> incl (fview s t) m -> incl (fview s t) w ->
  (p = GRead -> exists r, ready s = Some r /\ stored (flog s) r (fview s t) /\ incl (swr s) (fview s t)) ->
  match e with [] => True | [FReady u w] => exists r, stored (flog s) r w | [FThrow _] => exists u r, In (FSet u r) (flog s) | [FTime _] => True | _ => False end ->
  finv (fgo s t p None m c w e).
Proof.
  intros s t p m c w e I O H M W P HE. assert (fknown s = fview s t) as K by (unfold fknown; rewrite O; auto).
  apply (fmono s _ t e); simpl; auto.
  - intros v X. rewrite !upd_other; auto.
  - rewrite upd_same. auto.
  - rewrite K. auto.
  - unfold fknown. simpl. intros x X. apply M. rewrite <- K. apply (f_acc s I); auto.
  - intros v. split; [discriminate|]. destruct (Nat.eq_dec v t) as [->|X]; [rewrite upd_same; tauto | rewrite upd_other by auto; rewrite <- (f_own s I); congruence].
  - rewrite upd_same. unfold fok. destruct p; simpl in H; try tauto. destruct (P eq_refl) as (r & P1 & P2 & P3). exists r. simpl. rewrite upd_same. splits; auto.
    + apply (stored_up (flog s) e r (fview s t)); auto.
    + intros x X. auto.
  - destruct e as [|[] []]; auto; destruct HE.
Qed.
Lemma ftest_inv : forall s t p, finv s -> fown s = Some t -> holdf p ->
  (forall s' : fst, ready s' = ready s -> flog s' = flog s -> swr s' = swr s -> incl (fview s t) (fview s' t) -> fok s' t p) ->
  finv (ftest s t p).
Proof.
  intros s t p I O H P. assert (fknown s = fview s t) as K by (unfold fknown; rewrite O; auto).
  unfold ftest. rewrite ordered_incl by (rewrite <- K; apply (f_acc s I)).
  assert (incl (fview s t) (fnext s :: fview s t)) as IT by (apply incl_tl, incl_refl).
  apply (fmono s _ t []); simpl; auto.
  - intros v X. rewrite !upd_other; auto.
  - rewrite upd_same. auto.
  - unfold fknown at 2. simpl. rewrite O, upd_same, K. auto.
  - unfold fknown. simpl. rewrite O, upd_same. intros x [X|X]; [left; auto | right]. rewrite <- K. apply (f_acc s I); auto.
  - intros v. rewrite (f_own s I). destruct (Nat.eq_dec v t) as [->|X]; [rewrite upd_same | rewrite upd_other by auto; tauto]. split; auto. intros _. apply (f_own s I). auto.
  - rewrite upd_same. apply P; simpl; auto. rewrite upd_same. auto.
Qed.
Lemma fstore_inv : forall s t r, finv s -> fown s = Some t -> ready s = None -> finv (fstore s t r (SUnl true)).
Proof.
  intros s t r I O RN. assert (fknown s = fview s t) as K by (unfold fknown; rewrite O; auto). destruct (f_none s I RN) as (W0 & D0).
  unfold fstore. rewrite W0, D0. rewrite ordered_incl by (rewrite <- K; simpl; rewrite app_nil_r; apply (f_acc s I)).
  set (s' := mkF _ _ _ _ _ _ _ _ _ _ _).
  assert (forall v, v <> t -> fview s' v = fview s v /\ fpcs s' v = fpcs s v) as HU by (intros; split; apply upd_other; auto).
  assert (fview s' t = fnext s :: fview s t) as HV by apply upd_same.
  assert (fpcs s' t = SUnl true) as HP by apply upd_same.
  assert (fknown s' = fnext s :: fview s t) as K' by (unfold fknown; simpl; rewrite O, upd_same; auto).
  assert (forall v, incl (fview s v) (fview s' v)) as V.
  { intros v. destruct (Nat.eq_dec v t) as [->|X]; [rewrite HV; apply incl_tl, incl_refl | destruct (HU v X) as (-> & _); apply incl_refl]. }
  assert (forall v x, ~ In (FSet v x) (flog s)) as NS.
  { pose proof (f_res s I) as X. rewrite RN in X. clear - X. induction (flog s) as [|e l IH]; simpl; auto. intros v x [Y|Y]; [subst e; discriminate|]. apply (IH) with v x; auto. destruct e; simpl in X; auto. discriminate. }
  constructor.
  - intros r' X. injection X as <-. exists t, [], (flog s). split; auto. intros a Y. rewrite K'. right. apply (f_act s I); auto.
  - discriminate.
  - simpl. rewrite (f_res s I), RN. auto.
  - rewrite K'. intros x [X|X]; [left; auto | right; rewrite <- K; apply (f_acc s I); auto].
  - rewrite K'. intros x [X|[]]. left. auto.
  - intros v a [X|X]; [discriminate|]. apply V, (f_act s I); auto.
  - intros v. destruct (Nat.eq_dec v t) as [->|X]; [rewrite HP; simpl; tauto|]. destruct (HU v X) as (_ & ->). change (fown s') with (fown s). apply (f_own s I).
  - intros v. destruct (Nat.eq_dec v t) as [->|X]; [rewrite HP; simpl; auto|]. destruct (HU v X) as (A & ->). pose proof (f_pc s I v) as P. unfold fok in *.
    destruct (fpcs s v); auto; try (destruct ok || destruct b; auto); try (destruct P as (r' & P & _); congruence).
    destruct P as (v' & x & P). destruct (NS _ _ P).
  - intros v [X|X]; [discriminate|]. apply (f_race s I v X).
  - destruct (f_pass s I) as (P1 & P2 & P3). simpl. split; [|split].
    + intros l1 u x w l2 X. destruct l1 as [|z l1]; simpl in X; injection X as X1 X2; [discriminate|eauto].
    + intros l1 u w l2 X. destruct l1 as [|z l1]; simpl in X; injection X as X1 X2; [discriminate|eauto].
    + intros l1 u l2 X. destruct l1 as [|z l1]; simpl in X; injection X as X1 X2; [discriminate|eauto].
Qed.
(** Steps of a fiber that does not own the mutex. *)
Lemma fplain_inv : forall s t p c w, finv s -> ~ holdf (fpcs s t) -> ~ holdf p -> p <> GRead -> incl (fview s t) w -> finv (fgo s t p (fown s) (fmv s) c w []).
Proof.
  intros s t p c w I H1 H2 HG W. pose proof (fown_ne s t I H1) as NE. apply (fmono s _ t []); simpl; auto.
  - intros v X. rewrite !upd_other; auto.
  - rewrite upd_same. auto.
  - rewrite (fknown_other s t w NE). apply incl_refl.
  - unfold fknown at 1. simpl. rewrite <- fknown_other by auto. apply (f_acc s I).
  - intros v. rewrite (f_own s I). destruct (Nat.eq_dec v t) as [->|X]; [rewrite upd_same; tauto | rewrite upd_other by auto; tauto].
  - rewrite upd_same. unfold fok. destruct p; simpl in H2; auto; tauto.
Qed.
Lemma fstep_inv : forall s l s', finv s -> fstep s l = Some s' -> finv s'.
Proof.
  intros s l s' I H. destruct l as [t|t r|t m|t|t|t]; simpl in H.
  - destruct (fpcs s t) eqn:E; try discriminate. injection H as <-. pose proof (fown_ne s t I) as NE. rewrite E in NE. specialize (NE (fun x => x)).
    apply (fmono s _ t [FAct t (fnext s)]); simpl; auto.
    + intros v X. rewrite upd_other; auto.
    + rewrite upd_same. apply incl_tl, incl_refl.
    + rewrite (fknown_other s t (fnext s :: fview s t) NE). apply incl_refl.
    + unfold fknown at 1. simpl. rewrite <- fknown_other by auto. apply (f_acc s I).
    + apply (f_own s I).
    + rewrite E. simpl. auto.
    + rewrite upd_same. simpl. auto.
  - destruct (fpcs s t) eqn:E; try discriminate. injection H as <-. apply fplain_inv; rewrite ?E; auto; try discriminate. apply incl_refl.
  - destruct (fpcs s t) eqn:E; try discriminate. injection H as <-. apply fplain_inv; rewrite ?E; auto; try discriminate. apply incl_refl.
  - pose proof (f_pc s I t) as P. pose proof (f_own s I t) as OW. destruct (fpcs s t) as [|r|r|ok| |m|m b|m|m|m b|m b|] eqn:E; try discriminate; simpl in OW.
    + injection H as <-. apply flock_inv; auto; rewrite ?E; simpl; auto; discriminate.
    + injection H as <-. destruct (ready s) as [r'|] eqn:R; [|apply fstore_inv; auto; apply OW; auto].
      apply ftest_inv; simpl; auto; [apply OW; auto|]. intros s' _ L _ _. rewrite L. destruct (f_some s I r' R) as (u & l1 & l2 & X & _). exists u, r'. rewrite X. apply in_or_app. right. left. auto.
    + assert (fown s = Some t) as O by (apply OW; auto). destruct ok; injection H as <-; apply funlock_inv; simpl; auto; try discriminate; apply incl_appr, incl_refl.
    + injection H as <-. apply fplain_inv; rewrite ?E; auto; try discriminate. apply incl_appr, incl_refl.
    + injection H as <-. apply flock_inv; auto; rewrite ?E; simpl; auto; discriminate.
    + injection H as <-. assert (fown s = Some t) as O by (apply OW; auto). assert (fknown s = fview s t) as K by (unfold fknown; rewrite O; auto).
      apply ftest_inv; auto.
      * destruct (ready s); [|destruct b]; simpl; auto.
      * intros s' R L W V. destruct (ready s) as [r|] eqn:RR; [|destruct b; simpl; auto]. simpl. exists r. rewrite R, L, W. splits; auto.
        -- apply (stored_up (flog s) [] r (fknown s)); [apply (f_some s I); auto | rewrite K; auto].
        -- intros x X. apply V. rewrite <- K. apply (f_swr s I); auto.
    + injection H as <-. assert (fown s = Some t) as O by (apply OW; auto). apply funlock_inv; simpl; auto; try discriminate; apply incl_appr, incl_appr, incl_refl.
    + injection H as <-. apply flock_inv; auto; rewrite ?E; simpl; auto; discriminate.
    + assert (fown s = Some t) as O by (apply OW; auto). injection H as <-. destruct b; [|apply funlock_inv; simpl; auto; try discriminate; apply incl_appr, incl_refl].
      destruct P as (r & P1 & P2 & P3). assert (stored (flog s) r (fmv s ++ fview s t)) as Q by (apply (stored_up (flog s) [] r (fview s t)); auto; apply incl_appr, incl_refl).
      destruct m; apply funlock_inv; simpl; eauto; try discriminate; apply incl_appr, incl_refl.
    + destruct P as (r & P1 & P2 & P3). rewrite P1 in H. rewrite ordered_incl in H by auto. injection H as <-. pose proof (fown_ne s t I) as NE. rewrite E in NE. specialize (NE (fun x => x)).
      apply (fmono s _ t [FGot t r (fview s t)]); simpl; auto.
      * intros v X. rewrite !upd_other; auto.
      * rewrite upd_same. apply incl_tl, incl_refl.
      * rewrite (fknown_other s t (fnext s :: fview s t) NE). apply incl_refl.
      * right. congruence.
      * unfold fknown at 1. simpl. rewrite <- fknown_other by auto. apply (f_acc s I).
      * intros v. rewrite (f_own s I). destruct (Nat.eq_dec v t) as [->|X]; [rewrite upd_same, E; simpl; tauto | rewrite upd_other by auto; tauto].
      * rewrite upd_same. simpl. auto.
  - destruct (fpcs s t) eqn:E; try discriminate. injection H as <-. apply fplain_inv; rewrite ?E; auto; try discriminate. apply incl_refl.
  - destruct (fpcs s t) as [| | | | | | | |[]| | |] eqn:E; try discriminate. injection H as <-. apply fplain_inv; rewrite ?E; auto; try discriminate. apply incl_appr, incl_refl.
Qed.
Lemma freach_inv : forall s, reachable fstep finit s -> finv s.
Proof. apply (reachable_inv fstep finv finit finit_inv). intros. eapply fstep_inv; eauto. Qed.
