(** Facts about the table of pointers and about local executions of the programs in FutureObj.v. *)
From Coq Require Import List Arith Bool Lia.
From Verif Require Import Base Kernel SharedState FutureObj FutureObjSpec.
Import ListNotations.

Lemma loc_eqb_spec a b : reflect (a = b) (loc_eqb a b).
Proof. destruct a, b; simpl; try (right; congruence); destruct (Nat.eqb_spec n n0) || destruct (Nat.eqb_spec f f0); constructor; congruence. Qed.
Lemma loc_refl a : loc_eqb a a = true.
Proof. destruct (loc_eqb_spec a a); congruence. Qed.
Lemma updl_same {A} (m : loc -> A) l v : updl m l v l = v.
Proof. unfold updl. now rewrite loc_refl. Qed.
Lemma updl_other {A} (m : loc -> A) l v x : x <> l -> updl m l v x = m x.
Proof. unfold updl. destruct (loc_eqb_spec x l); congruence. Qed.
Lemma updl_eq {A} (m : loc -> A) l v x : updl m l v x = if loc_eqb x l then v else m x.
Proof. reflexivity. Qed.

Lemma pget_prem p l x : pget (prem p l) x = if loc_eqb x l then None else pget p x.
Proof.
  induction p as [|[a i] p IH]; simpl; [now destruct (loc_eqb x l)|].
  destruct (loc_eqb_spec a l) as [->|Ha]; simpl.
  - rewrite IH. destruct (loc_eqb_spec x l) as [Hx|Hx]; auto. destruct (loc_eqb_spec l x); congruence.
  - rewrite IH. destruct (loc_eqb_spec a x) as [Hx|Hx]; auto. destruct (loc_eqb_spec x l); congruence.
Qed.
Lemma pget_pset p l v x : pget (pset p l v) x = updl (pget p) l v x.
Proof.
  unfold updl. destruct v as [i|]; simpl; rewrite pget_prem; destruct (loc_eqb_spec x l) as [->|Hx]; auto.
  - now rewrite loc_refl.
  - destruct (loc_eqb_spec l x); congruence.
Qed.
Lemma pget_pswap p a b x : pget (pswap p a b) x = updl (updl (pget p) a (pget p b)) b (pget p a) x.
Proof. unfold pswap. rewrite pget_pset, !updl_eq, pget_pset, updl_eq. reflexivity. Qed.

Definition keys (p : ptrs) : list loc := map fst p.
Lemma keys_prem p l x : In x (keys (prem p l)) -> In x (keys p) /\ x <> l.
Proof.
  induction p as [|[a i] p IH]; simpl; [tauto|]. destruct (loc_eqb_spec a l) as [->|Ha]; simpl; intros H.
  - destruct (IH H). auto.
  - destruct H as [<-|H]; auto. destruct (IH H). auto.
Qed.
Lemma nd_prem p l : NoDup (keys p) -> NoDup (keys (prem p l)).
Proof.
  induction p as [|[a i] p IH]; simpl; auto. intros H. inversion H; subst. destruct (loc_eqb a l); auto. simpl. constructor; auto.
  intros X. apply keys_prem in X. tauto.
Qed.
Lemma nd_pset p l v : NoDup (keys p) -> NoDup (keys (pset p l v)).
Proof. intros H. destruct v; simpl; [constructor|]; auto using nd_prem. intros X. apply keys_prem in X. tauto. Qed.
Lemma nd_pswap p a b : NoDup (keys p) -> NoDup (keys (pswap p a b)).
Proof. intros. unfold pswap. auto using nd_pset. Qed.

Definition occ (v : option sid) (i : sid) : nat := match v with Some j => if Nat.eqb j i then 1 else 0 | None => 0 end.
Lemma refs_cons l j p i : refs ((l, j) :: p) i = occ (Some j) i + refs p i.
Proof. unfold refs, occ. simpl. destruct (Nat.eqb j i); reflexivity. Qed.
Lemma pget_in p l : pget p l = None <-> ~ In l (keys p).
Proof.
  induction p as [|[a i] p IH]; simpl; [tauto|]. destruct (loc_eqb_spec a l) as [->|]; [split; [discriminate|tauto]|]. rewrite IH. tauto.
Qed.
Lemma prem_notin p l : ~ In l (keys p) -> prem p l = p.
Proof.
  induction p as [|[a i] p IH]; simpl; auto. intros H. destruct (loc_eqb_spec a l) as [->|]; [tauto|]. now rewrite IH by tauto.
Qed.
Lemma refs_prem p l i : NoDup (keys p) -> refs (prem p l) i + occ (pget p l) i = refs p i.
Proof.
  induction p as [|[a j] p IH]; [reflexivity|]. intros H. inversion H; subst. cbn [prem pget].
  destruct (loc_eqb_spec a l) as [->|Ha].
  - rewrite prem_notin by auto. rewrite refs_cons. lia.
  - rewrite !refs_cons. rewrite <- IH by auto. lia.
Qed.
Lemma refs_pset p l v i : NoDup (keys p) -> refs (pset p l v) i + occ (pget p l) i = refs p i + occ v i.
Proof. intros H. pose proof (refs_prem p l i H). destruct v as [j|]; cbn [pset]; [rewrite refs_cons|]; unfold occ in *; lia. Qed.
Lemma refs_pswap p a b i : NoDup (keys p) -> refs (pswap p a b) i = refs p i.
Proof.
  intros H. unfold pswap. pose proof (refs_pset p a (pget p b) i H) as H1.
  pose proof (refs_pset (pset p a (pget p b)) b (pget p a) i (nd_pset _ _ _ H)) as H2.
  rewrite pget_pset, updl_eq in H2. destruct (loc_eqb_spec b a) as [->|]; lia.
Qed.
Lemma refs_pos p i l : pget p l = Some i -> 0 < refs p i.
Proof.
  induction p as [|[a j] p IH]; simpl; [discriminate|]. rewrite refs_cons. destruct (loc_eqb a l); [|intros H; specialize (IH H); lia].
  intros [= ->]. unfold occ. rewrite Nat.eqb_refl. lia.
Qed.
Lemma refs_some p i : NoDup (keys p) -> 0 < refs p i -> exists l, pget p l = Some i.
Proof.
  induction p as [|[a j] p IH]; [cbn; lia|]. intros H. inversion H; subst. rewrite refs_cons. unfold occ. destruct (Nat.eqb_spec j i) as [->|].
  - intros _. exists a. simpl. now rewrite loc_refl.
  - intros X. destruct (IH H3 X) as (l & Hl). exists l. simpl. destruct (loc_eqb_spec a l) as [->|]; auto.
    exfalso. assert (pget p l = None) by (apply pget_in; auto). congruence.
Qed.

Section Local.
Context {V E : Type}.
Notation instr := (instr V E).
Notation op := (op V E).

(** The effect of a program on the pointers; None where it would use a null pointer or overwrite a non-null one. [n]: the state INew creates. *)
Definition linstr (n : sid) (m : loc -> option sid) (i : instr) : option (loc -> option sid) :=
  match i with
  | INew l => match m l with None => Some (updl m l (Some n)) | Some _ => None end
  | ICopy d a => match m d with None => Some (match m a with Some j => updl m d (Some j) | None => m end) | Some _ => None end
  | ISwap a b | ISwapO a b | IReset a b => Some (updl (updl m a (m b)) b (m a))
  | IMoveO d a => match m d with None => Some (updl (updl m d (m a)) a None) | Some _ => None end
  | IDtor l | IDrop l => Some (updl m l None)
  | IFree _ => Some m
  | IObtain l | ISet l _ | INotify l | IRun l | IWait l _ | IWaitT l => match m l with Some _ => Some m | None => None end
  end.
Fixpoint lrun (n : sid) (m : loc -> option sid) (p : list instr) : option (loc -> option sid) :=
  match p with
  | [] => Some m
  | i :: p' => match linstr n m i with Some m' => lrun n m' p' | None => None end
  end.

(** Locations an instruction looks at, and those it changes. *)
Definition locs (i : instr) : list loc :=
  match i with
  | INew l | IDtor l | IDrop l | IObtain l | ISet l _ | INotify l | IRun l | IWait l _ | IWaitT l => [l]
  | ICopy a b | ISwap a b | ISwapO a b | IReset a b | IMoveO a b => [a; b]
  | IFree _ => []
  end.
Definition writes (i : instr) : list loc :=
  match i with
  | INew l | IDtor l | IDrop l => [l]
  | ICopy a b => [a]
  | ISwap a b | ISwapO a b | IReset a b | IMoveO a b => [a; b]
  | _ => []
  end.
Definition is_new (i : instr) : bool := match i with INew _ => true | _ => false end.

Lemma writes_locs i l : In l (writes i) -> In l (locs i).
Proof. destruct i; simpl; tauto. Qed.

(** A program only depends on the locations in it. *)
Lemma linstr_agree n m1 m2 i m1' : (forall l, In l (locs i) -> m1 l = m2 l) -> linstr n m1 i = Some m1' ->
  exists m2', linstr n m2 i = Some m2' /\ forall l, m1 l = m2 l -> m1' l = m2' l.
Proof.
  intros H H1. destruct i; simpl in *;
    repeat match goal with K : forall l, ?a = l \/ _ -> m1 l = m2 l |- _ => pose proof (K a (or_introl eq_refl)); revert K end; intros;
    repeat match goal with K : forall l, ?a = l \/ ?b = l \/ _ -> m1 l = m2 l |- _ => pose proof (K b (or_intror (or_introl eq_refl))); revert K end; intros;
    repeat match goal with K : m1 _ = m2 _ |- _ => rewrite <- K; revert K end; intros;
    repeat match goal with K : match m1 ?l with _ => _ end = _ |- _ => destruct (m1 l) eqn:?; try discriminate K end;
    inversion H1; subst; eexists; (split; [reflexivity|]); let y := fresh in intros y ?; repeat match goal with |- context [match m1 ?l with _ => _ end] => destruct (m1 l) eqn:? end; rewrite ?updl_eq;
    repeat match goal with |- context [loc_eqb ?a ?b] => destruct (loc_eqb a b) end; auto; congruence.
Qed.
Lemma linstr_keep n m i m' l : linstr n m i = Some m' -> ~ In l (writes i) -> m' l = m l.
Proof.
  intros H N. destruct i; simpl in *;
    repeat match goal with K : match m ?l with _ => _ end = _ |- _ => destruct (m l); try discriminate K end;
    inversion H; subst; auto; rewrite ?updl_eq;
    repeat match goal with |- context [loc_eqb ?a ?b] => destruct (loc_eqb_spec a b); subst; try tauto end.
  destruct (m s); auto. rewrite updl_other; auto.
Qed.
Lemma lrun_agree p : forall n m1 m2 m1', (forall i l, In i p -> In l (locs i) -> m1 l = m2 l) -> lrun n m1 p = Some m1' ->
  exists m2', lrun n m2 p = Some m2' /\ forall l, m1 l = m2 l -> m1' l = m2' l.
Proof.
  induction p as [|i p IH]; simpl; intros n m1 m2 m1' H H1.
  - inversion H1; subst. eauto.
  - destruct (linstr n m1 i) as [m|] eqn:E1; [|discriminate].
    destruct (linstr_agree n m1 m2 i m (fun l => H i l (or_introl eq_refl)) E1) as (m2x & E2 & A). rewrite E2.
    destruct (IH n m m2x m1') as (m2' & E3 & A'); auto.
    + intros j l Hj Hl. apply A. eapply H; eauto.
    + exists m2'. split; auto.
Qed.
Lemma lrun_no_new p : forall n n' m, (forall i, In i p -> is_new i = false) -> lrun n m p = lrun n' m p.
Proof.
  induction p as [|i p IH]; simpl; auto. intros n n' m H. replace (linstr n' m i) with (linstr n m i).
  - destruct (linstr n m i); auto.
  - specialize (H i (or_introl eq_refl)). destruct i; auto. discriminate.
Qed.
End Local.
