(** Invariants of FutureObj.v, part 2: value semantics of the objects. *)
From Coq Require Import List Arith Bool Lia.
From Verif Require Import Base Kernel SharedState FutureObj FutureObjSpec FutureObjFacts FutureObjProofs.
Import ListNotations.

Section Proofs.
Context {V E : Type}.
Notation state := (state V E).
Notation op := (op V E).
Notation instr := (instr V E).
Notation frame := (frame V E).
Notation event := (event V E).

Definition needs_new (o : op) : bool := match o with New _ | Reset _ => true | _ => false end.
Definition newval (h : list event) (f : fid) (fr : frame) (n : sid) : Prop :=
  needs_new (fop fr) = false \/ failed (fresult fr) = true \/ (exists i, In i (fprog fr) /\ is_new i = true) \/ last_new h f = Some n.

Lemma effect_keep (o : op) r n m l : ~ In (l, Excl) (uses_of o) -> effect o r n m l = m l.
Proof.
  intros H. assert (X : forall l', In (l', Excl) (uses_of o) -> l <> l') by (intros l' Y ->; auto).
  unfold effect. destruct (failed r); auto. destruct o; simpl in *; auto; try (rewrite ?updl_other; auto; fail).
  - destruct (loc_eqb d s); auto. rewrite !updl_other; auto.
  - destruct l0; auto. apply updl_other; auto.
Qed.
Lemma effect_agree (o : op) r n m1 m2 l md : (forall x k, In (x, k) (uses_of o) -> m1 x = m2 x) -> In (l, md) (uses_of o) ->
  effect o r n m1 l = effect o r n m2 l.
Proof.
  intros H Hl. unfold effect. pose proof (H _ _ Hl) as Hm. destruct (failed r); auto. destruct o; simpl in *; auto; rewrite ?updl_eq;
    repeat match goal with |- context [if loc_eqb ?a ?b then _ else _] => destruct (loc_eqb a b) end; rewrite ?updl_eq;
    repeat match goal with |- context [if loc_eqb ?a ?b then _ else _] => destruct (loc_eqb a b) end; eauto.
  destruct l0; rewrite ?updl_eq; auto. destruct (loc_eqb l (HF n0)); auto.
Qed.

Lemma lrun_app p : forall q n (m : loc -> option sid), lrun (V := V) (E := E) n m (p ++ q) = match lrun n m p with Some m' => lrun n m' q | None => None end.
Proof. induction p as [|i p IH]; simpl; auto. intros. destruct (linstr n m i); auto. Qed.
Lemma lrun_ext (p : list instr) n m1 m2 m1' : (forall l, m1 l = m2 l) -> lrun n m1 p = Some m1' -> exists m2', lrun n m2 p = Some m2' /\ forall l, m1' l = m2' l.
Proof. intros H H1. destruct (lrun_agree p n m1 m2 m1' (fun _ l _ _ => H l) H1) as (m2' & A & B). eauto. Qed.

Lemma linstr_new n n' m (i : instr) : is_new i = false -> linstr n m i = linstr n' m i.
Proof. destruct i; auto. discriminate. Qed.

Ltac spl := repeat (match goal with |- ?A /\ _ => lazymatch A with (forall l, ~ _ -> _) => fail | _ => split; [solve [auto]|] end end).
(** An instruction against its local effect. *)
Lemma istep_lin (s : state) f o r i rest s' m1 : istep s f o r i rest s' -> linstr (next s) (pget (ptr s)) i = Some m1 -> NoDup (keys (ptr s)) ->
  NoDup (keys (ptr s')) /\ refers (log s') = refers (log s) /\
  (forall g, last_new (log s') g = if is_new i && Nat.eqb f g then Some (next s) else last_new (log s) g) /\
  (forall l, ~ In l (writes i) -> pget (ptr s') l = pget (ptr s) l) /\
  exists r' push, frames s' f = Some (mkFrame o r' (push ++ rest)) /\ (failed r = false -> failed r' = false) /\
    (forall j, In j push -> is_new j = false) /\
    exists m2, lrun (next s) (pget (ptr s')) push = Some m2 /\ forall l, m2 l = m1 l.
Proof.
  intros Hi Hl Hn.
  assert (W : forall l, ~ In l (writes i) -> m1 l = pget (ptr s) l) by (intros; eapply linstr_keep; eauto).
  destruct Hi as [x H|l j -> Hp Hr ->].
  2: { simpl in Hl. rewrite Hp in Hl. inversion Hl; subst. splits; auto. exists FTimeout, []. simpl. rewrite upd_same. splits; auto; [tauto|eauto]. }
  assert (Fin : forall r', frames s' f = Some (mkFrame o r' rest) -> (failed r = false -> failed r' = false) ->
     (forall l, pget (ptr s') l = m1 l) ->
     (forall l, ~ In l (writes i) -> pget (ptr s') l = pget (ptr s) l) /\
     exists r' push, frames s' f = Some (mkFrame o r' (push ++ rest)) /\ (failed r = false -> failed r' = false) /\
      (forall j, In j push -> is_new j = false) /\
      exists m2, lrun (next s) (pget (ptr s')) push = Some m2 /\ forall l, m2 l = m1 l).
  { intros r' F1 F2 F3. split; [intros l Hw; rewrite F3; auto|]. exists r', []. splits; auto; [simpl; tauto|]. exists (pget (ptr s')). auto. }
  destruct i; simpl in H, Hl.
  - (* INew *) destruct (pget (ptr s) l) eqn:El; [discriminate|]. inversion H; subst s'; inversion Hl; subst m1; clear H Hl. simpl.
    split; [apply (nd_pset _ _ (Some (next s))); auto|]. split; [auto|]. split; [intros g; destruct (Nat.eqb f g); auto|].
    eapply (Fin r); auto; simpl; [now rewrite upd_same|]. intros x0. exact (pget_pset (ptr s) l (Some (next s)) x0).
  - (* ICopy *) destruct (pget (ptr s) d) eqn:Ed; [discriminate|]. destruct (pget (ptr s) s0) as [j|] eqn:Ea; inversion H; subst s'; inversion Hl; subst m1; clear H Hl; simpl.
    + split; [apply (nd_pset _ _ (Some j)); auto|]. spl. eapply (Fin r); auto; simpl; [now rewrite upd_same|].
      intros x0. exact (pget_pset (ptr s) d (Some j) x0).
    + spl. eapply (Fin r); auto; simpl. now rewrite upd_same.
  - inversion H; subst s'; inversion Hl; subst m1; clear H Hl; simpl. split; [now apply nd_pswap|]. spl. eapply (Fin r); auto; simpl; [now rewrite upd_same|].
    intros; apply pget_pswap.
  - destruct (pget (ptr s) d) eqn:Ed; [discriminate|]. inversion H; subst s'; inversion Hl; subst m1; clear H Hl; simpl.
    split; [apply nd_prem, nd_pset; auto|]. spl. eapply (Fin r); auto; simpl; [now rewrite upd_same|].
    intros. rewrite pget_prem, pget_pset. reflexivity.
  - inversion H; subst s'; inversion Hl; subst m1; clear H Hl; simpl. split; [now apply nd_pswap|]. spl. eapply (Fin r); auto; simpl; [now rewrite upd_same|].
    intros; apply pget_pswap.
  - inversion H; subst s'; inversion Hl; subst m1; clear H Hl; simpl. split; [now apply nd_pswap|].
    assert (log (match pget (ptr s) h with Some j => with_log s (FAbandon f j) | None => s end) = match pget (ptr s) h with Some j => FAbandon f j :: log s | None => log s end) as -> by (destruct (pget (ptr s) h); auto).
    split; [destruct (pget (ptr s) h); auto|]. split; [destruct (pget (ptr s) h); auto|]. eapply (Fin r); auto; simpl; [now rewrite upd_same|].
    intros; apply pget_pswap.
  - (* IDtor *) inversion Hl; subst m1; clear Hl.
    destruct (pget (ptr s) l) as [j|] eqn:El; [destruct (obt s l) eqn:Eo; [destruct (result s j) eqn:Er|]|]; inversion H; subst s'; clear H; simpl; splits; auto.
    all: rewrite upd_same.
    1,3,4: exists r, [IDrop l]; splits; auto; [simpl; intuition (subst; auto)|eexists; split; [reflexivity|auto]].
    exists r, [INotify l; IDrop l]; splits; auto; [simpl; intuition (subst; auto)|]. simpl. rewrite El. eexists; split; [reflexivity|auto].
  - (* IDrop *) inversion Hl; subst m1; clear Hl. destruct (pget (ptr s) l) as [j|] eqn:El; [destruct (Nat.eqb (cnt s j) 1) eqn:Ec|]; inversion H; subst s'; clear H; simpl.
    + split; [apply nd_prem; auto|]. splits; auto.
      * intros x0 Hx. rewrite pget_prem. destruct (loc_eqb_spec x0 l); auto. subst. simpl in Hx. tauto.
      * rewrite upd_same. exists r, [IFree j]. splits; auto; [simpl; intuition (subst; auto)|]. eexists; split; [reflexivity|]. intros. rewrite pget_prem. reflexivity.
    + split; [apply nd_prem; auto|]. spl. eapply (Fin r); auto; simpl; [now rewrite upd_same|]. intros. now rewrite pget_prem.
    + spl. eapply (Fin r); auto; simpl; [now rewrite upd_same|]. intros. rewrite updl_eq. destruct (loc_eqb_spec l0 l); congruence.
  - inversion H; subst s'; inversion Hl; subst m1; clear H Hl; simpl. spl. eapply (Fin r); auto; simpl. now rewrite upd_same.
  - destruct (pget (ptr s) h) eqn:Eh; [|discriminate]. inversion H; subst s'; inversion Hl; subst m1; clear H Hl; simpl. spl. eapply (Fin r); auto; simpl. now rewrite upd_same.
  - destruct (pget (ptr s) l) as [j|] eqn:El; [|discriminate]. destruct (result s j) eqn:Er; inversion H; subst s'; inversion Hl; subst m1; clear H Hl; simpl; spl.
    + eapply (Fin FSat); auto; simpl. now rewrite upd_same.
    + split; [auto|]. rewrite upd_same. exists r, [INotify l]. splits; auto; [simpl; intuition (subst; auto)|]. simpl. rewrite El. eauto.
  - destruct (pget (ptr s) l) as [j|] eqn:El; [|discriminate]. inversion H; subst s'; inversion Hl; subst m1; clear H Hl; simpl; spl.
    eapply (Fin r); auto; simpl. now rewrite upd_same.
  - destruct (pget (ptr s) l) as [j|] eqn:El; [|discriminate]. destruct x; inversion H; subst s'; inversion Hl; subst m1; clear H Hl; simpl; splits; auto.
    rewrite upd_same. exists r, [ISet l o0]. splits; auto; [simpl; intuition (subst; auto)|]. simpl. rewrite El. eauto.
  - destruct (pget (ptr s) l) as [j|] eqn:El; [|discriminate]. destruct (result s j) as [y|] eqn:Er; inversion H; subst s'; inversion Hl; subst m1; clear H Hl; simpl; spl.
    eapply (Fin (read_result o0 y)); auto; simpl; [now rewrite upd_same|]. intros _. destruct o0; auto. simpl. destruct y as [|[|]]; auto.
  - destruct (pget (ptr s) l) as [j|] eqn:El; [|discriminate]. destruct (result s j) as [y|] eqn:Er; inversion H; subst s'; inversion Hl; subst m1; clear H Hl; simpl; spl.
    eapply (Fin r); auto; simpl. now rewrite upd_same.
Qed.

(** A program at its start. *)
Lemma compile_run (s : state) f o n : typed o = true -> (forall l, is_born o l = true -> pget (ptr s) l = None) -> (forall l, temp f l -> pget (ptr s) l = None) ->
  exists m', lrun n (pget (ptr s)) (snd (compile s f o)) = Some m' /\ (forall l, temp f l -> m' l = None) /\
    forall l, In (l, Excl) (uses_of o) -> m' l = effect o (fst (compile s f o)) (Some n) (pget (ptr s)) l.
Proof.
  intros Ht Hb Hf. unfold compile.
  assert (F0 : pget (ptr s) (T0 f) = None) by (apply Hf; left; auto).
  assert (F1 : pget (ptr s) (T1 f) = None) by (apply Hf; right; left; auto).
  assert (F2 : pget (ptr s) (T2 f) = None) by (apply Hf; right; right; auto).
  clear Hf. revert Hb F0 F1 F2. generalize (pget (ptr s)) as m. intros m Hb F0 F1 F2. unfold is_born in Hb.
  assert (Fin : forall (m' : loc -> option sid), m' (T0 f) = None -> m' (T1 f) = None -> m' (T2 f) = None -> forall l, temp f l -> m' l = None)
    by (intros m' ? ? ? l [ | [ | ]]; subst; auto).
  Ltac lset := repeat (progress (cbn [lrun linstr fst snd owner loc_eqb]; rewrite ?updl_eq; cbn [lrun linstr fst snd owner loc_eqb]; rewrite ?Nat.eqb_refl, ?loc_refl)).
  assert (G : forall (mm : loc -> option sid), mm (T0 f) = None -> mm (T1 f) = None -> mm (T2 f) = None -> forall l, temp f l -> mm l = None)
    by (intros mm ? ? ? ? [|[|]]; subst; auto).
  destruct o; simpl in Ht; simpl in Hb;
    try (match type of Hb with forall l, loc_eqb ?d l = true -> _ => pose proof (Hb d (loc_refl d)) as Bd; clear Hb end);
    cbv zeta;
    repeat match goal with l : loc |- _ => destruct l; try discriminate Ht end;
    repeat match goal with |- context [obt s ?h] => destruct (obt s h) eqn:?Eo end;
    simpl in Ht; try apply negb_true_iff in Ht;
    repeat (simpl; unfold updl; rewrite ?Nat.eqb_refl, ?F0, ?F1, ?F2, ?Bd, ?Ht; simpl;
      repeat match goal with K : m ?l = _ |- context [m ?l] => rewrite K end;
      try match goal with |- context [match m ?l with _ => _ end] => destruct (m l) eqn:?Em end;
      try match goal with |- context [if Nat.eqb ?a ?b then _ else _] => destruct (Nat.eqb_spec a b); [subst|try (exfalso; congruence)] end);
    (eexists; split; [reflexivity|]; split; [apply G; repeat (simpl; unfold updl; rewrite ?Nat.eqb_refl, ?F0, ?F1, ?F2; simpl); auto|]);
    intros l Hl; repeat (destruct Hl as [Hl|Hl]; [inversion Hl; subst l; clear Hl|]); try contradiction Hl;
    unfold effect; simpl; unfold updl;
    repeat (simpl; rewrite ?Nat.eqb_refl, ?F0, ?F1, ?F2, ?Bd, ?Ht; simpl;
      repeat match goal with K : m ?l = _ |- context [m ?l] => rewrite K end;
      try match goal with |- context [if Nat.eqb ?a ?b then _ else _] => destruct (Nat.eqb_spec a b); [subst|try (exfalso; congruence)] end); auto; try congruence.
Qed.

Lemma compile_new (s : state) f o : needs_new o = true -> failed (fst (compile s f o)) = false -> exists i, In i (snd (compile s f o)) /\ is_new i = true.
Proof.
  destruct o; simpl; try discriminate; intros _.
  - eexists. split; [left; reflexivity|reflexivity].
  - destruct (pget (ptr s) h); simpl; [|discriminate]. intros _. exists (INew (T2 f)). simpl. auto.
Qed.
Lemma compile_nf (s : state) f o : snd (compile s f o) <> [] -> failed (fst (compile s f o)) = false.
Proof.
  destruct o; simpl; auto; repeat match goal with |- context [match ?b with _ => _ end] => destruct b; simpl end; congruence.
Qed.
Definition news (p : list instr) : nat := length (filter is_new p).
Lemma compile_one (s : state) f o : news (snd (compile s f o)) <= 1.
Proof.
  unfold news. destruct o; simpl; auto; repeat match goal with |- context [match ?b with _ => _ end] => destruct b; simpl end; auto.
Qed.
Lemma news_app p q : news (p ++ q) = news p + news q.
Proof. unfold news. rewrite filter_app, app_length. reflexivity. Qed.
Lemma news_zero p : (forall j, In j p -> is_new j = false) -> news p = 0.
Proof.
  unfold news. induction p as [|i p IH]; simpl; auto. intros H. rewrite (H i (or_introl eq_refl)). apply IH. auto.
Qed.
Lemma news_pos p : (exists i, In i p /\ is_new i = true) -> 1 <= news p.
Proof.
  intros (i & H & N). unfold news. assert (X : In i (filter is_new p)) by (apply filter_In; auto). destruct (filter is_new p); [destruct X|simpl; lia].
Qed.

Record IB (s : state) : Prop := {
  b_nd : NoDup (keys (ptr s));
  b_nf : forall f fr, frames s f = Some fr -> fprog fr <> [] -> failed (fresult fr) = false;
  b_des : forall f fr, frames s f = Some fr -> failed (fresult fr) = true -> match fop fr with Destroy _ => False | _ => True end;
  b_needs : forall f fr i, frames s f = Some fr -> In i (fprog fr) -> is_new i = true -> needs_new (fop fr) = true;
  b_one : forall f fr, frames s f = Some fr -> news (fprog fr) <= 1;
  b_new : forall f fr, frames s f = Some fr -> needs_new (fop fr) = true -> failed (fresult fr) = false ->
     (exists i, In i (fprog fr) /\ is_new i = true) \/ last_new (log s) f <> None;
  b_run : forall f fr n, frames s f = Some fr -> newval (log s) f fr n ->
     exists m', lrun n (pget (ptr s)) (fprog fr) = Some m' /\ (forall l, temp f l -> m' l = None) /\
       forall l, In (l, Excl) (uses_of (fop fr)) -> m' l = effect (fop fr) (fresult fr) (Some n) (refers (log s)) l;
  b_idle : forall f l, frames s f = None -> temp f l -> pget (ptr s) l = None;
  b_val : forall l, user l = true -> (forall f, ~ In (f, l, Excl) (uses s)) -> pget (ptr s) l = refers (log s) l;
  b_dead : forall l, live s l = false -> user l = true -> refers (log s) l = None }.

Lemma uses_user (o : op) l m : typed o = true -> In (l, m) (uses_of o) -> user l = true.
Proof.
  intros Ht H. destruct o; simpl in *; repeat match goal with l : loc |- _ => destruct l end; try discriminate Ht;
    repeat (destruct H as [H|H]; [inversion H; reflexivity|]); destruct H.
Qed.

Lemma newval_some (s : state) f fr : IB s -> frames s f = Some fr -> exists n, newval (log s) f fr n.
Proof.
  intros B Hf. unfold newval. destruct (needs_new (fop fr)) eqn:En; [|exists 0; auto].
  destruct (failed (fresult fr)) eqn:Ex; [exists 0; auto|]. destruct (b_new _ B f fr Hf En Ex) as [X|X]; [exists 0; auto|].
  destruct (last_new (log s) f) as [n|]; [|congruence]. exists n. auto.
Qed.

(** The next instruction finds its pointers as it needs them. *)
Lemma next_ok (s : state) f o r i rest : IB s -> frames s f = Some (mkFrame o r (i :: rest)) -> forall n, exists m1, linstr n (pget (ptr s)) i = Some m1.
Proof.
  intros B Hf n. destruct (newval_some s f _ B Hf) as (n' & Hn). destruct (b_run _ B f _ n' Hf Hn) as (m' & R & _). simpl in R.
  destruct (linstr n' (pget (ptr s)) i) as [m1|] eqn:E1; [|discriminate]. destruct i; simpl in *; eauto.
  destruct (pget (ptr s) l); [discriminate|eauto].
Qed.

(** Writes of one fiber do not touch what another one uses. *)
Lemma no_clash (s : state) f o r p g fr l : IA s -> frames s f = Some (mkFrame o r p) -> frames s g = Some fr -> f <> g ->
  exc f o l -> acc g (fop fr) l -> False.
Proof.
  intros A Hf Hg Hne [Hx|Hx] [(m & Hy)|Hy].
  - pose proof (a_use _ A _ _ _ _ Hf Hx) as U1. pose proof (a_use _ A _ _ _ _ Hg Hy) as U2.
    pose proof (a_conf _ A _ _ _ _ _ U1 U2 Hne) as X. discriminate X.
  - pose proof (uses_user _ _ _ (a_typed _ A _ _ Hf) Hx) as U. destruct Hy as [|[|]]; subst; discriminate.
  - pose proof (uses_user _ _ _ (a_typed _ A _ _ Hg) Hy) as U. destruct Hx as [|[|]]; subst; discriminate.
  - destruct Hx as [|[|]], Hy as [|[|]]; subst; congruence.
Qed.

Lemma temp_other f g l : temp f l -> temp g l -> f = g.
Proof. intros [|[|]] [|[|]]; subst; congruence. Qed.

Lemma ib_istep (s : state) f o r i rest s' : IA s -> IB s -> frames s f = Some (mkFrame o r (i :: rest)) -> istep s f o r i rest s' -> IB s'.
Proof.
  intros A B Hf Hi. destruct (istep_shape _ _ _ _ _ _ _ Hi) as (Eu & El & Ef & D).
  destruct (next_ok s f o r i rest B Hf (next s)) as (m1 & L1).
  destruct D as [[_ D]|_]; [rewrite D in L1; discriminate|].
  destruct (istep_lin _ _ _ _ _ _ _ _ Hi L1 (b_nd _ B)) as (N & R1 & R2 & Wr & r' & push & Fp & Fr & Pn & m2 & L2 & M2).
  assert (Q : forall g fr, frames s' g = Some fr -> g <> f -> frames s g = Some fr) by (intros g fr Hg Hne; now rewrite Ef in Hg).
  assert (W : forall l, ~ exc f o l -> pget (ptr s') l = pget (ptr s) l).
  { intros l Hl. apply Wr. intros Hw. apply Hl. destruct (a_prog _ A f _ i Hf (or_introl eq_refl)) as (_ & P2 & _). apply P2. auto. }
  pose proof (b_nf _ B f _ Hf ltac:(discriminate)) as Hnf. simpl in Hnf.
  pose proof (b_one _ B f _ Hf) as H1. simpl in H1.
  constructor.
  - auto.
  - intros g fr Hg Hp. destruct (Nat.eq_dec g f) as [->|Hne]; [|eapply b_nf; eauto]. rewrite Fp in Hg. inversion Hg; subst fr. simpl. auto.
  - intros g fr Hg Hx. destruct (Nat.eq_dec g f) as [->|Hne]; [|eapply b_des; eauto]. rewrite Fp in Hg. inversion Hg; subst fr. simpl in *.
    rewrite (Fr Hnf) in Hx. discriminate.
  - intros g fr j Hg Hj Hn. destruct (Nat.eq_dec g f) as [->|Hne]; [|eapply b_needs; eauto]. rewrite Fp in Hg. inversion Hg; subst fr. simpl in *.
    apply in_app_or in Hj. destruct Hj as [Hj|Hj]; [rewrite (Pn _ Hj) in Hn; discriminate|]. eapply (b_needs _ B f _ j Hf); simpl; auto.
  - intros g fr Hg. destruct (Nat.eq_dec g f) as [->|Hne]; [|eapply b_one; eauto]. rewrite Fp in Hg. inversion Hg; subst fr. simpl.
    rewrite news_app, (news_zero _ Pn). unfold news in *. simpl in H1. destruct (is_new i); simpl in H1; lia.
  - intros g fr Hg Hn Hfl. rewrite R2. destruct (Nat.eq_dec g f) as [->|Hne].
    + rewrite Fp in Hg. inversion Hg; subst fr. simpl in *. rewrite Nat.eqb_refl, andb_true_r. destruct (is_new i) eqn:Ei; [right; discriminate|].
      destruct (b_new _ B f _ Hf Hn Hnf) as [(j & J1 & J2)|X]; auto. left. exists j. split; auto. simpl in J1. destruct J1 as [->|J1]; [congruence|].
      apply in_or_app. auto.
    + destruct (Nat.eqb_spec f g); [congruence|]. rewrite andb_false_r. eapply b_new; eauto.
  - intros g fr n Hg Hn. rewrite R1. destruct (Nat.eq_dec g f) as [->|Hne].
    + rewrite Fp in Hg. inversion Hg; subst fr. simpl in *.
      assert (Hn' : newval (log s) f (mkFrame o r (i :: rest)) n /\ (is_new i = true -> needs_new o = true -> n = next s)).
      { unfold newval in *. simpl in *. rewrite (Fr Hnf) in Hn. rewrite R2, Nat.eqb_refl, andb_true_r in Hn.
        destruct (is_new i) eqn:Ei.
        - split; [right; right; left; eauto|]. intros _ Hneed. destruct Hn as [Hn|[Hn|[Hn|Hn]]]; try congruence.
          exfalso. apply news_pos in Hn. rewrite news_app, (news_zero _ Pn) in Hn. unfold news in *. simpl in H1. rewrite Ei in H1. simpl in H1. lia.
        - split; [|discriminate]. destruct Hn as [Hn|[Hn|[(j & J1 & J2)|Hn]]]; auto; try discriminate. right. right. left. exists j. split; auto.
          apply in_app_or in J1. destruct J1 as [J1|J1]; auto. rewrite (Pn _ J1) in J2. discriminate. }
      destruct Hn' as [Hn' Hnx].
      destruct (b_run _ B f _ n Hf Hn') as (m' & Rn & T & Ex). simpl in *.
      assert (Nn : is_new i = true -> n = next s).
      { intros Ei. apply Hnx; auto. eapply (b_needs _ B f _ i Hf); simpl; auto. }
      assert (Ln : linstr n (pget (ptr s)) i = Some m1).
      { destruct (is_new i) eqn:Ei; [rewrite Nn by auto; auto|]. rewrite (linstr_new n (next s)); auto. }
      rewrite Ln in Rn. destruct (lrun_ext rest n m1 m2 m' (fun l => eq_sym (M2 l)) Rn) as (m3 & Rn3 & M3).
      exists m3. rewrite lrun_app, (lrun_no_new push n (next s)) by auto. rewrite L2. splits; auto.
      * intros l Hl. rewrite <- M3. auto.
      * intros l Hl. rewrite <- M3, Ex by auto. unfold effect. rewrite Hnf, (Fr Hnf). reflexivity.
    + pose proof (Q _ _ Hg Hne) as Hg0.
      assert (Hn0 : newval (log s) g fr n).
      { unfold newval in *. rewrite R2 in Hn. destruct (Nat.eqb_spec f g); [congruence|]. now rewrite andb_false_r in Hn. }
      destruct (b_run _ B g fr n Hg0 Hn0) as (m' & Rn & T & Ex).
      assert (Ag : forall l, acc g (fop fr) l -> pget (ptr s) l = pget (ptr s') l).
      { intros l Hl. symmetry. apply W. intros Hx. eapply (no_clash s f o r _ g fr l A Hf Hg0); auto. }
      destruct (lrun_agree (fprog fr) n (pget (ptr s)) (pget (ptr s')) m') as (m2' & Rn2 & M'); auto.
      { intros j l Hj Hl. apply Ag. eapply (a_prog _ A g fr j Hg0); auto. }
      exists m2'. splits; auto.
      * intros l Hl. rewrite <- M'; auto. apply Ag. right. auto.
      * intros l Hl. rewrite <- M'; auto. apply Ag. left. eauto.
  - intros g l Hg Ht. assert (g <> f) by congruence. rewrite Ef in Hg by auto. rewrite W; [eapply b_idle; eauto|].
    intros [Hx|Hx]; [|apply H; eapply temp_other; eauto]. pose proof (uses_user _ _ _ (a_typed _ A _ _ Hf) Hx) as U. destruct Ht as [|[|]]; subst; discriminate.
  - intros l Hu Hx. rewrite R1, Eu in *. rewrite W; [eapply b_val; eauto|]. intros [Y|Y]; [|destruct Y as [|[|]]; subst; discriminate].
    eapply Hx. eapply (a_use _ A _ _ _ _ Hf Y).
  - rewrite El, R1. apply (b_dead _ B).
Qed.

Lemma compile_needs (s : state) f o i : In i (snd (compile s f o)) -> is_new i = true -> needs_new o = true.
Proof.
  destruct o; simpl; auto; repeat match goal with |- context [match ?b with _ => _ end] => destruct b; simpl end;
    intros; repeat match goal with K : _ \/ _ |- _ => destruct K | K : False |- _ => destruct K end; subst; try discriminate; auto.
Qed.
Lemma subject_user (o : op) : typed o = true -> exists m, In (subject o, m) (uses_of o).
Proof. destruct o; simpl; intros; eauto. Qed.

Lemma ib_call (s : state) f o : IA s -> IB s -> frames s f = None -> allowed s o = true ->
  IB (mkSt (ptr s) (obt s) (live s) (next s) (cnt s) (freed s) (result s) (upd (frames s) f (Some (mkFrame o (fst (compile s f o)) (snd (compile s f o)))))
              (map (fun '(l, m) => (f, l, m)) (uses_of o) ++ uses s) (ub s) (FCall f o (pget (ptr s) (subject o)) :: log s)).
Proof.
  intros A B Hf Ha. destruct (allowed_spec _ _ Ha) as (Ht & Hl & Hc).
  assert (Va : forall l m, In (l, m) (uses_of o) -> pget (ptr s) l = refers (log s) l).
  { intros l m Hu. apply (b_val _ B); [eapply uses_user; eauto|]. intros g Hg. pose proof (Hc _ _ _ _ Hu Hg) as X.
    destruct (conflict_excl m) as [_ Y]. congruence. }
  assert (N : forall g, newval (FCall f o (pget (ptr s) (subject o)) :: log s) g = newval (log s) g) by reflexivity.
  constructor; simpl.
  - apply (b_nd _ B).
  - intros g fr. unfold upd. destruct (Nat.eqb_spec g f) as [->|]; [|eapply b_nf; eauto]. intros [= <-]. simpl. apply compile_nf.
  - intros g fr. unfold upd. destruct (Nat.eqb_spec g f) as [->|]; [|eapply b_des; eauto]. intros [= <-]. destruct o; simpl; auto; discriminate.
  - intros g fr i. unfold upd. destruct (Nat.eqb_spec g f) as [->|]; [|eapply b_needs; eauto]. intros [= <-]. simpl. apply compile_needs.
  - intros g fr. unfold upd. destruct (Nat.eqb_spec g f) as [->|]; [|eapply b_one; eauto]. intros [= <-]. apply compile_one.
  - intros g fr. unfold upd. destruct (Nat.eqb_spec g f) as [->|]; [|eapply b_new; eauto]. intros [= <-]. simpl. intros. left. now apply compile_new.
  - intros g fr n. unfold upd. destruct (Nat.eqb_spec g f) as [->|]; [|rewrite N; eapply b_run; eauto]. intros [= <-] _. simpl.
    destruct (compile_run s f o n Ht) as (m' & R1 & R2 & R3).
    + intros l Hb. unfold is_born in Hb. destruct (born o) as [b|] eqn:Eb; [|discriminate]. destruct (loc_eqb_spec b l) as [->|]; [|discriminate].
      assert (Hu : In (l, Excl) (uses_of o)) by (destruct o; simpl in *; inversion Eb; subst; auto).
      rewrite (Va _ _ Hu). apply (b_dead _ B); [|eapply uses_user; eauto]. rewrite (Hl _ _ Hu). unfold is_born. rewrite Eb, loc_refl. reflexivity.
    + intros l Htm. eapply b_idle; eauto.
    + exists m'. splits; auto. intros l Hu. rewrite R3 by auto. eapply effect_agree; eauto.
  - intros g l. unfold upd. destruct (Nat.eqb_spec g f) as [->|]; [discriminate|]. apply (b_idle _ B).
  - intros l Hu Hx. apply (b_val _ B); auto. intros g Hg. apply (Hx g). apply in_or_app. auto.
  - apply (b_dead _ B).
Qed.

Lemma ib_ret (s : state) f o r : IA s -> IB s -> frames s f = Some (mkFrame o r []) ->
  IB (mkSt (ptr s) (obt s) (lives o r (live s)) (next s) (cnt s) (freed s) (result s) (upd (frames s) f None)
              (filter (fun '(g, _, _) => negb (Nat.eqb g f)) (uses s)) (ub s) (FRet f o r :: log s)).
Proof.
  intros A B Hf. pose proof (a_typed _ A _ _ Hf) as Ht. simpl in Ht.
  assert (Pv : forall l, In (l, Excl) (uses_of o) -> pget (ptr s) l = effect o r (last_new (log s) f) (refers (log s)) l).
  { intros l Hl. destruct (newval_some s f _ B Hf) as (n & Hn). destruct (b_run _ B f _ n Hf Hn) as (m' & R1 & R2 & R3). simpl in *.
    inversion R1; subst m'. rewrite R3 by auto. unfold newval in Hn. simpl in Hn. unfold effect.
    destruct Hn as [Hn|[Hn|[(i & Hi & _)|Hn]]]; [|now rewrite Hn|destruct Hi|now rewrite Hn].
    destruct (failed r); auto. destruct o; try discriminate; auto. }
  assert (Tv : forall l, temp f l -> pget (ptr s) l = None).
  { intros l Hl. destruct (newval_some s f _ B Hf) as (n & Hn). destruct (b_run _ B f _ n Hf Hn) as (m' & R1 & R2 & R3). simpl in R1. inversion R1; subst m'. auto. }
  constructor; simpl.
  - apply (b_nd _ B).
  - intros g fr. unfold upd. destruct (Nat.eqb_spec g f) as [->|]; [discriminate|eapply b_nf; eauto].
  - intros g fr. unfold upd. destruct (Nat.eqb_spec g f) as [->|]; [discriminate|eapply b_des; eauto].
  - intros g fr i. unfold upd. destruct (Nat.eqb_spec g f) as [->|]; [discriminate|eapply b_needs; eauto].
  - intros g fr. unfold upd. destruct (Nat.eqb_spec g f) as [->|]; [discriminate|eapply b_one; eauto].
  - intros g fr. unfold upd. destruct (Nat.eqb_spec g f) as [->|]; [discriminate|eapply b_new; eauto].
  - intros g fr n. unfold upd. destruct (Nat.eqb_spec g f) as [->|Hne]; [discriminate|]. intros Hg Hn.
    destruct (b_run _ B g fr n Hg Hn) as (m' & R1 & R2 & R3). exists m'. splits; auto. intros l Hl. rewrite R3 by auto.
    eapply effect_agree; eauto. intros x k Hx. symmetry. apply effect_keep. intros Hy.
    pose proof (a_use _ A _ _ _ _ Hf Hy) as U1. pose proof (a_use _ A _ _ _ _ Hg Hx) as U2.
    pose proof (a_conf _ A _ _ _ _ _ U1 U2 ltac:(auto)) as X. discriminate X.
  - intros g l. unfold upd. destruct (Nat.eqb_spec g f) as [->|]; [auto|]. apply (b_idle _ B).
  - intros l Hu Hx. destruct (excl_dec l (uses_of o)) as [Hy|Hy]; [auto|]. rewrite effect_keep by auto.
    apply (b_val _ B); auto. intros g Hg. destruct (Nat.eq_dec g f) as [->|Hne].
    + destruct (a_frame _ A _ _ _ Hg) as (fr & F1 & F2). rewrite Hf in F1. inversion F1; subst fr. auto.
    + apply (Hx g). apply filter_In. split; auto. apply negb_true_iff, Nat.eqb_neq. auto.
  - intros l Hlv Hu. destruct (excl_dec l (uses_of o)) as [Hy|Hy].
    + pose proof (a_live _ A _ _ _ _ Hf Hy) as Al. simpl in Al. unfold is_born in Al. unfold lives in Hlv. pose proof (b_des _ B f _ Hf) as Ds. simpl in Ds. unfold effect.
      destruct o; simpl in *; repeat (destruct Hy as [Hy|Hy]; [inversion Hy; subst; clear Hy|]); try contradiction Hy;
        rewrite ?loc_refl in *; simpl in *; try (destruct (failed r); simpl in * ); rewrite ?updl_same, ?updl_eq, ?loc_refl in *; auto;
        repeat match goal with |- context [loc_eqb ?a ?b] => destruct (loc_eqb_spec a b); subst; try (rewrite ?loc_refl in *; simpl in *; congruence) end;
        rewrite ?updl_eq, ?loc_refl in *; auto; try congruence.
      all: try (apply (b_dead _ B); auto; fail).
      all: try (destruct (Ds eq_refl)).
    + rewrite effect_keep by auto. apply (b_dead _ B); auto. rewrite <- Hlv. symmetry. unfold lives.
      assert (forall l', In (l', Excl) (uses_of o) -> l <> l') by (intros l' X ->; auto).
      destruct o; simpl in *; auto; try (destruct (failed r); auto); apply updl_other; auto.
Qed.

Lemma ib_step (s : state) lb s' : IA s -> IB s -> step s lb = Some s' -> IB s' /\ kstep s s'.
Proof.
  intros A B H. destruct (step_kstep _ _ _ H) as [(f & _ & -> & o & r & l & rest & Hf & Hp)|K].
  - destruct (next_ok _ _ _ _ _ _ B Hf 0) as (m1 & X). simpl in X. rewrite Hp in X. discriminate.
  - split; auto. destruct K as [f o Hf Ha ->|f o r Hf ->|f o r i rest Hf Hi]; [now apply ib_call|now apply ib_ret|eapply ib_istep; eauto].
Qed.
Lemma ib_reachable s : reachable step init s -> IB s.
Proof.
  intros R. apply (reachable_inv step (fun s => IA s /\ IB s) init); auto.
  - split; [apply ia_reachable; exists []; auto|]. constructor; simpl; try discriminate; auto. constructor.
  - intros s1 l s2 [A B] H. split; [eapply ia_step; eauto|eapply ib_step; eauto].
Qed.
Lemma kstep_reachable (s : state) lb s' : reachable step init s -> step s lb = Some s' -> kstep s s'.
Proof. intros R H. eapply (ib_step s lb s'); auto; [apply ia_reachable|apply ib_reachable]; auto. Qed.
End Proofs.
