(** Invariants of FutureObj.v, part 4: promises and tasks own their shared states; obtained_ and abandonment. *)
From Coq Require Import List Arith Bool Lia.
From Verif Require Import Base Kernel SharedState FutureObj FutureObjSpec FutureObjFacts FutureObjProofs FutureObjProofs2 FutureObjProofs3.
Import ListNotations.

Section Proofs.
Context {V E : Type}.
Notation state := (state V E).
Notation op := (op V E).
Notation instr := (instr V E).
Notation frame := (frame V E).
Notation event := (event V E).

Ltac exec_cases s x H :=
  repeat match goal with
    | K : context [match pget (ptr s) ?l with _ => _ end] |- _ => destruct (pget (ptr s) l) eqn:?
    | K : context [match result s ?l with _ => _ end] |- _ => destruct (result s l) eqn:?
    | K : context [if obt s ?l then _ else _] |- _ => destruct (obt s l) eqn:?
    | K : context [match x with _ => _ end] |- _ => destruct x eqn:?
    | K : context [if Nat.eqb (cnt s ?a) ?b then _ else _] |- _ => destruct (Nat.eqb_spec (cnt s a) b) as [?Ec|?Ec]
    end.

Lemma some_inj {A} (a b : A) : Some a = Some b -> b = a.
Proof. now intros [= ->]. Qed.

(** ** Shape of the programs *)
Definition cls (i : instr) : Prop :=
  match i with
  | ICopy d _ => owner d = false
  | ISwap a b => owner a = false /\ owner b = false
  | IMoveO a b | ISwapO a b => owner a = true /\ owner b = true
  | IReset h t => owner h = true /\ owner t = false
  | IDtor l => owner l = true
  | _ => True
  end.
Definition skip (p : list instr) : list instr :=
  match p with INotify a :: IDrop b :: q => if loc_eqb a b then q else tl p | _ => tl p end.
Definition st (p : list instr) : Prop :=
  (forall i, In i p -> cls i) /\ (forall l, In (IDrop l) (skip p) -> owner l = false) /\
  (forall a i h t b, p = a ++ i :: IReset h t :: b -> i = INew t).
Definition st0 (p : list instr) : Prop :=
  (forall i, In i p -> cls i) /\ (forall l, In (IDrop l) p -> owner l = false) /\
  (forall h t b, p <> IReset h t :: b) /\ (forall a i h t b, p = a ++ i :: IReset h t :: b -> i = INew t).
Definition push_of (i : instr) (push : list instr) : Prop :=
  match i with
  | IDtor l => push = [INotify l; IDrop l] \/ push = [IDrop l]
  | IDrop _ => push = [] \/ exists j, push = [IFree j]
  | ISet l _ => push = [] \/ push = [INotify l]
  | IRun l => exists y, push = [ISet l y]
  | _ => push = []
  end.

Lemma skip_tl p i : In i (skip p) -> In i (tl p).
Proof. destruct p as [|[] [|[] q]]; simpl; auto. destruct (loc_eqb l l0); simpl; auto. Qed.

Lemma istep_push (s : state) f o r i rest s' : IB s -> frames s f = Some (mkFrame o r (i :: rest)) -> istep s f o r i rest s' ->
  exists r' push, frames s' f = Some (mkFrame o r' (push ++ rest)) /\ push_of i push.
Proof.
  intros B Hf Hi. destruct (next_ok s f o r i rest B Hf (next s)) as (m1 & L1).
  destruct Hi as [x H|l j -> Hp Hr ->].
  2: { exists FTimeout, []. simpl. rewrite upd_same. auto. }
  destruct i; cbn [exec_instr linstr] in H, L1; exec_cases s x H; try discriminate H; try discriminate L1; apply some_inj in H; subst s';
    match goal with |- context [cont _ _ _ ?r' ?p] => exists r' end;
    match goal with
    | |- context [cont _ _ _ _ (?a :: ?b :: rest)] => exists [a; b]
    | |- context [cont _ _ _ _ (?a :: rest)] => exists [a]
    | |- _ => exists []
    end; simpl; rewrite upd_same; split; eauto.
Qed.

Lemma st_step i rest push : st (i :: rest) -> push_of i push -> st (push ++ rest).
Proof.
  intros (S1 & S2 & S3) Hp. unfold st. splits.
  - intros j Hj. apply in_app_iff in Hj. destruct Hj as [Hj|Hj]; [|apply S1; now right].
    destruct i; simpl in Hp; repeat match goal with K : _ \/ _ |- _ => destruct K | K : ex _ |- _ => destruct K end; subst push;
      simpl in Hj; repeat match goal with K : _ \/ _ |- _ => destruct K | K : False |- _ => destruct K end; subst; simpl; auto.
  - intros l Hl. assert (X : In (IDrop l) (skip (i :: rest)) -> owner l = false) by auto.
    assert (Y : match i with INotify a => match rest with IDrop b :: q => loc_eqb a b = false | _ => True end | _ => True end ->
                In (IDrop l) rest -> owner l = false).
    { intros Y1 Y2. apply X. destruct i; simpl; auto. destruct rest as [|[] q]; auto. now rewrite Y1. }
    assert (Z : push = [] -> owner l = false).
    { intros ->. simpl in Hl. pose proof (skip_tl _ _ Hl) as Z. destruct i; try (apply Y; [exact I|]; destruct rest; simpl in *; auto; fail).
      destruct rest as [|j q]; simpl in Z; [destruct Z|]. apply X. simpl. destruct j; auto; try (right; auto; fail). destruct (loc_eqb l0 l1); simpl; auto. }
    destruct i; simpl in Hp; repeat match goal with K : _ \/ _ |- _ => destruct K | K : ex _ |- _ => destruct K end; auto; subst push; simpl in Hl; try rewrite loc_refl in Hl;
      try (apply Y; auto; fail).
    apply Y; auto. exact (skip_tl (INotify l0 :: rest) _ Hl).
  - intros a j h t b Hq.
    assert (X : forall a', rest = a' ++ j :: IReset h t :: b -> j = INew t) by (intros a' ->; apply (S3 (i :: a') j h t b); reflexivity).
    assert (Y : forall k, push = [k] -> (forall u, k <> INew u) -> (forall u v, k <> IReset u v) -> j = INew t).
    { intros k -> H1 H2. destruct a as [|a0 a]; simpl in Hq; injection Hq as -> Hq; [|eauto]. 
      assert (i = INew t) as -> by (apply (S3 [] i h t b); simpl; now rewrite Hq). simpl in Hp. discriminate. }
    destruct i; simpl in Hp; repeat match goal with K : _ \/ _ |- _ => destruct K | K : ex _ |- _ => destruct K end;
      try (subst push; simpl in Hq; eapply X; eauto; fail); try (eapply Y; [eassumption| |]; discriminate).
    subst push. destruct a as [|a0 [|a1 a]]; simpl in Hq; injection Hq as; subst; try discriminate; eauto.
    pose proof (S3 [] (IDtor l) h t b eq_refl). discriminate.
Qed.

Lemma st_compile (s : state) f o : typed o = true -> st0 (snd (compile s f o)).
Proof.
  intros Ht. unfold st0.
  assert (D : exists p, p = snd (compile s f o)) by eauto. destruct D as (p & Hp). rewrite <- Hp.
  destruct o; simpl in Ht, Hp;
    repeat match goal with
      | l : loc |- _ => destruct l; try discriminate Ht; simpl in Hp
      end;
    repeat match goal with
      | K : context [match ?b with _ => _ end] |- _ =>
      match b with
      | obt s _ => destruct b
      | loc_eqb _ _ => destruct b eqn:?
      | Nat.eqb _ _ => destruct b eqn:?
      | pget _ _ => destruct b eqn:?
      end; simpl in K end; subst p; simpl;
    (splits; [intros i Hi; repeat (destruct Hi as [Hi|Hi]; [subst i; simpl; auto|]); destruct Hi
             |intros i Hi; repeat (destruct Hi as [Hi|Hi]; [try discriminate Hi; inversion Hi; reflexivity|]); destruct Hi
             |discriminate
             |intros a i hh tt b Hq;
              repeat (destruct a as [|? a]; simpl in Hq; [try discriminate Hq; injection Hq as; subst; try discriminate; try reflexivity|
                      try discriminate Hq; injection Hq as _ Hq]); try (destruct a; discriminate Hq)]).
Qed.

(** ** What other fibers leave alone *)
Lemma obt_keep (s : state) f o r i rest s' l : istep s f o r i rest s' -> ~ In l (writes i) -> i <> IObtain l -> obt s' l = obt s l.
Proof.
  intros Hi Hw Ho. destruct Hi as [x H|l' j -> Hp Hr ->]; [|reflexivity].
  destruct i; simpl in H, Hw; exec_cases s x H; try discriminate H; apply some_inj in H; subst s'; simpl; auto;
    rewrite ?updl_other by (intros ->; tauto); auto.
Qed.

Lemma other_keep (s : state) f o r i rest s' g fr l : IA s -> IB s -> frames s f = Some (mkFrame o r (i :: rest)) -> istep s f o r i rest s' ->
  frames s g = Some fr -> g <> f -> acc g (fop fr) l ->
  pget (ptr s') l = pget (ptr s) l /\ (exc g (fop fr) l \/ In (l, Obt) (uses_of (fop fr)) -> obt s' l = obt s l).
Proof.
  intros A B Hf Hi Hg Hne Hl. destruct (next_ok s f o r i rest B Hf (next s)) as (m1 & L1).
  destruct (istep_lin _ _ _ _ _ _ _ _ Hi L1 (b_nd _ B)) as (_ & _ & _ & Wr & _).
  destruct (a_prog _ A f _ i Hf (or_introl eq_refl)) as (_ & P2 & P3). simpl in P2, P3.
  assert (W : ~ In l (writes i)) by (intros X; eapply (no_clash s f o r (i :: rest) g fr l); eauto).
  split; auto. intros D. eapply obt_keep; eauto. intros ->. specialize (P3 l eq_refl).
  pose proof (a_use _ A _ _ _ _ Hf P3) as U. destruct D as [[D|D]|D].
  - pose proof (a_use _ A _ _ _ _ Hg D) as U2. pose proof (a_conf _ A _ _ _ _ _ U U2 ltac:(auto)) as X. discriminate X.
  - pose proof (uses_user _ _ _ (a_typed _ A _ _ Hf) P3) as Us. destruct D as [|[|]]; subst; discriminate.
  - pose proof (a_use _ A _ _ _ _ Hg D) as U2. pose proof (a_conf _ A _ _ _ _ _ U U2 ltac:(auto)) as X. discriminate X.
Qed.

(** Where pointers come from. *)
Lemma istep_src (s : state) f o r i rest s' l n : istep s f o r i rest s' -> pget (ptr s') l = Some n ->
  pget (ptr s) l = Some n \/ (exists l0, In l0 (locs i) /\ pget (ptr s) l0 = Some n) \/ (n = next s /\ i = INew l).
Proof.
  intros Hi Hl. destruct Hi as [x H|l' j -> Hp Hr ->]; [|auto].
  destruct i; cbn [exec_instr] in H; exec_cases s x H; try discriminate H; apply some_inj in H; subst s'; cbn [ptr cont with_frame with_ptr with_obt with_cnt with_ub with_log touch store] in Hl; auto;
    rewrite ?pget_pset, ?pget_pswap, ?updl_eq in Hl; rewrite ?pget_pset, ?updl_eq in Hl;
    repeat match goal with K : context [if loc_eqb ?a ?b then _ else _] |- _ => destruct (loc_eqb_spec a b); subst end; try discriminate Hl; auto;
    try (inversion Hl; subst; auto; fail);
    try (right; left; eexists; split; [|eassumption]; simpl; auto; fail).
  inversion Hl; subst. right; left. eexists; split; [|eassumption]; simpl; auto.
Qed.


Definition owns (s : state) (l : loc) (i : sid) : Prop := owner l = true /\ pget (ptr s) l = Some i.
Definition dropping (p : list instr) (l : loc) : Prop := exists q, p = IDrop l :: q \/ p = INotify l :: IDrop l :: q.

Record ID (s : state) : Prop := {
  d_st : forall f fr, frames s f = Some fr -> st (fprog fr);
  d_own : forall l l' i, owns s l i -> owns s l' i -> l = l';
  d_obt : forall l, owner l = true -> (obt s l = true <-> exists i, pget (ptr s) l = Some i /\ obtained (log s) i);
  d_olt : forall i, obtained (log s) i -> i < next s;
  d_clt : forall i, created (log s) i <-> i < next s;
  d_res : forall i, result s i = stored (log s) i;
  d_rlt : forall i, stored (log s) i <> None -> i < next s;
  d_alt : forall i, abandoned (log s) i -> i < next s;
  d_flt : forall i, is_freed (log s) i <-> freed s i = true;
  d_new : forall f o r h t rest, frames s f = Some (mkFrame o r (IReset h t :: rest)) ->
     exists n, pget (ptr s) t = Some n /\ ~ obtained (log s) n /\ ~ abandoned (log s) n /\ forall l, pget (ptr s) l = Some n -> l = t;
  d_brk : forall i, obtained (log s) i -> stored (log s) i <> None \/ (exists l, owns s l i) \/ abandoned (log s) i;
  d_abn : forall i l, abandoned (log s) i -> owns s l i -> False;
  d_drop : forall f fr l j, frames s f = Some fr -> dropping (fprog fr) l -> owner l = true -> obt s l = true -> pget (ptr s) l = Some j ->
     stored (log s) j <> None }.

Lemma in_ev (e0 : event) h (P : fid -> event) : (exists f, In (P f) (e0 :: h)) <-> (exists f, In (P f) h) \/ exists f, e0 = P f.
Proof. simpl. split; [intros (f & [X|X]); eauto|intros [(f & X)|(f & X)]; eauto]. Qed.

(** What an instruction logs. *)
Lemma istep_log (s : state) f o r i rest s' : IB s -> frames s f = Some (mkFrame o r (i :: rest)) -> istep s f o r i rest s' ->
  (forall j, obtained (log s') j <-> obtained (log s) j \/ exists h, i = IObtain h /\ pget (ptr s) h = Some j) /\
  (forall j, created (log s') j <-> created (log s) j \/ (is_new i = true /\ j = next s)) /\
  (forall j, abandoned (log s') j <-> abandoned (log s) j \/ exists h t, i = IReset h t /\ pget (ptr s) h = Some j) /\
  (forall j, is_freed (log s') j <-> is_freed (log s) j \/ i = IFree j) /\
  (next s' = if is_new i then S (next s) else next s) /\
  (forall j, freed s' j = true <-> freed s j = true \/ i = IFree j) /\
  (forall j, (result s' j = result s j /\ stored (log s') j = stored (log s) j) \/
             (result s j = None /\ exists x l, result s' j = Some x /\ pget (ptr s) l = Some j /\ (stored (log s) j = None -> stored (log s') j = Some x))).
Proof.
  intros B Hf Hi. destruct (next_ok s f o r i rest B Hf (next s)) as (m1 & L1).
  assert (Or : forall (P Q : Prop), ~ Q -> (P <-> P \/ Q)) by tauto.
  unfold obtained, created, abandoned, is_freed.
  destruct Hi as [x H|l j -> Hp Hr ->].
  2: { simpl. splits; auto; intros j'; apply Or; intros X; repeat match goal with K : ex _ |- _ => destruct K | K : _ /\ _ |- _ => destruct K end; discriminate. }
  destruct i; cbn [exec_instr linstr] in H, L1; exec_cases s x H; try discriminate H; try discriminate L1; apply some_inj in H; subst s'; 
    cbn [log next freed result cont with_frame with_ptr with_obt with_cnt with_ub with_log touch store stored is_new];
    splits; try intros j'; rewrite ?in_ev; auto;
    try (apply Or; intros X; repeat match goal with K : ex _ |- _ => destruct K | K : _ /\ _ |- _ => destruct K end; try discriminate; congruence);
    try (split; [intros [X|X]|intros [X|X]]; try (left; exact X; fail); right;
         repeat match goal with K : ex _ |- _ => destruct K | K : _ /\ _ |- _ => destruct K end;
         match goal with
         | K : _ = _ :> event |- _ => try discriminate K; inversion K; subst; eauto 6
         | K : _ = _ :> FutureObj.instr _ _ |- _ => try discriminate K; inversion K; subst; try congruence; eauto
         end; fail).
  all: try (split; [intros [X|(g & X)]; [auto|discriminate X]|intros [X|[X _]]; [auto|discriminate X]]; fail).
  - split; [intros [X|(g & X)]; auto; inversion X; auto|]. intros [X|[_ ->]]; eauto.
  - split; [intros [X|(g & X)]; auto; inversion X; subst; eauto|]. intros [X|(h' & t' & X & Y)]; eauto. inversion X; subst. right. exists f. congruence.
  - unfold upd. rewrite (Nat.eqb_sym j' s0). destruct (Nat.eqb_spec s0 j') as [->|Hne]; [right|left].
    + split; auto. eexists _, l. splits; eauto. now intros ->.
    + split; auto. now destruct (stored (log s) j').
  - unfold upd. destruct (Nat.eqb_spec j' i) as [->|Hne]; split; auto. intros [X|X]; auto. inversion X; congruence.
  - split; [intros [X|(g & X)]; auto; inversion X; subst; eauto|]. intros [X|(h' & X & Y)]; eauto. inversion X; subst. right. exists f. congruence.
  - unfold upd. rewrite (Nat.eqb_sym j' s0). destruct (Nat.eqb_spec s0 j') as [->|Hne]; [right|left].
    + split; auto. eexists _, l. splits; eauto. now intros ->.
    + split; auto. now destruct (stored (log s) j').
Qed.

(** What an instruction does to the promises and tasks. *)
Inductive own_eff (s s' : state) : instr -> Prop :=
| OE_none i : (forall l, owner l = true -> pget (ptr s') l = pget (ptr s) l) -> (forall l, owner l = true -> obt s' l = obt s l) ->
    (forall h, i <> IObtain h) -> (forall h t, i <> IReset h t) -> own_eff s s' i
| OE_new l : owner l = true -> pget (ptr s) l = None -> (forall x, pget (ptr s') x = updl (pget (ptr s)) l (Some (next s)) x) -> (forall x, obt s' x = obt s x) -> own_eff s s' (INew l)
| OE_move d a : owner d = true -> owner a = true -> pget (ptr s) d = None -> (forall x, pget (ptr s') x = updl (updl (pget (ptr s)) d (pget (ptr s) a)) a None x) ->
    (forall x, obt s' x = updl (updl (obt s) d (obt s a)) a false x) -> own_eff s s' (IMoveO d a)
| OE_swap a b : owner a = true -> owner b = true -> (forall x, pget (ptr s') x = updl (updl (pget (ptr s)) a (pget (ptr s) b)) b (pget (ptr s) a) x) ->
    (forall x, obt s' x = updl (updl (obt s) a (obt s b)) b (obt s a) x) -> own_eff s s' (ISwapO a b)
| OE_reset h t : owner h = true -> owner t = false -> (forall x, pget (ptr s') x = updl (updl (pget (ptr s)) h (pget (ptr s) t)) t (pget (ptr s) h) x) ->
    (forall x, obt s' x = updl (obt s) h false x) -> own_eff s s' (IReset h t)
| OE_drop l j : owner l = true -> pget (ptr s) l = Some j -> (forall x, pget (ptr s') x = updl (pget (ptr s)) l None x) ->
    (forall x, obt s' x = updl (obt s) l false x) -> own_eff s s' (IDrop l)
| OE_obt h j : pget (ptr s) h = Some j -> (forall x, pget (ptr s') x = pget (ptr s) x) -> (forall x, obt s' x = updl (obt s) h true x) -> own_eff s s' (IObtain h).

Lemma istep_own (s : state) f o r i rest s' : IB s -> cls i -> frames s f = Some (mkFrame o r (i :: rest)) -> istep s f o r i rest s' -> own_eff s s' i.
Proof.
  intros B Hc Hf Hi. destruct (next_ok s f o r i rest B Hf (next s)) as (m1 & L1).
  destruct Hi as [x H|l j -> Hp Hr ->].
  2: { apply OE_none; auto; discriminate. }
  assert (OD : forall l v x, owner l = false -> owner x = true -> updl (pget (ptr s)) l v x = pget (ptr s) x).
  { intros l v y H1 H2. apply updl_other. congruence. }
  destruct i; cbn [exec_instr linstr cls] in H, L1, Hc; exec_cases s x H; try discriminate H; try discriminate L1; apply some_inj in H; subst s'; 
    try (apply OE_none; auto; discriminate).
  - destruct (owner l) eqn:Eo; [apply OE_new; auto; intros y; apply pget_pset|].
    apply OE_none; try discriminate; auto. intros y Hy. rewrite <- (OD l (Some (next s)) y) by auto. apply pget_pset.
  - apply OE_none; try discriminate; auto. intros y Hy. rewrite <- (OD d (Some s1) y) by auto. apply pget_pset.
  - destruct Hc as [H1 H2]. apply OE_none; try discriminate; auto. intros y Hy.
    etransitivity; [apply pget_pswap|]. rewrite !updl_other; auto; congruence.
  - destruct Hc as [H1 H2]. apply OE_move; auto. intros y. etransitivity; [apply pget_pset|]. rewrite !(updl_eq _ s0). destruct (loc_eqb y s0); auto. apply pget_pset.
  - destruct Hc as [H1 H2]. apply OE_swap; auto. intros y. apply pget_pswap.
  - destruct Hc as [H1 H2]. apply OE_reset; auto. intros y. apply pget_pswap.
  - destruct Hc as [H1 H2]. apply OE_reset; auto. intros y. apply pget_pswap.
  - destruct (owner l) eqn:Eo; [eapply OE_drop; eauto; intros y; apply pget_pset|].
    apply OE_none; try discriminate; auto; intros y Hy; [|simpl; apply updl_other; congruence]. rewrite <- (OD l None y) by auto. apply pget_pset.
  - destruct (owner l) eqn:Eo; [eapply OE_drop; eauto; intros y; apply pget_pset|].
    apply OE_none; try discriminate; auto; intros y Hy; [|simpl; apply updl_other; congruence]. rewrite <- (OD l None y) by auto. apply pget_pset.
  - eapply OE_obt; eauto.
Qed.

(** After IDtor the state is satisfied if a future had been obtained. *)
Lemma dtor_res (s : state) f o r l rest s' j : istep s f o r (IDtor l) rest s' -> obt s l = true -> pget (ptr s) l = Some j -> result s' j <> None.
Proof.
  intros [x H|l' j' [=] _ _ _] Ho Hp. cbn [exec_instr] in H. rewrite Hp, Ho in H. destruct (result s j) eqn:Er; apply some_inj in H; subst s'; simpl; [congruence|].
  rewrite upd_same. discriminate.
Qed.

Lemma obtain_owner (s : state) f o r h rest : IA s -> frames s f = Some (mkFrame o r (IObtain h :: rest)) -> owner h = true.
Proof.
  intros A Hf. destruct (a_prog _ A f _ (IObtain h) Hf (or_introl eq_refl)) as (_ & _ & P3). specialize (P3 h eq_refl). simpl in P3.
  pose proof (a_typed _ A _ _ Hf) as Ht. simpl in Ht.
  destruct o; simpl in P3; repeat (destruct P3 as [P3|P3]; [inversion P3; subst|]); try destruct P3; auto.
  - destruct h, d; simpl in Ht; try discriminate; reflexivity.
  - destruct h; discriminate.
Qed.

Lemma id_istep (s : state) f o r i rest s' : IA s -> IB s -> IC s -> ID s -> frames s f = Some (mkFrame o r (i :: rest)) -> istep s f o r i rest s' -> ID s'.
Proof.
  intros A B C D Hf Hi.
  destruct (istep_shape _ _ _ _ _ _ _ Hi) as (_ & _ & Ef & _).
  destruct (istep_push _ _ _ _ _ _ _ B Hf Hi) as (r' & push & Hf' & Hpu).
  destruct (istep_log _ _ _ _ _ _ _ B Hf Hi) as (Lo & Lc & La & Lf & Ln & Lfr & Lr).
  pose proof (d_st _ D _ _ Hf) as Hst. simpl in Hst.
  assert (Hcl : cls i) by (apply Hst; now left).
  pose proof (istep_own _ _ _ _ _ _ _ B Hcl Hf Hi) as Oe.
  assert (Nx : next s <= next s') by (rewrite Ln; destruct (is_new i); lia).
  assert (Ls : forall j, result s' j = stored (log s') j).
  { intros j. pose proof (d_res _ D j) as X. destruct (Lr j) as [[E1 E2]|(E1 & y & l & E2 & _ & E3)]; [congruence|]. rewrite E2, E3; auto. congruence. }
  assert (Sm : forall j, stored (log s) j <> None -> stored (log s') j <> None).
  { intros j Hj. destruct (Lr j) as [[E1 E2]|(E1 & y & l & E2 & _ & E3)]; [congruence|]. rewrite (d_res _ D) in E1. congruence. }
  assert (Op : forall l j, owner l = true -> pget (ptr s) l = Some j -> (obt s l = true <-> obtained (log s) j)).
  { intros l j Hl Hj. rewrite (d_obt _ D l Hl). split; [intros (k & X & Y); congruence|eauto]. }
  assert (On : forall l, owner l = true -> pget (ptr s) l = None -> obt s l = false).
  { intros l Hl Hj. destruct (obt s l) eqn:Eo; auto. apply (d_obt _ D l Hl) in Eo. destruct Eo as (k & X & _). congruence. }
  assert (Nn : ~ obtained (log s) (next s)) by (intros X; apply (d_olt _ D) in X; lia).
  assert (Od : forall l, owner l = true -> pget (ptr s') l = pget (ptr s) l -> obt s' l = obt s l -> (forall h, i <> IObtain h) ->
    (obt s' l = true <-> exists j, pget (ptr s') l = Some j /\ obtained (log s') j)).
  { intros l Hl H1 H2 H3. rewrite H1, H2, (d_obt _ D l Hl). split; intros (j & X & Y); exists j; (split; auto); [apply Lo; auto|].
    apply Lo in Y. destruct Y as [Y|(h & Y & _)]; auto. exfalso. eapply H3; eauto. }
  assert (Rn : forall h t, i = IReset h t -> exists n, pget (ptr s) t = Some n /\ ~ obtained (log s) n /\ ~ abandoned (log s) n /\ forall l, pget (ptr s) l = Some n -> l = t).
  { intros h t ->. eapply (d_new _ D); eauto. }
  assert (Own : forall l l' j, owns s' l j -> owns s' l' j -> l = l').
  { intros l l' j [H1 H2] [H3 H4]. pose proof (d_own _ D) as X. unfold owns in X.
    destruct Oe as [i0 X1 X2 X3 X4|x Y1 Y2 Y3 Y4|d a Y1 Y2 Y3 Y4 Y5|a b Y1 Y2 Y3 Y4|h t Y1 Y2 Y3 Y4|x k Y1 Y2 Y3 Y4|h k Y1 Y2 Y3].
    - rewrite X1 in * by auto. eauto.
    - rewrite Y3, updl_eq in H2, H4. destruct (loc_eqb_spec l x), (loc_eqb_spec l' x); subst; auto; try (eapply X; eauto).
      + inversion H2; subst. apply (c_lt _ C) in H4. lia.
      + inversion H4; subst. apply (c_lt _ C) in H2. lia.
    - rewrite Y4, !updl_eq in H2, H4. destruct (loc_eqb_spec l a), (loc_eqb_spec l' a), (loc_eqb_spec l d), (loc_eqb_spec l' d); subst; auto; try discriminate; try (eapply X; eauto).
      + exfalso. apply n0. eapply X; eauto. + exfalso. apply n. eapply X; eauto.
    - rewrite Y3, !updl_eq in H2, H4. destruct (loc_eqb_spec l b), (loc_eqb_spec l' b), (loc_eqb_spec l a), (loc_eqb_spec l' a); subst; auto; try (eapply X; eauto; fail);
        exfalso; match goal with K : ?u <> ?v |- _ => apply K; eapply X; eauto; fail | _ => idtac end.
      all: match goal with K : ?u <> ?v |- _ => apply K; symmetry; eapply X; eauto end.
    - destruct (Rn h t eq_refl) as (n & N1 & N2 & N4 & N3). rewrite Y3, !updl_eq in H2, H4.
      destruct (loc_eqb_spec l t), (loc_eqb_spec l' t); try congruence.
      destruct (loc_eqb_spec l h), (loc_eqb_spec l' h); subst; auto; try (eapply X; eauto; fail).
      + rewrite N1 in H2. inversion H2; subst. apply N3 in H4. congruence.
      + rewrite N1 in H4. inversion H4; subst. apply N3 in H2. congruence.
    - rewrite Y3, updl_eq in H2, H4. destruct (loc_eqb_spec l x), (loc_eqb_spec l' x); subst; try discriminate. eauto.
    - rewrite Y2 in *. eauto. }
  assert (Oo : (forall h, i <> IObtain h) -> forall j, obtained (log s') j <-> obtained (log s) j).
  { intros H j. rewrite Lo. split; auto. intros [X|(h & X & _)]; auto. exfalso. eapply H; eauto. }
  assert (Obt : forall l, owner l = true -> (obt s' l = true <-> exists j, pget (ptr s') l = Some j /\ obtained (log s') j)).
  { intros l Hl. destruct Oe as [i0 X1 X2 X3 X4|x Y1 Y2 Y3 Y4|d a Y1 Y2 Y3 Y4 Y5|a b Y1 Y2 Y3 Y4|h t Y1 Y2 Y3 Y4|x k Y1 Y2 Y3 Y4|h k Y1 Y2 Y3].
    - apply Od; auto.
    - destruct (loc_eqb_spec l x) as [->|Hne]; [|apply Od; try discriminate; auto; rewrite Y3; now apply updl_other].
      rewrite Y4, Y3, updl_same, (On x Y1 Y2). split; [discriminate|]. intros (j & [= <-] & X). apply Oo in X; [contradiction|discriminate].
    - rewrite Y4, Y5, !updl_eq. setoid_rewrite (Oo ltac:(discriminate)). destruct (loc_eqb l a); [split; [discriminate|intros (j & X & _); discriminate]|].
      destruct (loc_eqb l d); apply (d_obt _ D); auto.
    - rewrite Y3, Y4, !updl_eq. setoid_rewrite (Oo ltac:(discriminate)). destruct (loc_eqb l b), (loc_eqb l a); apply (d_obt _ D); auto.
    - destruct (Rn h t eq_refl) as (n & N1 & N2 & N4 & N3). rewrite Y3, Y4, !updl_eq. setoid_rewrite (Oo ltac:(discriminate)).
      destruct (loc_eqb_spec l t); [congruence|]. destruct (loc_eqb l h); [|apply (d_obt _ D); auto]. rewrite N1.
      split; [discriminate|]. intros (j & [= <-] & X). contradiction.
    - rewrite Y3, Y4, !updl_eq. setoid_rewrite (Oo ltac:(discriminate)). destruct (loc_eqb l x); [|apply (d_obt _ D); auto].
      split; [discriminate|]. intros (j & X & _). discriminate.
    - rewrite Y2, Y3, updl_eq. setoid_rewrite Lo. destruct (loc_eqb_spec l h) as [->|Hne].
      + split; auto. intros _. exists k. split; auto. right. eauto.
      + rewrite (d_obt _ D l Hl). split; intros (j & X & Y); exists j; (split; auto).
        destruct Y as [Y|(h' & [= <-] & Y)]; auto. exfalso. apply Hne. eapply (d_own _ D l h j); unfold owns; auto.
        split; auto. eapply obtain_owner; eauto. }
  assert (Brk : forall j, obtained (log s') j -> stored (log s') j <> None \/ (exists l, owns s' l j) \/ abandoned (log s') j).
  { intros j Hj.
    assert (Ol : (forall h, i <> IObtain h) -> (forall l, owns s l j -> (exists l', owns s' l' j) \/ stored (log s') j <> None \/ abandoned (log s') j) ->
               stored (log s') j <> None \/ (exists l, owns s' l j) \/ abandoned (log s') j).
    { intros H1 H2. apply Oo in Hj; auto. destruct (d_brk _ D j Hj) as [X|[(l & X)|X]]; [left; auto| |right; right; apply La; auto].
      destruct (H2 l X) as [Y|[Y|Y]]; auto. }
    destruct Oe as [i0 X1 X2 X3 X4|x Y1 Y2 Y3 Y4|d a Y1 Y2 Y3 Y4 Y5|a b Y1 Y2 Y3 Y4|h t Y1 Y2 Y3 Y4|x k Y1 Y2 Y3 Y4|h k Y1 Y2 Y3].
    - apply Ol; auto. intros l [H1 H2]. left. exists l. split; auto. now rewrite X1.
    - apply Ol; [discriminate|]. intros l [H1 H2]. left. exists l. split; auto. rewrite Y3, updl_other; auto. congruence.
    - apply Ol; [discriminate|]. intros l [H1 H2]. left. destruct (loc_eqb_spec l a) as [->|Hne].
      + exists d. split; auto. rewrite Y4, !updl_eq, loc_refl. destruct (loc_eqb_spec d a); [congruence|auto].
      + exists l. split; auto. rewrite Y4, !updl_other; auto. congruence.
    - apply Ol; [discriminate|]. intros l [H1 H2]. left. destruct (loc_eqb_spec l a) as [->|Hne]; [|destruct (loc_eqb_spec l b) as [->|Hne']].
      + exists b. split; auto. now rewrite Y3, updl_same.
      + exists a. split; auto. rewrite Y3, !updl_eq, loc_refl. destruct (loc_eqb_spec a b) as [->|]; auto.
      + exists l. split; auto. rewrite Y3, !updl_other; auto.
    - apply Ol; [discriminate|]. intros l [H1 H2]. destruct (loc_eqb_spec l h) as [->|Hne].
      + right. right. apply La. right. eauto.
      + left. exists l. split; auto. rewrite Y3, !updl_other; auto. congruence.
    - apply Ol; [discriminate|]. intros l [H1 H2]. destruct (loc_eqb_spec l x) as [->|Hne].
      + right. left. apply Sm. assert (obtained (log s) j) as Hj' by (apply Oo; auto; discriminate).
        eapply (d_drop _ D f _ x j Hf); auto; [exists rest; simpl; auto|]. apply (Op x j); auto.
      + left. exists l. split; auto. rewrite Y3, updl_other; auto.
    - apply Lo in Hj. destruct Hj as [Hj|(h' & [= <-] & Hj)].
      + destruct (d_brk _ D j Hj) as [X|[(l & X1 & X2)|X]]; [left; auto| |right; right; apply La; auto]. right. left. exists l. split; auto. now rewrite Y2.
      + right. left. exists h. split; [eapply obtain_owner; eauto|now rewrite Y2]. }
  assert (Abn : forall j l, abandoned (log s') j -> owns s' l j -> False).
  { intros j l Ha [H1 H2]. apply La in Ha.
    assert (Aa : (forall h t, i <> IReset h t) -> abandoned (log s) j).
    { intros H. destruct Ha as [Ha|(h & t & Ha & _)]; auto. exfalso. eapply H; eauto. }
    pose proof (d_abn _ D j) as X. unfold owns in X.
    destruct Oe as [i0 X1 X2 X3 X4|x Y1 Y2 Y3 Y4|d a Y1 Y2 Y3 Y4 Y5|a b Y1 Y2 Y3 Y4|h t Y1 Y2 Y3 Y4|x k Y1 Y2 Y3 Y4|h k Y1 Y2 Y3].
    - rewrite X1 in H2 by auto. eapply X; eauto.
    - specialize (Aa ltac:(discriminate)). rewrite Y3, updl_eq in H2. destruct (loc_eqb l x); [|eapply X; eauto]. inversion H2; subst. apply (d_alt _ D) in Aa. lia.
    - specialize (Aa ltac:(discriminate)). rewrite Y4, !updl_eq in H2. destruct (loc_eqb l a); [discriminate|]. destruct (loc_eqb l d); eapply X; eauto.
    - specialize (Aa ltac:(discriminate)). rewrite Y3, !updl_eq in H2. destruct (loc_eqb l b), (loc_eqb l a); eapply X; eauto.
    - destruct (Rn h t eq_refl) as (n & N1 & N2 & N4 & N3). rewrite Y3, !updl_eq in H2. destruct (loc_eqb_spec l t); [congruence|].
      destruct (loc_eqb_spec l h) as [->|Hne].
      + assert (j = n) as -> by congruence. destruct Ha as [Ha|(h' & t' & [= <- <-] & Ha)]; [contradiction|]. apply N3 in Ha. congruence.
      + destruct Ha as [Ha|(h' & t' & [= <- <-] & Ha)]; [eapply X; eauto|]. apply Hne. eapply (d_own _ D l h j); split; auto.
    - specialize (Aa ltac:(discriminate)). rewrite Y3, updl_eq in H2. destruct (loc_eqb l x); [discriminate|eapply X; eauto].
    - specialize (Aa ltac:(discriminate)). rewrite Y2 in H2. eapply X; eauto. }
  assert (Fo : forall g fr, frames s' g = Some fr -> g <> f -> frames s g = Some fr) by (intros g fr Hg Hne; now rewrite Ef in Hg).
  constructor; auto.
  - intros g fr Hg. destruct (Nat.eq_dec g f) as [->|Hne]; [|eapply (d_st _ D); eauto].
    rewrite Hf' in Hg. apply some_inj in Hg. subst fr. simpl. eapply st_step; eauto.
  - intros j Hj. apply Lo in Hj. destruct Hj as [Hj|(h & _ & Hj)]; [apply (d_olt _ D) in Hj|apply (c_lt _ C) in Hj]; lia.
  - intros j. rewrite Lc, (d_clt _ D), Ln. destruct (is_new i); [|intuition (try discriminate; lia)]. intuition lia.
  - intros j Hj. destruct (Lr j) as [[E1 E2]|(E1 & y & l & E2 & E3 & _)]; [rewrite E2 in Hj; apply (d_rlt _ D) in Hj|apply (c_lt _ C) in E3]; lia.
  - intros j Hj. apply La in Hj. destruct Hj as [Hj|(h & t & _ & Hj)]; [apply (d_alt _ D) in Hj|apply (c_lt _ C) in Hj]; lia.
  - intros j. rewrite Lf, Lfr, (d_flt _ D). tauto.
  - intros g o' r2 h t rest' Hg. destruct (Nat.eq_dec g f) as [->|Hne].
    + rewrite Hf' in Hg. injection Hg as <- <- Hq.
      assert (Hn : i = INew t).
      { destruct Hst as (_ & _ & S3). destruct push as [|k push]; [simpl in Hq; subst rest; apply (S3 [] i h t rest'); auto|].
        exfalso. simpl in Hq. injection Hq as -> Hq. destruct i; simpl in Hpu; repeat match goal with K : _ \/ _ |- _ => destruct K | K : ex _ |- _ => destruct K end; discriminate. }
      subst i. destruct Hi as [x H|l' j' [=] _ _ _]. cbn [exec_instr] in H. apply some_inj in H. subst s'. exists (next s).
      cbn [ptr cont with_frame log].
      assert (P : forall l, pget (pset (ptr s) t (Some (next s))) l = updl (pget (ptr s)) t (Some (next s)) l) by (intros; apply pget_pset).
      splits.
      * rewrite P. apply updl_same.
      * intros (g & [X|X]); [discriminate|]. apply Nn. exists g. auto.
      * intros (g & [X|X]); [discriminate|]. assert (next s < next s); [|lia]. apply (d_alt _ D). exists g. auto.
      * intros l. rewrite P, updl_eq. destruct (loc_eqb_spec l t) as [->|]; auto. intros X. apply (c_lt _ C) in X. lia.
    + pose proof (Fo _ _ Hg Hne) as Hg0. destruct (d_new _ D _ _ _ _ _ _ Hg0) as (n & N1 & N2 & N4 & N3). exists n.
      destruct (a_prog _ A g _ (IReset h t) Hg0 (or_introl eq_refl)) as (P1 & P2 & _). simpl in P1, P2.
      assert (Xt : exc g o' t) by (apply P2; auto). assert (At : acc g o' t) by (apply P1; auto).
      assert (Nl : In t (locs i) -> False).
      { intros X. eapply (no_clash s g o' r2 (IReset h t :: rest') f); eauto. apply (a_prog _ A f _ i Hf (or_introl eq_refl)). auto. }
      destruct (other_keep s f o r i rest s' g _ t A B Hf Hi Hg0 Hne At) as [K1 _]. splits.
      * congruence.
      * intros X. apply Lo in X. destruct X as [X|(h' & -> & X)]; auto. apply N3 in X. subst h'. apply Nl. simpl. auto.
      * intros X. apply La in X. destruct X as [X|(h' & t' & -> & X)]; auto. apply N3 in X. subst h'. apply Nl. simpl. auto.
      * intros l Hl. destruct (istep_src _ _ _ _ _ _ _ _ _ Hi Hl) as [X|[(l0 & X & Y)|[X _]]]; auto.
        -- apply N3 in Y. subst l0. contradiction.
        -- subst n. apply (c_lt _ C) in N1. lia.
  - intros g fr l j Hg Hd Hl Ho Hj. destruct (Nat.eq_dec g f) as [->|Hne].
    + rewrite Hf' in Hg. apply some_inj in Hg. subst fr. simpl in Hd. destruct Hst as (_ & S2 & _).
      assert (Dt : i = IDtor l -> stored (log s') j <> None).
      { intros ->. rewrite <- Ls. inversion Oe as [i0 X1 X2 X3 X4| | | | | | ]; subst. rewrite X1 in Hj by auto. rewrite X2 in Ho by auto. eapply dtor_res; eauto. }
      assert (Nt : INotify l = i -> (exists q, rest = IDrop l :: q) -> stored (log s') j <> None).
      { intros <- (q & ->). inversion Oe as [i0 X1 X2 X3 X4| | | | | | ]; subst. rewrite X1 in Hj by auto. rewrite X2 in Ho by auto. apply Sm.
        eapply (d_drop _ D f _ l j Hf); auto. exists q. simpl. auto. }
      assert (Nr : In (IDrop l) (skip (i :: rest)) -> stored (log s') j <> None) by (intros X; apply S2 in X; congruence).
      assert (Nr' : forall q, rest = IDrop l :: q -> stored (log s') j <> None).
      { intros q ->. assert (X : i = INotify l \/ i <> INotify l).
        { destruct i; try (right; discriminate). destruct (loc_eqb_spec l0 l); [left|right]; congruence. }
        destruct X as [->|X]; [eapply Nt; eauto|]. apply Nr. destruct i; simpl; auto. destruct (loc_eqb_spec l0 l); simpl; auto. congruence. }
      destruct Hd as (q & [Hd|Hd]).
      * destruct push as [|k push]; simpl in Hd; [eauto|]. injection Hd as -> Hd.
        destruct i; simpl in Hpu; repeat match goal with K : _ \/ _ |- _ => destruct K | K : ex _ |- _ => destruct K end; try discriminate.
        apply Dt. congruence.
      * destruct push as [|k push]; simpl in Hd.
        -- apply Nr. rewrite Hd. destruct i; simpl; auto.
        -- injection Hd as -> Hd. destruct push as [|k push]; simpl in Hd; [eauto|]. injection Hd as -> Hd.
           destruct i; simpl in Hpu; repeat match goal with K : _ \/ _ |- _ => destruct K | K : ex _ |- _ => destruct K end; try discriminate.
           apply Dt. congruence.
    + pose proof (Fo _ _ Hg Hne) as Hg0.
      assert (Hin : In (IDrop l) (fprog fr)) by (destruct Hd as (q & [->| ->]); simpl; auto).
      destruct (a_prog _ A g _ (IDrop l) Hg0 Hin) as (P1 & P2 & _). simpl in P1, P2.
      destruct (other_keep s f o r i rest s' g _ l A B Hf Hi Hg0 Hne (P1 l (or_introl eq_refl))) as [K1 K2].
      apply Sm. eapply (d_drop _ D g fr l j); eauto; [rewrite K2 in Ho; auto|congruence].
Qed.

Lemma id_kstep (s s' : state) : IA s -> IB s -> IC s -> ID s -> kstep s s' -> ID s'.
Proof.
  intros A B C D [f o Hf Ha ->|f o r Hf ->|f o r i rest Hf Hi]; [| |eapply id_istep; eauto].
  - destruct (allowed_spec _ _ Ha) as (Ht & _). destruct (st_compile s f o Ht) as (S1 & S2 & S3 & S4).
    assert (Nu : forall (P : fid -> event) o' j', (exists g, In (P g) (FCall f o' j' :: log s)) <-> ((exists g, In (P g) (log s)) \/ exists g, FCall f o' j' = P g))
      by (intros; apply in_ev).
    constructor; cbn [ptr obt next freed result frames log stored]; unfold obtained, created, abandoned, is_freed, owns; cbn [ptr]; try setoid_rewrite Nu; try apply D.
    + intros g fr. unfold upd. destruct (Nat.eqb_spec g f) as [->|]; [|apply (d_st _ D)]. intros [= <-]. cbn [fprog]. unfold st. splits; auto.
      intros l Hl. apply S2. apply skip_tl in Hl. destruct (snd (compile s f o)); simpl in *; auto.
    + intros l Hl. rewrite (d_obt _ D l Hl). unfold obtained. split; intros (j & X & Y); exists j; (split; auto). destruct Y as [Y|(g & Y)]; [auto|discriminate].
    + intros j [X|(g & X)]; [apply (d_olt _ D); exact X|discriminate].
    + intros j. rewrite <- (d_clt _ D). unfold created. split; auto. intros [X|(g & X)]; [auto|discriminate].
    + intros j [X|(g & X)]; [apply (d_alt _ D); exact X|discriminate].
    + intros j. rewrite <- (d_flt _ D). unfold is_freed. split; auto. intros [X|(g & X)]; [auto|discriminate].
    + intros g o' r' h t rest'. unfold upd. destruct (Nat.eqb_spec g f) as [->|]; [intros X; injection X as _ _ X; exfalso; eapply S3; eauto|].
      intros X. destruct (d_new _ D _ _ _ _ _ _ X) as (n' & N1 & N2 & N3 & N4). exists n'. splits; auto.
      * intros [Y|(k & Y)]; [apply N2; exact Y|discriminate].
      * intros [Y|(k & Y)]; [apply N3; exact Y|discriminate].
    + intros j [X|(g & X)]; [|discriminate]. destruct (d_brk _ D j X) as [Y|[Y|Y]]; auto.
    + intros j l [X|(g & X)]; [|discriminate]. apply (d_abn _ D); auto.
    + intros g fr l j. unfold upd. destruct (Nat.eqb_spec g f) as [->|]; [|apply (d_drop _ D)]. intros [= <-] Hd Hl. exfalso. cbn [fprog] in Hd.
      assert (X : owner l = false); [|congruence]. apply S2. destruct Hd as (q & [->| ->]); simpl; auto.
  - assert (Nu : forall (P : fid -> event) o' j', (exists g, In (P g) (FRet f o' j' :: log s)) <-> ((exists g, In (P g) (log s)) \/ exists g, FRet f o' j' = P g))
      by (intros; apply in_ev).
    constructor; cbn [ptr obt next freed result frames log stored]; unfold obtained, created, abandoned, is_freed, owns; cbn [ptr]; try setoid_rewrite Nu; try apply D.
    + intros g fr. unfold upd. destruct (Nat.eqb_spec g f) as [->|]; [discriminate|apply (d_st _ D)].
    + intros l Hl. rewrite (d_obt _ D l Hl). unfold obtained. split; intros (j & X & Y); exists j; (split; auto). destruct Y as [Y|(g & Y)]; [auto|discriminate].
    + intros j [X|(g & X)]; [apply (d_olt _ D); exact X|discriminate].
    + intros j. rewrite <- (d_clt _ D). unfold created. split; auto. intros [X|(g & X)]; [auto|discriminate].
    + intros j [X|(g & X)]; [apply (d_alt _ D); exact X|discriminate].
    + intros j. rewrite <- (d_flt _ D). unfold is_freed. split; auto. intros [X|(g & X)]; [auto|discriminate].
    + intros g o' r' h t rest'. unfold upd. destruct (Nat.eqb_spec g f) as [->|]; [discriminate|].
      intros X. destruct (d_new _ D _ _ _ _ _ _ X) as (n' & N1 & N2 & N3 & N4). exists n'. splits; auto.
      * intros [Y|(k & Y)]; [apply N2; exact Y|discriminate].
      * intros [Y|(k & Y)]; [apply N3; exact Y|discriminate].
    + intros j [X|(g & X)]; [|discriminate]. destruct (d_brk _ D j X) as [Y|[Y|Y]]; auto.
    + intros j l [X|(g & X)]; [|discriminate]. apply (d_abn _ D); auto.
    + intros g fr l j. unfold upd. destruct (Nat.eqb_spec g f) as [->|]; [discriminate|apply (d_drop _ D)].
Qed.

Lemma id_reachable s : reachable step init s -> ID s.
Proof.
  apply reachable_inv2.
  - constructor; simpl; try discriminate; unfold obtained, created, abandoned, is_freed, owns; simpl; try tauto; try (intros j (f & X); destruct X).
    + intros l l' i [_ X]. discriminate.
    + intros l _. split; [discriminate|]. intros (i & X & _). discriminate.
    + intros i. split; [intros (f & [])|lia].
    + intros i. split; [intros (f & [])|discriminate].
    + intros i l [_ []].
  - intros s1 lb s2 R D H. eapply id_kstep; eauto using ia_reachable, ib_reachable, ic_reachable, kstep_reachable.
Qed.
End Proofs.
