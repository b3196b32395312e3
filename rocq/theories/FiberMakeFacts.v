(** Invariant of the ownership of a fiber: which objects have been made and destroyed in each state. *)
From Coq Require Import List Arith Bool Lia.
From Verif Require Import Base FiberMake FiberMakeSpec.
Import ListNotations.

Lemma made_app r a b : made r (a ++ b) = made r a + made r b.
Proof. unfold made. now rewrite filter_app, app_length. Qed.
Lemma gone_app r a b : gone r (a ++ b) = gone r a + gone r b.
Proof. unfold gone. now rewrite filter_app, app_length. Qed.
Lemma gone_cons r e l : gone r (e :: l) = (if is_gone r e then 1 else 0) + gone r l.
Proof. unfold gone. simpl. now destruct (is_gone r e). Qed.
Lemma made_cons r e l : made r (e :: l) = (if is_made r e then 1 else 0) + made r l.
Proof. unfold made. simpl. now destruct (is_made r e). Qed.
Lemma made_rev r l : made r (rev l) = made r l.
Proof. induction l as [|e l IH]; simpl; auto. rewrite made_app, made_cons, IH, made_cons. unfold made at 2. simpl. lia. Qed.
Lemma gone_rev r l : gone r (rev l) = gone r l.
Proof. induction l as [|e l IH]; simpl; auto. rewrite gone_app, gone_cons, IH, gone_cons. unfold gone at 2. simpl. lia. Qed.

Definition b2n (b : bool) : nat := if b then 1 else 0.
Lemma gone_mem k r : gone r (gone_args MemArg k) = match r with MemArg i => b2n (i <? k) | _ => 0 end.
Proof.
  induction k as [|k IH]; [destruct r; auto|]. cbn [gone_args]. rewrite gone_cons, IH. destruct r; cbn -[Nat.ltb Nat.eqb]; auto.
  destruct (Nat.eqb_spec k i); destruct (Nat.ltb_spec i k); destruct (Nat.ltb_spec i (S k)); cbn -[Nat.ltb Nat.eqb]; try lia.
Qed.
Lemma gone_loc k r : gone r (gone_args LocArg k) = match r with LocArg i => b2n (i <? k) | _ => 0 end.
Proof.
  induction k as [|k IH]; [destruct r; auto|]. cbn [gone_args]. rewrite gone_cons, IH. destruct r; cbn -[Nat.ltb Nat.eqb]; auto.
  destruct (Nat.eqb_spec k i); destruct (Nat.ltb_spec i k); destruct (Nat.ltb_spec i (S k)); cbn -[Nat.ltb Nat.eqb]; try lia.
Qed.
Lemma made_args f k r : made r (gone_args f k) = 0.
Proof. induction k; cbn [gone_args]; auto. Qed.

Section F.
Context (n : nat) (given : bool).

Definition created (p : pc) : bool := match p with Ready | RunFn | RunArg _ | Body | Ended | Dead _ => true | _ => false end.
Definition mkM (s : st) (r : res) : nat :=
  match r with
  | Stack => match at_ s with Fresh | Failed None => 0 | _ => 1 end
  | MemFn => match at_ s with Fresh | AtFn | Failed None | Failed (Some 0) => 0 | _ => 1 end
  | MemArg i => match at_ s with Fresh | AtFn | Failed None | Failed (Some 0) => 0 | AtArg k | Failed (Some (S k)) => b2n (i <? k) | _ => b2n (i <? n) end
  | LocFn => match at_ s with RunArg _ | Body | Ended | Dead (Some _) => 1 | _ => 0 end
  | LocArg i => match at_ s with RunArg k | Dead (Some k) => b2n (i <? k) | Body | Ended => b2n (i <? n) | _ => 0 end
  | Props p => b2n (p <? next s)
  end.
Definition mkG (s : st) (r : res) : nat :=
  match r with
  | Stack => b2n (freed s)
  | MemFn => match at_ s with Failed (Some (S _)) => 1 | _ => b2n (freed s) end
  | MemArg i => match at_ s with Failed (Some (S k)) => b2n (i <? k) | _ => b2n (freed s && (i <? n)) end
  | LocFn => match at_ s with Ended => 1 | _ => 0 end
  | LocArg i => match at_ s with Ended => b2n (i <? n) | _ => 0 end
  | Props p => if created (at_ s) then match props s with Some q => b2n ((p <? next s) && negb (p =? q)) | None => b2n (p <? next s) end else 0
  end.

Record inv (s : st) : Prop := mkInv {
  i_made : forall r, made r (log s) = mkM s r;
  i_gone : forall r, gone r (log s) = mkG s r;
  i_props : forall p, props s = Some p -> p < next s;
  i_pre : created (at_ s) = false -> handle s = false /\ self s = false /\ freed s = false /\ props s = None /\ next s = b2n given;
  i_free : created (at_ s) = true -> freed s = negb (handle s || self s);
  i_self : created (at_ s) = true -> at_ s <> Ended -> self s = true;
  i_noprops : freed s = true -> props s = None;
  i_k : match at_ s with AtArg k | RunArg k | Dead (Some k) => k <= n | Failed (Some (S k)) => k < n | _ => True end
}.

Lemma inv_init : inv (init_state given).
Proof.
  unfold init_state; destruct given eqn:E; constructor; cbn; rewrite ?E; try discriminate; auto; intros r; destruct r as [| | | | |p]; cbn; auto.
  - now destruct p.
Qed.

Ltac cnt := repeat first [rewrite made_app|rewrite gone_app|rewrite made_cons|rewrite gone_cons|rewrite made_rev|rewrite gone_rev|rewrite gone_mem|rewrite gone_loc|rewrite made_args].

Lemma inv_drop s h x l : inv s -> created (at_ s) = true -> freed s = false -> (x = false -> at_ s = Ended) -> (forall r, made r l = 0 /\ gone r l = 0) ->
  inv (settle n (mkSt (at_ s) (props s) (next s) h x (freed s) (l ++ log s))).
Proof.
  intros I C F X L. unfold settle. cbn [handle self]. destruct I as [Im Ig Ip _ _ _ _ Ik].
  destruct (h || x) eqn:HX.
  - constructor; cbn [at_ props next handle self freed log]; auto.
    + intros r. rewrite made_app, (proj1 (L r)). apply Im.
    + intros r. rewrite gone_app, (proj2 (L r)). rewrite Ig. unfold mkG. cbn. reflexivity.
    + rewrite C. discriminate.
    + intros _. now rewrite HX, F.
    + intros _ N. destruct x; auto.
    + now rewrite F.
  - apply orb_false_iff in HX. destruct HX as [-> ->]. specialize (X eq_refl).
    unfold destroy. cbn [at_ props next handle self freed log]. constructor; cbn [at_ props next handle self freed log]; auto; try discriminate.
    + intros r. cnt. rewrite (proj1 (L r)), Im. unfold mkM, del. cbn [at_ next]. rewrite X. destruct (props s), r; reflexivity.
    + intros r. cnt. rewrite (proj2 (L r)), Ig. unfold mkG, del. cbn [at_ next props freed]. rewrite X, F.
      destruct (props s) as [q|] eqn:Q; destruct r; cbn -[Nat.ltb Nat.eqb]; auto; try (destruct (i <? n); reflexivity).
      specialize (Ip q eq_refl). destruct (Nat.eqb_spec q p); destruct (Nat.eqb_spec p q); destruct (Nat.ltb_spec p (next s)); cbn; lia.
    + rewrite C. discriminate.
Qed.

Lemma inv_replace s : inv s -> created (at_ s) = true -> freed s = false ->
  inv (mkSt (at_ s) (Some (next s)) (S (next s)) (handle s) (self s) false (del (props s) ++ Made (Props (next s)) :: log s)).
Proof.
  intros [Im Ig Ip _ If Is _ Ik] C F. constructor; cbn [at_ props next handle self freed log]; auto; try discriminate.
  - intros r. cnt. rewrite Im. unfold mkM. cbn [at_ next]. destruct (props s), r; cbn -[Nat.ltb Nat.eqb]; auto;
      destruct (Nat.eqb_spec (next s) p) + destruct (Nat.eqb_spec (next s) p0); repeat match goal with |- context [?a <? ?b] => destruct (Nat.ltb_spec a b) end; cbn; lia.
  - intros r. cnt. rewrite Ig. unfold mkG. cbn [at_ next props freed]. rewrite C, F. destruct (props s) as [q|] eqn:Q, r; cbn -[Nat.ltb Nat.eqb]; auto;
      try specialize (Ip q eq_refl);
      repeat match goal with |- context [?a <? ?b] => destruct (Nat.ltb_spec a b) | |- context [?a =? ?b] => destruct (Nat.eqb_spec a b) end; cbn; lia.
  - intros p [= <-]. auto.
  - rewrite C. discriminate.
  - rewrite <- F. auto.
Qed.

Lemma inv_step s l s' : inv s -> step n given s l = Some s' -> inv s'.
Proof.
  intros I E. pose proof I as [Im Ig Ip Ipre If Is In Ik].
  destruct l as [b| | | |b| | | |]; cbn [step] in E; try (destruct b); destruct (at_ s) as [| |k|[k|]| | |k| | |[k|]] eqn:A; try discriminate;
    repeat match type of E with context [if ?c then _ else _] => destruct c eqn:?H; try discriminate end;
    repeat match goal with H : (_ <? _) = true |- _ => apply Nat.ltb_lt in H | H : (_ =? _) = true |- _ => apply Nat.eqb_eq in H end;
    injection E as <-; subst.
  all: try (rewrite <- A; first [apply (inv_drop s _ _ [Joined] I)|apply (inv_drop s _ _ [Detached] I)|apply (inv_drop s _ _ [] I)];
    [now rewrite A
    |rewrite If by reflexivity; now rewrite ?orb_true_r
    |first [reflexivity|auto; fail|intros X; rewrite Is in X by (discriminate || reflexivity); discriminate]
    |now split]; fail).
  all: try (rewrite <- A; apply inv_replace; auto; now rewrite A).
  all: try (constructor; cbn [emit at_ props next handle self freed log created]; auto; try discriminate; try lia;
    try (intros _; apply If; reflexivity);
    try (intros _ _; apply Is; [reflexivity|discriminate]);
    intros r; cnt; rewrite ?Im, ?Ig; unfold mkM, mkG; rewrite ?A; cbn [at_ next props freed created emit];
    destruct r; cbn -[Nat.ltb Nat.eqb]; auto;
    repeat match goal with |- context [?a =? ?b] => destruct (Nat.eqb_spec a b) | |- context [?a <? ?b] => destruct (Nat.ltb_spec a b) end; cbn; try lia; fail).
  all: destruct (Ipre eq_refl) as (Hh & Hs & Hf & Hp & Hn).
  - constructor; cbn [emit at_ props next handle self freed log created]; auto; try discriminate.
    + intros r. cnt. rewrite Im. unfold mkM. rewrite A. cbn [at_ next]. destruct r; cbn; auto.
    + intros r. cnt. rewrite Ig. unfold mkG. rewrite A. cbn [at_ freed created emit]. rewrite Hf. destruct r; cbn -[Nat.ltb Nat.eqb]; auto; lia.
  - constructor; cbn [emit at_ props next handle self freed log created]; auto; try discriminate.
    + intros r. cnt. rewrite Im. unfold mkM. rewrite A. cbn [at_ next]. destruct r; cbn; auto.
    + intros r. cnt. rewrite Ig. unfold mkG. rewrite A. cbn [at_ freed created emit next props]. rewrite Hf, Hn. destruct r; cbn -[Nat.ltb Nat.eqb]; auto. now destruct p.
    + intros p [= <-]. rewrite Hn. cbn. lia.
  - constructor; cbn [emit at_ props next handle self freed log created]; auto; try discriminate.
    + intros r. cnt. rewrite Im. unfold mkM. rewrite A. cbn [at_ next]. destruct r; cbn; auto.
    + intros r. cnt. rewrite Ig. unfold mkG. rewrite A. cbn [at_ freed created emit next props]. rewrite Hf, Hn. destruct r; cbn -[Nat.ltb Nat.eqb]; auto.
Qed.

Lemma inv_reach s : reachable (step n given) (init_state given) s -> inv s.
Proof. apply reachable_inv; [apply inv_init|intros; eapply inv_step; eauto]. Qed.

(** What an event says about the log before it, and about the rest of the log after it. *)
Definition when (e : event) (b : list event) : Prop :=
  match e with
  | Created => made Stack b = 1 /\ gone Stack b = 0 /\ made MemFn b = 1 /\ gone MemFn b = 0 /\ (forall i, i < n -> made (MemArg i) b = 1 /\ gone (MemArg i) b = 0)
  | Invoked => In Created b /\ made LocFn b = 1 /\ gone LocFn b = 0 /\ (forall i, i < n -> made (LocArg i) b = 1 /\ gone (LocArg i) b = 0)
  | Terminated => In Invoked b /\ gone LocFn b = 1 /\ (forall i, i < n -> gone (LocArg i) b = 1)
  | Joined => In Terminated b
  | Gone Stack => In Terminated b /\ forall r, r <> Stack -> gone r b = made r b
  | Gone r => gone r b = 0 /\ made r b = 1
  | _ => True
  end.
Fixpoint hist (l : list event) : Prop := match l with [] => True | e :: b => when e b /\ hist b end.
Lemma hist_split a e b : hist (a ++ e :: b) -> when e b.
Proof. induction a; cbn; intros [H1 H2]; auto. Qed.

Lemma hist_args f k : (f = MemArg \/ f = LocArg) -> forall l, hist l -> (forall i, i < k -> made (f i) l = 1 /\ gone (f i) l = 0) -> hist (rev (gone_args f k) ++ l).
Proof.
  intros Hf. induction k as [|k IH]; intros l H G; cbn [gone_args rev]; auto.
  rewrite <- app_assoc. cbn [app]. apply IH.
  - cbn [hist]. split; auto. destruct (G k) as [A B]; auto. destruct Hf as [-> | ->]; cbn; auto.
  - intros i Hi. rewrite made_cons, gone_cons. destruct (G i) as [A B]; auto. rewrite A, B.
    destruct Hf as [-> | ->]; cbn -[Nat.eqb]; destruct (Nat.eqb_spec k i); lia.
Qed.
Lemma hist_del p l : hist l -> (forall q, p = Some q -> made (Props q) l = 1 /\ gone (Props q) l = 0) -> hist (del p ++ l).
Proof. intros H G. destruct p as [q|]; cbn; auto. destruct (G q eq_refl). auto. Qed.

Record hinv (s : st) : Prop := mkH {
  h_hist : hist (log s);
  h_created : created (at_ s) = true -> In Created (log s);
  h_inv : at_ s = Body \/ at_ s = Ended -> In Invoked (log s);
  h_term : at_ s = Ended -> In Terminated (log s)
}.

Lemma hinv_init : hinv (init_state given).
Proof. unfold init_state; destruct given; constructor; cbn; auto; try discriminate; intros [H|H]; discriminate. Qed.

Lemma hinv_settle s h x e : inv s -> hinv s -> created (at_ s) = true -> freed s = false -> (x = false -> at_ s = Ended) -> (e = [] \/ e = [Joined] /\ at_ s = Ended \/ e = [Detached]) ->
  hinv (settle n (mkSt (at_ s) (props s) (next s) h x (freed s) (e ++ log s))).
Proof.
  intros I [Hh Hc Hi Ht] C F X E.
  assert (M : forall r, made r (e ++ log s) = mkM s r) by (intros r; rewrite made_app, <- (i_made s I r); destruct E as [-> |[(-> & _)| ->]]; reflexivity).
  assert (G : forall r, gone r (e ++ log s) = mkG s r) by (intros r; rewrite gone_app, <- (i_gone s I r); destruct E as [-> |[(-> & _)| ->]]; reflexivity).
  assert (HE : hist (e ++ log s)) by (destruct E as [-> |[(-> & Y)| ->]]; cbn; auto).
  assert (S : forall v, In v (log s) -> In v (e ++ log s)) by (intros; apply in_or_app; auto).
  unfold settle. cbn [handle self]. destruct (h || x) eqn:HX.
  - constructor; cbn [at_ log]; auto.
  - apply orb_false_iff in HX. destruct HX as [-> ->]. specialize (X eq_refl).
    unfold destroy. cbn [at_ props next handle self freed log].
    set (L := e ++ log s) in *.
    assert (S' : forall z v, In v (log s) -> In v (z ++ L)) by (intros; apply in_or_app; auto).
    rewrite !rev_app_distr, <- !app_assoc. cbn [rev app]. constructor; cbn [at_ log]; auto.
    + cbn [hist]. split.
      * split.
        -- apply in_or_app. right. right. apply in_or_app. auto.
        -- intros r N. destruct (props s) as [q|] eqn:Q; cbn [del rev app]; cnt; cbn [app]; cnt; rewrite M, G; unfold mkM, mkG; rewrite X, F; cbn [created]; rewrite ?Q; destruct r; try congruence; cbn -[Nat.ltb Nat.eqb]; try lia.
           pose proof (i_props s I q Q). destruct (Nat.eqb_spec q p), (Nat.eqb_spec p q), (Nat.ltb_spec p (next s)); cbn; lia.
      * destruct (props s) as [q|] eqn:Q; cbn [del rev app hist].
        -- split.
           ++ cbn [when]. cnt. rewrite M, G. unfold mkM, mkG. rewrite X. cbn [created]. rewrite Q. pose proof (i_props s I q Q). cbn -[Nat.ltb Nat.eqb].
              destruct (Nat.ltb_spec q (next s)); [|lia]. rewrite Nat.eqb_refl. cbn. auto.
           ++ split.
              ** cbn [when]. cnt. rewrite M, G. unfold mkM, mkG. rewrite X, F. auto.
              ** apply hist_args; auto. intros i Li. rewrite M, G. unfold mkM, mkG. rewrite X, F. cbn -[Nat.ltb]. destruct (Nat.ltb_spec i n); cbn; lia.
        -- split.
              ** cbn [when]. cnt. rewrite M, G. unfold mkM, mkG. rewrite X, F. auto.
              ** apply hist_args; auto. intros i Li. rewrite M, G. unfold mkM, mkG. rewrite X, F. cbn -[Nat.ltb]. destruct (Nat.ltb_spec i n); cbn; lia.
    + intros Z. right. apply in_or_app. right. right. apply S'. auto.
    + intros Z. right. apply in_or_app. right. right. apply S'. auto.
    + intros Z. right. apply in_or_app. right. right. apply S'. auto.
Qed.

Lemma hinv_replace s : inv s -> hinv s -> created (at_ s) = true ->
  hinv (mkSt (at_ s) (Some (next s)) (S (next s)) (handle s) (self s) false (del (props s) ++ Made (Props (next s)) :: log s)).
Proof.
  intros I [Hh Hc Hi Ht] C.
  assert (S : forall v, In v (log s) -> In v (del (props s) ++ Made (Props (next s)) :: log s)) by (intros; apply in_or_app; cbn; auto).
  constructor; cbn [at_ log]; auto. apply hist_del; [cbn; auto|]. intros q Q. cnt. rewrite (i_made s I), (i_gone s I). unfold mkM, mkG. rewrite C, Q. cbn -[Nat.ltb Nat.eqb].
  pose proof (i_props s I q Q). rewrite Nat.eqb_refl. destruct (Nat.eqb_spec (next s) q), (Nat.ltb_spec q (next s)); cbn; lia.
Qed.

Lemma hinv_step s l s' : inv s -> hinv s -> step n given s l = Some s' -> hinv s'.
Proof.
  intros I H E. pose proof I as [Im Ig Ip Ipre If Is In_ Ik]. pose proof H as [Hh Hc Hi Ht].
  destruct l as [b| | | |b| | | |]; cbn [step] in E; try (destruct b); destruct (at_ s) as [| |k|[k|]| | |k| | |[k|]] eqn:A; try discriminate;
    repeat match type of E with context [if ?c then _ else _] => destruct c eqn:?H; try discriminate end;
    repeat match goal with H : (_ <? _) = true |- _ => apply Nat.ltb_lt in H | H : (_ =? _) = true |- _ => apply Nat.eqb_eq in H end;
    injection E as <-; subst.
  all: try (rewrite <- A; first [apply (hinv_settle s _ _ [Joined] I H)|apply (hinv_settle s _ _ [Detached] I H)|apply (hinv_settle s _ _ [] I H)];
    [now rewrite A
    |rewrite If by reflexivity; now rewrite ?orb_true_r
    |first [reflexivity|auto; fail|intros X; rewrite Is in X by (discriminate || reflexivity); discriminate]
    |auto]; fail).
  all: try (constructor; cbn [emit at_ log created rev app hist when]; auto; try discriminate; try (intros [X|X]; discriminate); try (intros; right; auto; fail); fail).
  all: try (rewrite <- A; apply hinv_replace; auto; now rewrite A).
  - constructor; cbn [emit at_ log created]; try discriminate; try (intros [X|X]; discriminate).
    destruct (Ipre eq_refl) as (_ & _ & Hf & _).
    rewrite rev_app_distr, <- app_assoc. cbn [rev app hist when]. split; auto. split.
    + cnt. rewrite Im, Ig. unfold mkM, mkG. rewrite A, Hf. auto.
    + apply hist_args; auto. intros i Li. rewrite Im, Ig. unfold mkM, mkG. rewrite A, Hf. destruct (Nat.ltb_spec i k); cbn; lia.
  - destruct (Ipre eq_refl) as (_ & _ & Hf & _). constructor; cbn [emit at_ log created hist when]; auto; try discriminate; try (intros [X|X]; discriminate).
    + split; auto. rewrite !Im, !Ig. unfold mkM, mkG. rewrite A, Hf. splits; auto. intros i Li. rewrite !Im, !Ig. unfold mkM, mkG. rewrite A, Hf. destruct (Nat.ltb_spec i n); cbn; lia.
    + intros _. now left.
  - destruct (Ipre eq_refl) as (_ & _ & Hf & _). constructor; cbn [emit at_ log created hist when]; auto; try discriminate; try (intros [X|X]; discriminate).
    + split; auto. rewrite !Im, !Ig. unfold mkM, mkG. rewrite A, Hf. splits; auto. intros i Li. rewrite !Im, !Ig. unfold mkM, mkG. rewrite A, Hf. destruct (Nat.ltb_spec i n); cbn; lia.
    + intros _. now left.
  - constructor; cbn [emit at_ log created hist when rev app]; auto; try discriminate.
    + split; auto. rewrite !Im, !Ig. unfold mkM, mkG. rewrite A. splits; auto. intros i Li. rewrite !Im, !Ig. unfold mkM, mkG. rewrite A. destruct (Nat.ltb_spec i n); cbn; lia.
    + intros X. right. auto.
    + intros _. now left.
  - cbn [emit]. unfold emit. rewrite rev_app_distr, <- app_assoc. cbn [rev app].
    constructor; cbn [emit at_ log created hist when]; auto; try discriminate.
    + splits.
      * right. apply in_or_app. auto.
      * cnt. rewrite Ig. unfold mkG. rewrite A. auto.
      * intros i Li. cnt. rewrite Ig. unfold mkG. rewrite A. cbn -[Nat.ltb]. destruct (Nat.ltb_spec i n); cbn; lia.
      * cnt. rewrite Ig. unfold mkG. rewrite A. auto.
      * cnt. rewrite Im. unfold mkM. rewrite A. auto.
      * apply hist_args; auto. intros i Li. rewrite Im, Ig. unfold mkM, mkG. rewrite A. destruct (Nat.ltb_spec i n); cbn; lia.
    + intros X. right. right. apply in_or_app. auto.
    + intros _. right. right. apply in_or_app. auto.
    + intros _. now left.
Qed.

Lemma hinv_reach s : reachable (step n given) (init_state given) s -> hinv s.
Proof.
  intros R. apply (reachable_inv (step n given) (fun s => inv s /\ hinv s) (init_state given)); auto.
  - split; [apply inv_init|apply hinv_init].
  - intros a l b [I H] E. split; [eapply inv_step; eauto|eapply hinv_step; eauto].
Qed.

(** The events that are not about objects. *)
Definition is_plain (e : event) : bool := match e with Made _ | Gone _ => false | _ => true end.
Definition plain (l : list event) : list event := filter is_plain l.
Lemma in_plain v l : is_plain v = true -> (In v l <-> In v (plain l)).
Proof. intros P. unfold plain. rewrite filter_In. tauto. Qed.
Lemma plain_app a b : plain (a ++ b) = plain a ++ plain b.
Proof. apply filter_app. Qed.
Lemma plain_rev l : plain (rev l) = rev (plain l).
Proof. induction l as [|e l IH]; auto. cbn [rev]. rewrite plain_app, IH. cbn. destruct (is_plain e); cbn; auto. now rewrite app_nil_r. Qed.
Lemma plain_args f k : plain (gone_args f k) = [].
Proof. induction k; auto. Qed.
Lemma plain_del p : plain (del p) = [].
Proof. now destruct p. Qed.
Lemma plain_settle s : plain (log (settle n s)) = plain (log s).
Proof. unfold settle. destruct (_ || _); auto. unfold destroy. cbn [log]. now rewrite plain_app, plain_rev, !plain_app, plain_args, plain_del. Qed.
Lemma at_settle s : at_ (settle n s) = at_ s /\ handle (settle n s) = handle s.
Proof. unfold settle. now destruct (_ || _). Qed.

Record oinv (s : st) : Prop := mkO {
  o_created : In Created (plain (log s)) -> created (at_ s) = true;
  o_threw : In Threw (plain (log s)) -> exists k, at_ s = Failed k;
  o_joined : In Joined (plain (log s)) -> handle s = false /\ at_ s = Ended
}.
Lemma oinv_step s l s' : oinv s -> step n given s l = Some s' -> oinv s'.
Proof.
  intros [Oc Ot Oj] E.
  destruct l as [x| | | |x| | | |]; cbn [step] in E; try (destruct x); destruct (at_ s) as [| |k|[k|]| | |k| | |[k|]] eqn:A; try discriminate;
    repeat match type of E with context [if ?c then _ else _] => destruct c eqn:?H; try discriminate end;
    injection E as <-; constructor; rewrite ?plain_settle, ?(proj1 (at_settle _)), ?(proj2 (at_settle _)); unfold emit; cbn [log at_ handle];
    rewrite ?plain_app, ?plain_rev, ?plain_app, ?plain_args, ?plain_del; cbn [plain filter is_plain rev app In created]; fold (plain (log s));
    intros X; repeat (destruct X as [X|X]); try discriminate; eauto.
  all: try (specialize (Oc X); discriminate).
  all: try (destruct (Ot X) as [? Y]; discriminate).
  all: try (destruct (Oj X) as [? Y]; discriminate).
  all: try (now split).
  all: destruct (Oj X); auto.
Qed.
Lemma oinv_reach s : reachable (step n given) (init_state given) s -> oinv s.
Proof.
  intros R. apply (reachable_inv (step n given) oinv (init_state given)); auto.
  - unfold init_state. destruct given; constructor; cbn; tauto.
  - intros a l b I E. eapply oinv_step; eauto.
Qed.
End F.
