(** Invariants for wait_first_simple(), wait_all_simple() and wait_all_members(). *)
From Coq Require Import List Arith Bool Lia.
From Verif Require Import Base WhenSimple WhenSimpleSpec.
Import ListNotations.

Section M.
Context (k : kind) (n : nat) (ok : nat -> bool).
Definition isrun (p : ppc) : bool := match p with PRun => true | _ => false end.
Definition iswait (p : ppc) : bool := match p with PWait => true | _ => false end.
Definition count (f : ppc -> bool) (m : nat -> ppc) : nat := length (filter (fun i => f (m i)) (seq 0 n)).
Definition is_over (c : cpc) : bool := match c with CDone => true | _ => false end.

Lemma filter_same : forall (f g : nat -> bool) l, (forall j, In j l -> f j = g j) -> length (filter f l) = length (filter g l).
Proof. induction l as [|a l IH]; simpl; intros H; auto. rewrite (H a) by auto. destruct (g a); simpl; rewrite IH; auto. Qed.
Lemma count_in : forall f m i p, i < n -> f (m i) = false -> f p = true -> count f (upd m i p) = S (count f m).
Proof.
  intros f m i p Hi Hl Hp. unfold count. assert (X : In i (seq 0 n)) by (apply in_seq; lia). pose proof (seq_NoDup n 0) as ND.
  induction (seq 0 n) as [|a l IH]; [destruct X|]. simpl. inversion ND as [|? ? Na ND']; subst. destruct (Nat.eq_dec a i) as [->|N].
  - rewrite upd_same, Hl, Hp. simpl. f_equal. apply filter_same. intros j Hj. rewrite upd_other; auto. intros ->. auto.
  - rewrite upd_other by auto. destruct X as [X|X]; [congruence|]. destruct (f (m a)); simpl; rewrite IH; auto.
Qed.
Lemma count_lt : forall f m i, i < n -> f (m i) = false -> count f m < n.
Proof.
  intros f m i Hi Hf. assert (X : length (i :: filter (fun i => f (m i)) (seq 0 n)) <= length (seq 0 n)).
  { apply NoDup_incl_length.
    - constructor; [|apply NoDup_filter; apply seq_NoDup]. intros Y. apply filter_In in Y. destruct Y. congruence.
    - intros j [<-|Y]; [apply in_seq; lia|]. apply filter_In in Y. tauto. }
  rewrite seq_length in X. simpl in X. unfold count. lia.
Qed.
Lemma count_all : forall f m, count f m = n -> forall i, i < n -> f (m i) = true.
Proof. intros f m H i Hi. destruct (f (m i)) eqn:X; auto. pose proof (count_lt f m i Hi X). lia. Qed.
Lemma count_max : forall f m, (forall i, i < n -> f (m i) = true) -> count f m = n.
Proof.
  intros f m H. unfold count. rewrite <- (seq_length n 0) at 2. assert (G : forall i, In i (seq 0 n) -> f (m i) = true) by (intros i X; apply in_seq in X; apply H; lia).
  revert G. generalize (seq 0 n). induction l as [|a l IH]; simpl; intros G; auto. rewrite (G a) by auto. simpl. rewrite IH; auto.
Qed.

Record inv (s : st) : Prop := {
  i_run : forall i, In (EEnd i) (log s) <-> i < n /\ isrun (prod s i) = false;
  i_out : forall i, n <= i -> prod s i = PRun;
  i_over : cons s = CDone <-> call_over s;
  i_res : forall e, In e (log s) -> match e with
    | EEnd _ => True
    | EReturn is => match k with
        | FirstSimple => ready s = true
        | AllSimple => forall i, i < n -> In (EEnd i) (log s)
        | Members => is = seq 0 n /\ (forall i, i < n -> In (EEnd i) (log s) /\ ok i = true) end
    | EThrow i => k = Members /\ i < n /\ leftmost ok i /\ (forall j, j <= i -> In (EEnd j) (log s)) end;
  i_kind : match k with
    | FirstSimple => (forall i, prod s i <> PWait) /\ (ready s = true <-> exists i, prod s i = PNote \/ prod s i = PDone) /\ (cons s = CSleep -> ready s = true -> exists i, prod s i = PNote) /\ (forall g, cons s <> CGet g)
    | AllSimple => (forall g, cons s <> CGet g) /\ (is_over (cons s) = false -> (forall i, prod s i = PRun \/ prod s i = PWait) /\ arrived s = count iswait (prod s) + match cons s with CSleep => 1 | _ => 0 end /\ (cons s = CSleep -> count iswait (prod s) < n)) /\ (cons s = CDone -> forall i, i < n -> prod s i = PDone)
    | Members => (forall i, prod s i = PRun \/ prod s i = PDone) /\ match cons s with CGet got => got = seq 0 (length got) /\ length got <= n /\ (forall j, j < length got -> prod s j = PDone /\ ok j = true) | CDone => True | _ => False end
    end
}.
Lemma inv_init : inv (init_state k).
Proof.
  split; unfold init_state; cbn [log prod cons ready arrived].
  - intros i. simpl. split; [tauto|intros (? & ?); discriminate].
  - auto.
  - split; [destruct k; discriminate|intros (e & [] & _)].
  - intros e [].
  - assert (Z : count iswait (fun _ => PRun) = 0) by (unfold count; generalize (seq 0 n); induction l; simpl; auto).
    destruct k; splits; try discriminate; auto; try (intros j X; simpl in X; lia).
    + split; [discriminate|]. intros (i & [X|X]); discriminate.
    + intros _. rewrite Z. splits; auto. discriminate.
    + simpl. lia.
Qed.

Ltac fin j i := destruct (Nat.eq_dec j i) as [->|?]; [rewrite ?upd_same in *|rewrite ?upd_other in * by auto].
Lemma over_cons : forall (e : event) l, match e with EEnd _ => True | _ => False end -> (exists x, In x (e :: l) /\ match x with EReturn _ | EThrow _ => True | _ => False end) <-> (exists x, In x l /\ match x with EReturn _ | EThrow _ => True | _ => False end).
Proof. intros e l He. split; intros (x & A & B); [|exists x; simpl; auto]. destruct A as [<-|A]; [destruct e; tauto|eauto]. Qed.
(** The results that are known stay true. *)
Definition resok (rd : bool) (l : list event) (e : event) : Prop := match e with
    | EEnd _ => True
    | EReturn is => match k with
        | FirstSimple => rd = true
        | AllSimple => forall i, i < n -> In (EEnd i) l
        | Members => is = seq 0 n /\ (forall i, i < n -> In (EEnd i) l /\ ok i = true) end
    | EThrow i => k = Members /\ i < n /\ leftmost ok i /\ (forall j, j <= i -> In (EEnd j) l) end.
Lemma resok_mono : forall rd rd' l l' e, (rd = true -> rd' = true) -> (forall x, In x l -> In x l') -> resok rd l e -> resok rd' l' e.
Proof.
  intros rd rd' l l' e H1 H2 R. destruct e; auto; unfold resok in *.
  - destruct k; auto. destruct R as (A & B). split; auto. intros i Hi. destruct (B i Hi). auto.
  - destruct R as (A & B & C & D). splits; auto.
Qed.

Lemma step_first : forall s l s', k = FirstSimple -> inv s -> step k n ok s l = Some s' -> inv s'.
Proof.
  intros s l s' K [Ir Io Iv Is Ik] E. rewrite K in Ik. destruct Ik as (W & Rd & Sl & Gt).
  assert (NP : forall i, n <= i -> prod s i = PRun) by exact Io.
  destruct l as [i|i|]; unfold step in E.
  - destruct (Nat.ltb_spec i n) as [Hi|]; [|discriminate]. destruct (prod s i) eqn:P; try discriminate. injection E as <-. unfold ended. rewrite K.
    split; cbn [log prod cons ready arrived].
    + intros j. simpl. rewrite Ir. fin j i; [intuition|]. split; [intros [X|X]; [congruence|auto]|auto].
    + intros j Hj. fin j i; auto. lia.
    + unfold call_over in *. cbn [log]. rewrite over_cons by exact I. exact Iv.
    + intros e [<-|X]; auto. apply (resok_mono (ready s) (ready s) (log s)); simpl; auto. exact (Is e X).
    + rewrite K. splits; auto.
      * intros j. fin j i; auto. discriminate.
      * rewrite Rd. split; intros (j & X); exists j; fin j i; auto; [rewrite P in X; destruct X; discriminate|destruct X; discriminate].
      * intros A B. destruct (Sl A B) as (j & X). exists j. fin j i; auto. rewrite P in X. discriminate.
  - destruct (prod s i) eqn:P; try discriminate; injection E as <-; assert (Hi : i < n) by (destruct (Nat.ltb_spec i n) as [|Y]; auto; rewrite (Io i Y) in P; discriminate).
    + split; cbn [log prod cons ready arrived].
      * intros j. rewrite Ir. fin j i; [rewrite P; simpl; tauto|tauto].
      * intros j Hj. fin j i; auto. lia.
      * exact Iv.
      * intros e X. apply (resok_mono (ready s) true (log s)); simpl; auto. exact (Is e X).
      * rewrite K. splits; auto.
        -- intros j. fin j i; auto. discriminate.
        -- split; auto. intros _. exists i. rewrite upd_same. auto.
        -- intros _ _. exists i. now rewrite upd_same.
    + split; cbn [log prod cons ready arrived].
      * intros j. rewrite Ir. fin j i; [rewrite P; simpl; tauto|tauto].
      * intros j Hj. fin j i; auto. lia.
      * rewrite <- (Iv : cons s = CDone <-> call_over (mkSt _ _ _ _ (log s))). destruct (cons s); split; intros X; auto; discriminate.
      * exact Is.
      * rewrite K. splits.
        -- intros j. fin j i; auto. discriminate.
        -- rewrite Rd. split; [intros (j & X); exists j; fin j i; auto|]. intros _. exists i. auto.
        -- destruct (cons s); discriminate.
        -- intros g. specialize (Gt g). destruct (cons s); auto; discriminate.
  - unfold caller in E. rewrite K in E. destruct (cons s) eqn:C; try discriminate; [|destruct (Gt got eq_refl)]. injection E as <-. destruct (ready s) eqn:R; split; cbn [log prod cons ready arrived]; auto.
    + intros j. simpl. rewrite Ir. split; [intros [X|X]; [discriminate|auto]|auto].
    + split; auto. intros _. eexists. split; [simpl; left; reflexivity|exact I].
    + intros e [<-|X]; [rewrite K; auto|]. apply (resok_mono true true (log s)); simpl; auto. exact (Is e X).
    + rewrite K. splits; auto; try discriminate. 
    + rewrite <- (Iv : _ <-> call_over (mkSt _ _ _ _ (log s))). split; discriminate.
    + rewrite K. splits; auto; try discriminate.
Qed.

Lemma step_members : forall s l s', k = Members -> inv s -> step k n ok s l = Some s' -> inv s'.
Proof.
  intros s l s' K [Ir Io Iv Is Ik] E. rewrite K in Ik. destruct Ik as (W & Cg).
  destruct l as [i|i|]; unfold step in E.
  - destruct (Nat.ltb_spec i n) as [Hi|]; [|discriminate]. destruct (prod s i) eqn:P; try discriminate. injection E as <-. unfold ended. rewrite K.
    split; cbn [log prod cons ready arrived].
    + intros j. simpl. rewrite Ir. fin j i; [intuition|]. split; [intros [X|X]; [congruence|auto]|auto].
    + intros j Hj. fin j i; auto. lia.
    + unfold call_over in *. cbn [log]. rewrite over_cons by exact I. exact Iv.
    + intros e [<-|X]; auto. apply (resok_mono (ready s) (ready s) (log s)); simpl; auto. exact (Is e X).
    + rewrite K. split; [intros j; fin j i; auto|]. destruct (cons s); auto. destruct Cg as (A & B & C). splits; auto. intros j Hj. destruct (C j Hj). split; auto. fin j i; auto.
  - destruct (W i) as [P|P]; rewrite P in E; discriminate.
  - unfold caller in E. destruct (cons s) as [| |got|] eqn:C; try discriminate; try (destruct Cg; fail).
    destruct Cg as (A & B & D). destruct (Nat.ltb_spec (length got) n) as [Hl|Hl].
    + destruct (prod s (length got)) eqn:P; try discriminate. injection E as <-. destruct (ok (length got)) eqn:O; split; cbn [log prod cons ready arrived]; auto.
      * rewrite <- (Iv : _ <-> call_over (mkSt _ _ _ _ (log s))). split; discriminate.
      * rewrite K. split; auto. rewrite app_length. simpl. rewrite Nat.add_1_r. splits; [rewrite seq_S; simpl; rewrite <- A; auto|lia|].
        intros j Hj. destruct (Nat.eq_dec j (length got)) as [->|]; [auto|apply D; lia].
      * intros j. simpl. rewrite Ir. split; [intros [X|X]; [discriminate|auto]|auto].
      * split; auto. intros _. eexists. split; [simpl; left; reflexivity|exact I].
      * intros e [<-|X]; [|apply (resok_mono (ready s) (ready s) (log s)); simpl; auto; exact (Is e X)]. splits; auto.
        -- split; auto. intros j Hj. apply D. auto.
        -- intros j Hj. simpl. right. apply Ir. split; [lia|]. destruct (Nat.eq_dec j (length got)) as [->|]; [now rewrite P|]. destruct (D j) as (X & _); [lia|]. now rewrite X.
      * rewrite K. split; auto.
    + injection E as <-. assert (Lg : length got = n) by lia. split; cbn [log prod cons ready arrived]; auto.
      * intros j. simpl. rewrite Ir. split; [intros [X|X]; [discriminate|auto]|auto].
      * split; auto. intros _. eexists. split; [simpl; left; reflexivity|exact I].
      * intros e [<-|X]; [|apply (resok_mono (ready s) (ready s) (log s)); simpl; auto; exact (Is e X)]. rewrite K. split; [congruence|].
        intros j Hj. destruct (D j) as (X & Y); [lia|]. split; auto. simpl. right. apply Ir. rewrite X. auto.
      * rewrite K. split; auto.
Qed.

Lemma step_all : forall s l s', k = AllSimple -> inv s -> step k n ok s l = Some s' -> inv s'.
Proof.
  intros s l s' K [Ir Io Iv Is Ik] E. rewrite K in Ik. destruct Ik as (Gt & Ip & Id).
  destruct l as [i|i|]; unfold step in E.
  - destruct (Nat.ltb_spec i n) as [Hi|]; [|discriminate]. destruct (prod s i) eqn:P; try discriminate. injection E as <-. unfold ended. rewrite K.
    assert (ND : is_over (cons s) = false). { destruct (cons s) eqn:C; auto. rewrite (Id eq_refl i Hi) in P. discriminate. }
    destruct (Ip ND) as (A & B & C).
    assert (CI : count iswait (upd (prod s) i PWait) = S (count iswait (prod s))) by (apply count_in; auto; now rewrite P).
    assert (LT : count iswait (prod s) < n) by (apply (count_lt _ _ i); auto; now rewrite P).
    assert (IR : forall j, In (EEnd j) (EEnd i :: log s) <-> j < n /\ isrun (upd (prod s) i PWait j) = false).
    { intros j. simpl. rewrite Ir. fin j i; [intuition|]. split; [intros [X|X]; [congruence|auto]|auto]. }
    unfold arrive. destruct (Nat.eqb_spec (S (arrived s)) (S n)) as [F|F].
    + assert (CS : cons s = CSleep) by (destruct (cons s); auto; lia). rewrite CS in B.
      assert (FULL : forall j, j < n -> upd (prod s) i PWait j = PWait).
      { intros j Hj. assert (X : iswait (upd (prod s) i PWait j) = true) by (apply count_all; auto; lia). destruct (upd (prod s) i PWait j); try discriminate; auto. }
      split; cbn [log prod cons ready arrived app].
      * intros j. specialize (IR j). simpl in *. split.
        -- intros [X|X]; [discriminate|]. destruct (proj1 IR X) as (Y & Z). split; auto. now rewrite (FULL j Y).
        -- intros (Y & _). right. apply IR. split; auto. now rewrite (FULL j Y).
      * intros j Hj. rewrite upd_other by lia. now rewrite (Io j Hj).
      * split; auto. intros _. eexists. split; [simpl; left; reflexivity|exact I].
      * intros e [<-|X].
        -- rewrite K. intros j Hj. simpl. right. apply IR. split; auto. now rewrite (FULL j Hj).
        -- apply (resok_mono (ready s) (ready s) (EEnd i :: log s)); simpl; auto. destruct X as [<-|X]; [exact I|]. apply (resok_mono (ready s) (ready s) (log s)); simpl; auto. exact (Is e X).
      * rewrite K. splits; try discriminate. intros _ j Hj. now rewrite (FULL j Hj).
    + split; cbn [log prod cons ready arrived app]; auto.
      * intros j Hj. rewrite upd_other by lia. auto.
      * unfold call_over in *. cbn [log]. rewrite over_cons by exact I. exact Iv.
      * intros e [<-|X]; auto. apply (resok_mono (ready s) (ready s) (log s)); simpl; auto. exact (Is e X).
      * rewrite K. splits; auto.
        -- intros _. rewrite CI. splits; [intros j; fin j i; auto|lia|]. intros CS. rewrite CS in B. lia.
        -- intros CD. rewrite CD in ND. discriminate.
  - exfalso. destruct (is_over (cons s)) eqn:ND.
    + destruct (cons s); try discriminate. destruct (Nat.ltb_spec i n) as [Hi|Hi]; [rewrite (Id eq_refl i Hi) in E|rewrite (Io i Hi) in E]; discriminate.
    + destruct (Ip eq_refl) as (A & _). destruct (A i) as [P|P]; rewrite P in E; discriminate.
  - unfold caller in E. rewrite K in E. destruct (cons s) as [| |got|] eqn:C; try discriminate; [|destruct (Gt got eq_refl)]. injection E as <-.
    destruct (Ip eq_refl) as (A & B & _). rewrite Nat.add_0_r in B.
    unfold arrive. destruct (Nat.eqb_spec (S (arrived s)) (S n)) as [F|F].
    + assert (FULL : forall j, j < n -> prod s j = PWait).
      { intros j Hj. assert (X : iswait (prod s j) = true) by (apply count_all; auto; lia). destruct (prod s j); try discriminate; auto. }
      split; cbn [log prod cons ready arrived app].
      * intros j. simpl. rewrite Ir. split.
        -- intros [X|(X & Y)]; [discriminate|]. split; auto. now rewrite (FULL j X).
        -- intros (Y & _). right. split; auto. now rewrite (FULL j Y).
      * intros j Hj. now rewrite (Io j Hj).
      * split; auto. intros _. eexists. split; [simpl; left; reflexivity|exact I].
      * intros e [<-|X].
        -- rewrite K. intros j Hj. simpl. right. apply Ir. split; auto. now rewrite (FULL j Hj).
        -- apply (resok_mono (ready s) (ready s) (log s)); simpl; auto. exact (Is e X).
      * rewrite K. splits; try discriminate. intros _ j Hj. now rewrite (FULL j Hj).
    + split; cbn [log prod cons ready arrived app]; auto.
      * rewrite <- (Iv : _ <-> call_over (mkSt _ _ _ _ (log s))). split; discriminate.
      * rewrite K. splits; try discriminate. intros _. splits; auto; try lia. intros _.
        assert (LE : count iswait (prod s) <= n). { unfold count. rewrite <- (seq_length n 0) at 2. generalize (seq 0 n). induction l as [|a l IH]; simpl; auto. destruct (iswait (prod s a)); simpl; lia. }
        lia.
Qed.
Lemma inv_reach : forall s, reachable (step k n ok) (init_state k) s -> inv s.
Proof. apply reachable_inv; [apply inv_init|]. intros s l s' I E. destruct k eqn:K; rewrite <- K in *; [eapply step_first|eapply step_all|eapply step_members]; eauto. Qed.

(** If nothing can happen any more, the call has ended. *)
Lemma stuck_over : forall s, inv s -> stuck k n ok s -> (k = FirstSimple -> 0 < n) -> cons s = CDone.
Proof.
  intros s [Ir Io Iv Is Ik] St Hn.
  assert (NR : forall i, i < n -> prod s i <> PRun). { intros i Hi P. specialize (St (End i)). unfold step in St. rewrite P in St. apply Nat.ltb_lt in Hi. rewrite Hi in St. discriminate. }
  assert (NS : forall i, prod s i <> PSet /\ prod s i <> PNote). { intros i. specialize (St (Go i)). unfold step in St. split; intros P; rewrite P in St; discriminate. }
  pose proof (St Caller) as Sc. unfold step, caller in Sc. destruct k eqn:K.
  - destruct Ik as (W & Rd & Sl & Gt). destruct (cons s) as [| |got|] eqn:C; auto; try discriminate; [|destruct (Gt got eq_refl)]. exfalso.
    assert (P0 : prod s 0 = PDone). { specialize (NR 0 (Hn eq_refl)). destruct (NS 0) as (A & B). specialize (W 0). destruct (prod s 0); congruence. }
    destruct (Sl eq_refl) as (i & X); [apply Rd; exists 0; auto|]. destruct (NS i). congruence.
  - destruct Ik as (Gt & Ip & Id). destruct (cons s) as [| |got|] eqn:C; auto; try discriminate; [|destruct (Gt got eq_refl)]. exfalso.
    destruct (Ip eq_refl) as (A & B & D). specialize (D eq_refl). assert (X : count iswait (prod s) = n); [|lia]. apply count_max. intros i Hi. destruct (A i) as [P|P]; [destruct (NR i Hi P)|now rewrite P].
  - destruct Ik as (W & Cg). destruct (cons s) as [| |got|] eqn:C; auto; try tauto. exfalso. destruct (Nat.ltb_spec (length got) n) as [Hl|Hl]; [|discriminate].
    destruct (W (length got)) as [P|P]; [destruct (NR _ Hl P)|]. rewrite P in Sc. discriminate.
Qed.

(** Every step uses up something. *)
Definition weight (p : ppc) : nat := match p with PRun => 5 | PSet => 4 | PNote => 3 | PWait => 1 | PDone => 0 end.
Definition cweight (c : cpc) : nat := match c with CStart => 2 | CSleep => 1 | CGet got => n - length got + 1 | CDone => 0 end.
Definition total (m : nat -> ppc) : nat := list_sum (map (fun i => weight (m i)) (seq 0 n)).
Definition measure (s : st) : nat := total (prod s) + cweight (cons s).
Lemma total_same : forall (m m' : nat -> ppc) (l : list nat), (forall i, In i l -> m i = m' i) -> list_sum (map (fun i => weight (m i)) l) = list_sum (map (fun i => weight (m' i)) l).
Proof. induction l as [|a l IH]; simpl; intros H; auto. rewrite (H a), IH; auto. Qed.
Lemma total_le : forall (m m' : nat -> ppc), (forall i, weight (m i) <= weight (m' i)) -> total m <= total m'.
Proof. intros m m' H. unfold total. generalize (seq 0 n). induction l as [|a l IH]; simpl; auto. specialize (H a). lia. Qed.
Lemma total_upd : forall m i p, i < n -> total (upd m i p) + weight (m i) = total m + weight p.
Proof.
  intros m i p Hi. unfold total. assert (X : In i (seq 0 n)) by (apply in_seq; lia). pose proof (seq_NoDup n 0) as ND.
  induction (seq 0 n) as [|a l IH]; [destruct X|]. simpl. inversion ND as [|? ? Na ND']; subst. destruct (Nat.eq_dec a i) as [->|N].
  - rewrite upd_same. rewrite (total_same (upd m i p) m); [lia|]. intros j Hj. apply upd_other. intros ->. auto.
  - rewrite upd_other by auto. destruct X as [X|X]; [congruence|]. specialize (IH X ND'). lia.
Qed.
Lemma arrive_total : forall s m c es, measure (arrive n s m c es) <= total m + cweight c.
Proof.
  intros s m c es. unfold arrive, measure. destruct (Nat.eqb _ _); cbn [prod cons cweight]; [|lia].
  pose proof (total_le (fun i => match m i with PWait => PDone | p => p end) m) as T. assert (X : forall i, weight (match m i with PWait => PDone | p => p end) <= weight (m i)) by (intros i; destruct (m i); simpl; lia). specialize (T X). lia.
Qed.
Lemma measure_step : forall s l s', inv s -> step k n ok s l = Some s' -> measure s' < measure s.
Proof.
  intros s l s' Iv E. destruct l as [i|i|]; unfold step in E.
  - destruct (Nat.ltb_spec i n) as [Hi|]; [|discriminate]. destruct (prod s i) eqn:P; try discriminate. injection E as <-. pose proof (fun p => total_upd (prod s) i p Hi) as T. rewrite P in T. cbn [weight] in T.
    unfold ended. destruct k; [| |]; [unfold measure; cbn [prod cons]; specialize (T PSet); simpl in T; lia| |unfold measure; cbn [prod cons]; specialize (T PDone); simpl in T; lia].
    pose proof (arrive_total s (upd (prod s) i PWait) (cons s) [EEnd i]). specialize (T PWait). simpl in T. unfold measure at 2. lia.
  - assert (Hi : prod s i <> PRun -> i < n). { intros X. destruct (Nat.ltb_spec i n) as [|Y]; auto. destruct (X (i_out s Iv i Y)). }
    destruct (prod s i) eqn:P; try discriminate; injection E as <-; (assert (Hj : i < n) by (apply Hi; discriminate)); pose proof (fun p => total_upd (prod s) i p Hj) as T; rewrite P in T; cbn [weight] in T; unfold measure; cbn [prod cons].
    + specialize (T PNote). simpl in T. lia.
    + specialize (T PDone). simpl in T. destruct (cons s); simpl; lia.
  - unfold caller in E. destruct (cons s) as [| |got|] eqn:C; try (destruct k; discriminate).
    + destruct k; try discriminate; injection E as <-.
      * unfold measure. rewrite C. destruct (ready s); cbn [prod cons cweight]; lia.
      * pose proof (arrive_total s (prod s) CSleep []). unfold measure at 2. rewrite C. simpl in *. lia.
    + destruct (Nat.ltb_spec (length got) n) as [Hl|Hl].
      * destruct (prod s (length got)) eqn:P; try discriminate. injection E as <-. unfold measure. rewrite C. destruct (ok (length got)); cbn [prod cons cweight]; rewrite ?app_length; simpl; lia.
      * injection E as <-. unfold measure. rewrite C. cbn [prod cons cweight]. lia.
Qed.
Lemma steps_bound : forall tr s, exec (step k n ok) (init_state k) tr = Some s -> length tr <= 6 * n + 2.
Proof.
  assert (G : forall tr s s', inv s -> exec (step k n ok) s tr = Some s' -> length tr + measure s' <= measure s).
  { induction tr as [|l tr IH]; simpl; intros s s' Iv E; [injection E as <-; lia|]. destruct (step k n ok s l) as [s1|] eqn:S1; [|discriminate].
    pose proof (measure_step s l s1 Iv S1). assert (I1 : inv s1) by (destruct k eqn:K; rewrite <- K in *; [eapply step_first|eapply step_all|eapply step_members]; eauto). pose proof (IH s1 s' I1 E). lia. }
  intros tr s E. pose proof (G tr _ s inv_init E) as H.
  assert (M : measure (init_state k) <= 6 * n + 2).
  { unfold measure. cbn [init_state prod]. assert (T : total (fun _ => PRun) = 5 * n) by (unfold total; rewrite <- (seq_length n 0) at 2; generalize (seq 0 n); induction l; simpl in *; lia).
    rewrite T. destruct k; simpl; lia. }
  lia.
Qed.
End M.
