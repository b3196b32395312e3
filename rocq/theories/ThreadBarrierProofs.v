(** Invariants of thread_barrier. *)
From Coq Require Import List Arith Bool Lia.
From Verif Require Import Base ThreadBarrier ThreadBarrierSpec.
Import ListNotations.

Definition waits (p : tpc) (c : bool) : Prop := p = Sleep c \/ p = Woken c.

Record inv (n : nat) (s : st) : Prop := mkInv {
  i_cur : 1 <= current s <= n;
  i_arr : arrivals (log s) = n * (arrivals (log s) / n) + (n - current s);
  i_cyc : cycle s = Nat.even (arrivals (log s) / n);
  i_out : forall t, pc s t = Out -> ticket (log s) t = None;
  i_wait : forall t c, waits (pc s t) c -> exists j, ticket (log s) t = Some j /\ j < arrivals (log s) /\ c = Nat.even (j / n) /\ j mod n <> n - 1;
  i_not : forall t, pc s t = Notify -> exists j, ticket (log s) t = Some j /\ n * (j / n + 1) <= arrivals (log s) /\ j mod n = n - 1;
  i_log : barrier_ok n (log s);
  i_pend : forall t c, pc s t = Sleep c -> c <> cycle s -> exists u, pc s u = Notify
}.

Lemma inv_init n : n <> 0 -> inv n (init n).
Proof.
  intros Hn. constructor; simpl; try (intros; congruence); auto; try lia.
  - rewrite Nat.div_0_l by auto. lia.
  - rewrite Nat.div_0_l by auto. auto.
  - intros t c [E|E]; discriminate.
Qed.

Lemma div_last n a q : n <> 0 -> a = n * q + (n - 1) -> S a / n = S q /\ a / n = q /\ a mod n = n - 1.
Proof.
  intros Hn E. splits.
  - symmetry. apply (Nat.div_unique _ _ _ 0); lia.
  - symmetry. apply (Nat.div_unique _ _ _ (n - 1)); lia.
  - symmetry. apply (Nat.mod_unique _ _ q); lia.
Qed.
Lemma div_mid n a q r : n <> 0 -> a = n * q + r -> r < n - 1 -> S a / n = q /\ a / n = q /\ a mod n = r.
Proof.
  intros Hn E L. splits.
  - symmetry. apply (Nat.div_unique _ _ _ (S r)); lia.
  - symmetry. apply (Nat.div_unique _ _ _ r); lia.
  - symmetry. apply (Nat.mod_unique _ _ q); lia.
Qed.

Lemma inv_step n s l s' : n <> 0 -> inv n s -> step n s l = Some s' -> inv n s'.
Proof.
  intros Hn [Cur Arr Cyc O Wt Nt Lg Pe] H. destruct l as [t|t|t|t]; simpl in H.
  - destruct (pc s t) eqn:P; try discriminate. pose proof (O _ P) as Tn.
    destruct (Nat.eqb_spec (current s - 1) 0) as [Z|Z]; injection H as <-.
    + assert (C1 : current s = 1) by lia.
      destruct (div_last n (arrivals (log s)) (arrivals (log s) / n) Hn) as (D1 & D2 & D3); [lia|].
      constructor; cbn [current cycle pc log arrivals ticket barrier_ok]; rewrite ?D1.
      * lia.
      * lia.
      * now rewrite Cyc, Nat.even_succ, Nat.negb_even.
      * intros u. upds; [discriminate|]. intros E. destruct (Nat.eqb_spec t u); [congruence|]. auto.
      * intros u c. upds; [intros [E|E]; discriminate|]. intros E. destruct (Nat.eqb_spec t u); [congruence|].
        destruct (Wt u c E) as (j & A & B & C & D). exists j. splits; auto.
      * intros u. upds.
        -- intros _. rewrite Nat.eqb_refl. eexists. splits; eauto. lia.
        -- intros E. destruct (Nat.eqb_spec t u); [congruence|]. destruct (Nt u E) as (j & A & B & C). exists j. splits; auto.
      * split; auto.
      * intros u c _ _. exists t. now rewrite upd_same.
    + destruct (div_mid n (arrivals (log s)) (arrivals (log s) / n) (n - current s) Hn) as (D1 & D2 & D3); [lia|lia|].
      constructor; cbn [current cycle pc log arrivals ticket barrier_ok]; rewrite ?D1.
      * lia.
      * lia.
      * exact Cyc.
      * intros u. upds; [discriminate|]. intros E. destruct (Nat.eqb_spec t u); [congruence|]. auto.
      * intros u c. upds.
        -- intros [E|E]; [|discriminate]. injection E as <-. rewrite Nat.eqb_refl. eexists. splits; eauto. lia.
        -- intros E. destruct (Nat.eqb_spec t u); [congruence|]. destruct (Wt u c E) as (j & A & B & C & D). exists j. splits; auto.
      * intros u. upds; [discriminate|].
        intros E. destruct (Nat.eqb_spec t u); [congruence|]. destruct (Nt u E) as (j & A & B & C). exists j. splits; auto.
      * split; auto.
      * intros u c. upds; [congruence|]. intros E E2. destruct (Pe u c E E2) as (v & V). exists v. rewrite upd_other; auto. congruence.
  - destruct (pc s t) eqn:P; try discriminate. injection H as <-.
    constructor; cbn [current cycle pc log arrivals ticket barrier_ok]; auto.
    + intros u. upds; [now rewrite Nat.eqb_refl|]. destruct (Nat.eqb_spec t u); [congruence|]. intros E. apply O. destruct (pc s u); simpl in E; congruence.
    + intros u c. upds; [intros [E|E]; discriminate|]. destruct (Nat.eqb_spec t u); [congruence|].
      intros E. apply Wt. unfold waits in *. destruct (pc s u); simpl in *; intuition congruence.
    + intros u. upds; [discriminate|]. destruct (Nat.eqb_spec t u); [congruence|]. intros E. apply Nt. destruct (pc s u); simpl in E; congruence.
    + split; auto. destruct (Nt t P) as (j & A & B & C). exists j. splits; auto. now rewrite C, Nat.eqb_refl.
    + intros u c. upds; [discriminate|]. destruct (pc s u); simpl; discriminate.
  - destruct (pc s t) eqn:P; try discriminate. injection H as <-.
    constructor; cbn [current cycle pc log arrivals ticket barrier_ok]; auto.
    + intros u. upds; [discriminate|]. auto.
    + intros u c'. upds; auto. intros E. apply Wt. rewrite P. unfold waits in *. intuition congruence.
    + intros u. upds; [discriminate|]. auto.
    + intros u c'. upds; [discriminate|]. intros E E2. destruct (Pe u c' E E2) as (v & V). exists v. rewrite upd_other; auto. congruence.
  - destruct (pc s t) eqn:P; try discriminate. destruct (eqb c (cycle s)) eqn:EC; injection H as <-.
    + apply eqb_prop in EC.
      constructor; cbn [current cycle pc log arrivals ticket barrier_ok]; auto.
      * intros u. upds; [discriminate|]. auto.
      * intros u c'. upds; auto. intros E. apply Wt. rewrite P. unfold waits in *. intuition congruence.
      * intros u. upds; [discriminate|]. auto.
      * intros u c'. upds; [congruence|]. intros E E2. destruct (Pe u c' E E2) as (v & V). exists v. rewrite upd_other; auto. congruence.
    + apply eqb_false_iff in EC. destruct (Wt t c) as (j & A & B & C & D); [now right|].
      assert (LT : j / n < arrivals (log s) / n).
      { assert (j / n <= arrivals (log s) / n) by (apply Nat.div_le_mono; lia). assert (j / n <> arrivals (log s) / n) by congruence. lia. }
      constructor; cbn [current cycle pc log arrivals ticket barrier_ok]; auto.
      * intros u. upds; [now rewrite Nat.eqb_refl|]. destruct (Nat.eqb_spec t u); [congruence|]. auto.
      * intros u c'. upds; [intros [E|E]; discriminate|]. destruct (Nat.eqb_spec t u); [congruence|]. auto.
      * intros u. upds; [discriminate|]. destruct (Nat.eqb_spec t u); [congruence|]. auto.
      * split; auto. exists j. splits; auto.
        -- pose proof (Nat.mul_le_mono_l (j / n + 1) (arrivals (log s) / n) n ltac:(lia)). lia.
        -- symmetry. now apply Nat.eqb_neq.
      * intros u c'. upds; [discriminate|]. intros E E2. destruct (Pe u c' E E2) as (v & V). exists v. rewrite upd_other; auto. congruence.
Qed.

Lemma inv_reachable n s : n <> 0 -> reachable (step n) (init n) s -> inv n s.
Proof.
  intros Hn R. revert s R. apply (reachable_inv (step n) (inv n)); [now apply inv_init|].
  intros s l s' I E. eapply inv_step; eauto.
Qed.

(** At most n threads. *)
Record inv2 (n : nat) (T : list nat) (s : st) : Prop := mkInv2 {
  j_in : forall t, pc s t <> Out -> In t T;
  j_cur : exists L, NoDup L /\ incl L T /\ length L = n - current s /\
    (forall t, In t L -> exists c, waits (pc s t) c) /\
    (forall t c j, waits (pc s t) c -> ticket (log s) t = Some j ->
       (In t L -> j / n = arrivals (log s) / n) /\ (~ In t L -> j / n + 1 = arrivals (log s) / n))
}.

Lemma inv2_init n T : inv2 n T (init n).
Proof.
  constructor; simpl; [congruence|]. exists []. splits; [constructor|easy|simpl; lia|easy|].
  intros t c j [E|E]; discriminate.
Qed.

Lemma inv2_step n T s l s' : n <> 0 -> length T <= n -> inv n s -> inv2 n T s -> In (thr l) T -> step n s l = Some s' -> inv2 n T s'.
Proof.
  intros Hn LT I [Ti (L & ND & Inc & Len & Lw & Lt)] IT H.
  destruct I as [Cur Arr Cyc O Wt Nt Lg Pe]. destruct l as [t|t|t|t]; simpl in H, IT.
  - destruct (pc s t) eqn:P; try discriminate. pose proof (O _ P) as Tn.
    assert (NI : ~ In t L). { intros F. destruct (Lw t F) as (c & [E|E]); congruence. }
    destruct (Nat.eqb_spec (current s - 1) 0) as [Z|Z]; injection H as <-.
    + assert (C1 : current s = 1) by lia.
      destruct (div_last n (arrivals (log s)) (arrivals (log s) / n) Hn) as (D1 & D2 & D3); [lia|].
      assert (All : incl T (t :: L)).
      { apply NoDup_length_incl; [now constructor|simpl; lia|]. intros x [<-|X]; auto. }
      constructor; cbn [current cycle pc log arrivals ticket barrier_ok]; rewrite ?D1.
      * intros u. upds; auto.
      * exists []. splits; [constructor|easy|simpl; lia|easy|].
        intros u c j. upds; [intros [E|E]; discriminate|]. intros E. destruct (Nat.eqb_spec t u); [congruence|]. intros Tk. split; [easy|]. intros _.
        assert (IU : In u T). { apply Ti. destruct E as [E|E]; rewrite E; discriminate. }
        destruct (All u IU) as [->|IL]; [congruence|]. destruct (Lt u c j E Tk) as (A & _). rewrite (A IL). lia.
    + destruct (div_mid n (arrivals (log s)) (arrivals (log s) / n) (n - current s) Hn) as (D1 & D2 & D3); [lia|lia|].
      constructor; cbn [current cycle pc log arrivals ticket barrier_ok]; rewrite ?D1.
      * intros u. upds; auto.
      * exists (t :: L). splits; [now constructor| |simpl; lia| |].
        -- intros x [<-|X]; auto.
        -- intros u [<-|U]; [rewrite upd_same; exists (cycle s); now left|]. rewrite upd_other by congruence. auto.
        -- intros u c j. upds.
           ++ intros _. rewrite Nat.eqb_refl. intros E. injection E as <-. split; auto. intros F. exfalso. apply F. now left.
           ++ intros E. destruct (Nat.eqb_spec t u); [congruence|]. intros Tk. destruct (Lt u c j E Tk) as (A & B). split.
              ** intros [->|X]; [congruence|auto].
              ** intros F. apply B. intros X. apply F. now right.
  - destruct (pc s t) eqn:P; try discriminate. injection H as <-.
    constructor; cbn [current cycle pc log arrivals ticket barrier_ok].
    + intros u. upds; [auto|]. intros E. apply Ti. destruct (pc s u); simpl in E; congruence.
    + exists L. splits; auto.
      * intros u U. destruct (Lw u U) as (c & E). assert (u <> t) by (unfold waits in E; intros ->; intuition congruence).
        upds. exists c. unfold waits in *. destruct (pc s u); simpl; intuition congruence.
      * intros u c j. upds; [intros [E|E]; discriminate|]. intros E. destruct (Nat.eqb_spec t u); [congruence|].
        apply (Lt u c j). unfold waits in *. destruct (pc s u); simpl in *; intuition congruence.
  - destruct (pc s t) eqn:P; try discriminate. injection H as <-.
    constructor; cbn [current cycle pc log arrivals ticket barrier_ok].
    + intros u. upds; auto.
    + exists L. splits; auto.
      * intros u U. destruct (Lw u U) as (d & E). upds; [exists c; now right|eauto].
      * intros u d j. upds; [|apply Lt]. intros E. apply (Lt t d j). rewrite P. unfold waits in *; intuition congruence.
  - destruct (pc s t) eqn:P; try discriminate. destruct (eqb c (cycle s)) eqn:EC; injection H as <-.
    + constructor; cbn [current cycle pc log arrivals ticket barrier_ok].
      * intros u. upds; auto.
      * exists L. splits; auto.
        -- intros u U. destruct (Lw u U) as (d & E). upds; [exists c; now left|eauto].
        -- intros u d j. upds; [|apply Lt]. intros E. apply (Lt t d j). rewrite P. unfold waits in *; intuition congruence.
    + apply eqb_false_iff in EC. destruct (Wt t c) as (j & A & B & C & D); [now right|].
      assert (NI : ~ In t L). { intros F. destruct (Lt t c j) as (X & _); auto; [now right|]. rewrite (X F) in C. congruence. }
      constructor; cbn [current cycle pc log arrivals ticket barrier_ok].
      * intros u. upds; auto.
      * exists L. splits; auto.
        -- intros u U. destruct (Lw u U) as (d & E). rewrite upd_other by congruence. eauto.
        -- intros u d k. upds; [intros [E|E]; discriminate|]. destruct (Nat.eqb_spec t u); [congruence|]. apply Lt.
Qed.

Lemma inv2_exec n T ls s : n <> 0 -> length T <= n -> Forall (fun l => In (thr l) T) ls -> exec (step n) (init n) ls = Some s -> inv2 n T s.
Proof.
  intros Hn LT F E. assert (G : forall ls s0, inv n s0 -> inv2 n T s0 -> Forall (fun l => In (thr l) T) ls -> exec (step n) s0 ls = Some s -> inv2 n T s).
  { clear ls F E. induction ls as [|l ls IH]; simpl; intros s0 I J F E; [congruence|].
    destruct (step n s0 l) as [s1|] eqn:E1; [|discriminate]. inversion F as [|? ? F1 F2]; subst.
    apply (IH s1); auto; [eapply inv_step; eauto|eapply inv2_step; eauto]. }
  apply (G ls (init n)); auto; [now apply inv_init|apply inv2_init].
Qed.
