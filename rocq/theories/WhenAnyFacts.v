(** Invariants for wait_first_...() and wait_all_...(). *)
From Coq Require Import List Arith Bool Lia Permutation.
From Verif Require Import Base WhenAny WhenAnySpec.
Import ListNotations.

Fixpoint pushes (l : list event) : list nat := match l with [] => [] | EPush i :: r => pushes r ++ [i] | _ :: r => pushes r end.
Fixpoint pops (l : list event) : list nat := match l with [] => [] | EPop i :: r => pops r ++ [i] | _ :: r => pops r end.
Fixpoint drops (l : list event) : list nat := match l with [] => [] | EDrop i :: r => drops r ++ [i] | _ :: r => drops r end.

Section M.
Context (k : kind) (n cap : nat) (ok : nat -> bool) (par : bool) (npos : 0 < n).
Definition fails (i : nat) : bool := negb (ok i).
Definition live (p : ppc) : bool := match p with PDone => false | _ => true end.
(** The number of fibers that have not ended. *)
Definition left_ (m : nat -> ppc) : nat := length (filter (fun i => live (m i)) (seq 0 n)).
Definition isrun (p : ppc) : bool := match p with PRun => true | _ => false end.
Definition isdec (p : ppc) : bool := match p with PDec | PDecW _ => true | _ => false end.

Definition cinv (s : st) : Prop :=
  match cons s with
  | CPop got => got = pops (log s) /\ (counted k = false -> closed s = false) /\
      match k with
      | FirstValue | FirstOutcome => got = []
      | FirstSuccess => length got < n /\ forall j, In j got -> ok j = false
      | UntilError => forall j, In j got -> ok j = true
      | _ => True end
  | CClose i => counted k = false /\ closed s = false /\ (exists got, pops (log s) = got ++ [i] /\
      match k with
      | FirstSuccess => ok i = true /\ forall j, In j got -> ok j = false
      | _ => got = [] end)
  | CDone => result (log s) /\ (counted k = false -> closed s = true \/ length (pops (log s)) = n) /\ pops (log s) <> [] /\ (counted k = true -> k <> UntilError -> closed s = true)
  end.
Record core (s : st) : Prop := {
  c_q : pushes (log s) = pops (log s) ++ chan s;
  c_nd : NoDup (pushes (log s));
  c_in : forall i, In i (pushes (log s)) -> i < n /\ (catches k || ok i = true) /\ In i (ends (log s)) /\ (isdec (prod s i) = true \/ prod s i = PDone);
  c_run : forall i, In i (ends (log s)) <-> i < n /\ isrun (prod s i) = false;
  c_out : forall i, n <= i -> prod s i = PRun;
  c_done : forall i, i < n -> prod s i = PDone -> In i (pushes (log s)) \/ (In i (drops (log s)) /\ closed s = true);
  c_dec : forall i, isdec (prod s i) = true -> In i (pushes (log s)) /\ counted k = true;
  c_cons : cinv s;
  c_lim : counted k = true -> left_ (prod s) <= limit s;
  c_lim2 : forall i v, prod s i = PDecW v -> left_ (prod s) <= v;
  c_cl : counted k = true -> closed s = true -> forall i, i < n -> prod s i = PDone;
  c_dr : counted k = true -> drops (log s) = [];
  c_ok : forall i, i < n -> prod s i <> PRun -> catches k || ok i = true;
  c_dr2 : closed s = false -> drops (log s) = []
}.

(** What the events of the result mean, given the order in which the functions have ended. *)
Definition means (es : list nat) (e : event) : Prop :=
  match e with
  | EReturn is =>
      if counted k then Permutation is (seq 0 n) /\ (forall i, i < n -> ok i = true)
      else exists i, is = [i] /\ ok i = true /\ In i es /\ i < n /\ (par = false -> 0 < cap -> k <> FirstSuccess -> hd_error es = Some i) /\ (par = false -> n <= cap -> k = FirstSuccess -> first_of ok es i)
  | EThrow is =>
      match k with
      | FirstValue | AllValues => False
      | FirstOutcome => exists i, is = [i] /\ ok i = false /\ In i es /\ i < n /\ (par = false -> 0 < cap -> hd_error es = Some i)
      | FirstSuccess => Permutation is (seq 0 n) /\ (forall i, i < n -> ok i = false)
      | UntilError => exists i, is = [i] /\ ok i = false /\ In i es /\ i < n /\ (par = false -> n <= cap -> first_of fails es i)
      | CollectErrors => is <> [] /\ Permutation is (filter fails (seq 0 n))
      end
  | EClosed => False
  | _ => True
  end.
Definition ordered (s : st) : Prop := par = false ->
  (forall i, isdec (prod s i) = false) /\ (counted k = true -> limit s = left_ (prod s)) /\ (counted k = true -> closed s = false -> 0 < left_ (prod s)) /\
  (0 < cap -> hd_error (pushes (log s)) = hd_error (ends (log s))) /\
  (n <= cap -> ends (log s) = pushes (log s) ++ drops (log s) /\ forall i, prod s i <> PPush).
Record inv (s : st) : Prop := {
  i_core : dead s = false -> core s;
  i_ord : dead s = false -> ordered s;
  i_res : forall e, In e (log s) -> means (ends (log s)) e
}.

Lemma first_of_app : forall p l x i, first_of p l i -> first_of p (l ++ x) i.
Proof. intros p l x i (a & b & -> & H1 & H2). exists a, (b ++ x). rewrite <- app_assoc. auto. Qed.
Lemma hd_app : forall (l x : list nat) i, hd_error l = Some i -> hd_error (l ++ x) = Some i.
Proof. intros [|a l] x i H; [discriminate|exact H]. Qed.
Lemma means_mono : forall es x e, means es e -> means (es ++ x) e.
Proof.
  intros es x e M. destruct e; auto; unfold means in *.
  - destruct (counted k); auto. destruct M as (i & H1 & H2 & H3 & H4 & H5 & H6). exists i. splits; auto using in_or_app, first_of_app, hd_app.
  - destruct k; auto; destruct M as (i & H1 & H2 & H3 & H4 & H5); exists i; splits; auto using in_or_app, first_of_app, hd_app.
Qed.

Lemma filter_ext_len : forall (f g : nat -> bool) l, (forall j, In j l -> f j = g j) -> length (filter f l) = length (filter g l).
Proof. induction l as [|a l IH]; simpl; intros H; auto. rewrite (H a) by auto. destruct (g a); simpl; rewrite IH; auto. Qed.
Lemma left_same : forall m i p, live p = live (m i) -> left_ (upd m i p) = left_ m.
Proof. intros m i p H. apply filter_ext_len. intros j _. destruct (Nat.eq_dec j i) as [->|N]; [now rewrite upd_same|now rewrite upd_other]. Qed.
Lemma left_le : forall m i p, (live p = true -> live (m i) = true) -> left_ (upd m i p) <= left_ m.
Proof.
  intros m i p H. unfold left_. induction (seq 0 n) as [|a l IH]; simpl; auto.
  destruct (Nat.eq_dec a i) as [->|N].
  - rewrite upd_same. destruct (live p); [rewrite (H eq_refl); simpl; lia|destruct (live (m i)); simpl; lia].
  - rewrite upd_other by auto. destruct (live (m a)); simpl; lia.
Qed.
Lemma left_done : forall m i, i < n -> live (m i) = true -> S (left_ (upd m i PDone)) = left_ m.
Proof.
  intros m i Hi Hl. unfold left_. assert (X : In i (seq 0 n)) by (apply in_seq; lia). pose proof (seq_NoDup n 0) as ND.
  induction (seq 0 n) as [|a l IH]; [destruct X|]. simpl. inversion ND as [|? ? Na ND']; subst. destruct (Nat.eq_dec a i) as [->|N].
  - rewrite upd_same, Hl. simpl. f_equal. apply filter_ext_len. intros j Hj. rewrite upd_other; auto. intros ->. auto.
  - rewrite upd_other by auto. destruct X as [X|X]; [congruence|]. destruct (live (m a)); simpl; rewrite <- IH; auto.
Qed.
Lemma left_zero : forall m, left_ m = 0 -> forall i, i < n -> m i = PDone.
Proof.
  intros m H i Hi. destruct (live (m i)) eqn:L; [|destruct (m i); try discriminate; auto]. exfalso.
  assert (X : In i (filter (fun i => live (m i)) (seq 0 n))) by (apply filter_In; split; auto; apply in_seq; lia).
  unfold left_ in H. destruct (filter _ _); [destruct X|discriminate].
Qed.
Lemma left_pos : forall m i, i < n -> live (m i) = true -> 0 < left_ m.
Proof. intros m i Hi L. destruct (left_ m) eqn:E; [|lia]. pose proof (left_zero m E i Hi) as X. rewrite X in L. discriminate. Qed.
Lemma nodup_seq : forall l, NoDup l -> (forall i, In i l -> i < n) -> length l <= n.
Proof. intros l ND H. replace n with (length (seq 0 n)) by apply seq_length. apply NoDup_incl_length; auto. intros i X. apply in_seq. specialize (H i X). lia. Qed.
Lemma perm_seq : forall l, NoDup l -> (forall i, In i l -> i < n) -> n <= length l -> Permutation l (seq 0 n).
Proof.
  intros l ND H L. apply NoDup_Permutation_bis; auto; [rewrite seq_length; auto|]. intros i X. apply in_seq. specialize (H i X). lia.
Qed.
Lemma in_ends_app : forall es l i, In i (ends l) -> In i (ends (es ++ l)).
Proof. induction es as [|[] es IH]; simpl; intros l j H; auto. apply in_or_app. auto. Qed.

Lemma core_init : core (init_state n).
Proof.
  assert (L : left_ (fun _ => PRun) <= n).
  { unfold left_. assert (X : forall l : list nat, length (filter (fun _ => live PRun) l) <= length l) by (induction l; simpl in *; lia). specialize (X (seq 0 n)). rewrite seq_length in X. exact X. }
  split; cbn [log prod chan closed limit cons init_state pushes pops drops ends]; auto; try discriminate; try (intros; simpl in *; discriminate); try (simpl; tauto).
  - constructor.
  - intros i. simpl. split; [tauto|intros (? & ?); discriminate].
  - unfold cinv. simpl. splits; auto. destruct k; auto; simpl; splits; auto; tauto.
Qed.

Ltac fin j i := destruct (Nat.eq_dec j i) as [->|?]; [rewrite ?upd_same in *|rewrite ?upd_other in * by auto].
Lemma core_end : forall s i, core s -> i < n -> prod s i = PRun -> catches k || ok i = true ->
  core (mkSt (upd (prod s) i PPush) (cons s) (chan s) (closed s) (limit s) (dead s) (EEnd i :: log s)).
Proof.
  intros s i C Hi Hp Ho. destruct C. assert (L : left_ (upd (prod s) i PPush) = left_ (prod s)) by (apply left_same; now rewrite Hp).
  split; cbn [prod cons chan closed limit dead log pushes pops drops ends]; rewrite ?L; auto.
  - intros j X. destruct (c_in0 j X) as (A & B & D & E). splits; auto; [apply in_or_app; auto|]. fin j i; auto. rewrite Hp in E. destruct E; discriminate.
  - intros j. rewrite in_app_iff, c_run0. simpl. fin j i; [tauto|]. split; [intros [?|[?|[]]]; auto; congruence|tauto].
  - intros j Hj. fin j i; auto. lia.
  - intros j Hj. fin j i; [discriminate|auto].
  - intros j. fin j i; [discriminate|auto].
  - unfold cinv in *. cbn [prod cons chan closed limit dead log pops]. destruct (cons s); auto. destruct c_cons0 as ((is & R) & H). split; auto. exists is. simpl. tauto.
  - intros j v. fin j i; [discriminate|auto].
    intros; eauto.
  - intros H1 H2 j Hj. fin j i; auto. rewrite (c_cl0 H1 H2 i Hi) in Hp. discriminate.
  - intros j Hj. fin j i; auto.
Qed.

Lemma core_drop : forall s i, core s -> i < n -> prod s i = PPush -> closed s = true ->
  core (mkSt (upd (prod s) i PDone) (cons s) (chan s) (closed s) (limit s) (dead s) (EDrop i :: log s)).
Proof.
  intros s i C Hi Hp Hc. destruct C. assert (L : left_ (upd (prod s) i PDone) <= left_ (prod s)) by (apply left_le; discriminate).
  assert (K : counted k = false). { destruct (counted k) eqn:K; auto. rewrite (c_cl0 eq_refl Hc i Hi) in Hp. discriminate. }
  split; cbn [prod cons chan closed limit dead log pushes pops drops ends]; auto; try congruence.
  - intros j X. destruct (c_in0 j X) as (A & B & D & E). splits; auto. fin j i; auto.
  - intros j. rewrite c_run0. fin j i; [rewrite Hp|]; tauto.
  - intros j Hj. fin j i; auto. lia.
  - intros j Hj. fin j i; intros X.
    + right. split; auto. apply in_or_app. simpl. auto.
    + destruct (c_done0 j Hj X) as [|(D & E)]; auto. right. split; auto. apply in_or_app. auto.
  - intros j. fin j i; [discriminate|auto].
  - unfold cinv in *. cbn [prod cons chan closed limit dead log pops]. destruct (cons s); auto. destruct c_cons0 as ((is & R) & H). split; auto. exists is. simpl. tauto.
  - intros j v. fin j i; [discriminate|]. intros X. specialize (c_lim3 j v X). lia.
  - intros j Hj. fin j i; auto. intros _. apply c_ok0; auto. rewrite Hp. discriminate.
Qed.

Lemma core_push : forall s i, core s -> i < n -> prod s i = PPush -> closed s = false ->
  core (mkSt (upd (prod s) i (if counted k then PDec else PDone)) (cons s) (chan s ++ [i]) (closed s) (limit s) (dead s) (EPush i :: log s)).
Proof.
  intros s i C Hi Hp Hc. destruct C.
  assert (L : left_ (upd (prod s) i (if counted k then PDec else PDone)) <= left_ (prod s)) by (apply left_le; rewrite Hp; auto).
  assert (NI : ~ In i (pushes (log s))). { intros X. destruct (c_in0 i X) as (_ & _ & _ & E). rewrite Hp in E. destruct E; discriminate. }
  assert (Ho : catches k || ok i = true) by (apply c_ok0; auto; rewrite Hp; discriminate).
  split; cbn [prod cons chan closed limit dead log pushes pops drops ends]; auto; try congruence.
  - rewrite c_q0. now rewrite app_assoc.
  - apply (NoDup_Add (a:=i) (l:=pushes (log s))); auto. rewrite <- (app_nil_r (pushes (log s))) at 1. apply Add_app.
  - intros j X. apply in_app_or in X. destruct X as [X|[<-|[]]].
    + destruct (c_in0 j X) as (A & B & D & E). splits; auto. fin j i; auto.
    + splits; auto. { apply c_run0. rewrite Hp. auto. } rewrite upd_same. destruct (counted k); auto.
  - intros j. rewrite c_run0. fin j i; [rewrite Hp; destruct (counted k)|]; simpl; tauto.
  - intros j Hj. fin j i; auto. lia.
  - intros j Hj. fin j i; intros X.
    + left. apply in_or_app. simpl. auto.
    + destruct (c_done0 j Hj X) as [D|(D & E)]; [left; apply in_or_app; auto|auto].
  - intros j. fin j i.
    + destruct (counted k); [|discriminate]. intros _. split; auto. apply in_or_app. simpl. auto.
    + intros X. destruct (c_dec0 j X). split; auto. apply in_or_app. auto.
  - unfold cinv in *. cbn [prod cons chan closed limit dead log pops]. destruct (cons s); auto. destruct c_cons0 as ((is & R) & H). split; auto. exists is. simpl. tauto.
  - intros H. specialize (c_lim0 H). lia.
  - intros j v. fin j i; [destruct (counted k); discriminate|]. intros X. specialize (c_lim3 j v X). lia.
  - intros j Hj. fin j i; auto.
Qed.

Lemma core_dec : forall s i v, core s -> isdec (prod s i) = true -> left_ (prod s) <= v ->
  core (dec (mkSt (prod s) (cons s) (chan s) (closed s) v (dead s) (log s)) i).
Proof.
  intros s i v C Hd Hv. destruct C. destruct (c_dec0 i Hd) as (Ip & K). destruct (c_in0 i Ip) as (Hi & Ho & Ie & _).
  assert (LV : live (prod s i) = true) by (destruct (prod s i); try discriminate; auto).
  pose proof (left_done (prod s) i Hi LV) as L.
  assert (LG : forall x, pushes ((if Nat.eqb (pred v) 0 then [EClose] else []) ++ x) = pushes x /\ pops ((if Nat.eqb (pred v) 0 then [EClose] else []) ++ x) = pops x /\ drops ((if Nat.eqb (pred v) 0 then [EClose] else []) ++ x) = drops x /\ ends ((if Nat.eqb (pred v) 0 then [EClose] else []) ++ x) = ends x) by (intros x; destruct (Nat.eqb (pred v) 0); auto).
  destruct (LG (log s)) as (G1 & G2 & G3 & G4). clear LG.
  unfold dec. cbn [prod cons chan closed limit dead log]. split; cbn [prod cons chan closed limit dead log]; rewrite ?G1, ?G2, ?G3, ?G4; auto; try congruence.
  - intros j X. destruct (c_in0 j X) as (A & B & D & E). splits; auto. fin j i; auto.
  - intros j. rewrite c_run0. fin j i; [destruct (prod s i); try discriminate|]; simpl; tauto.
  - intros j Hj. fin j i; auto. lia.
  - intros j Hj. fin j i; intros X; auto. destruct (c_done0 j Hj X) as [D|(D & E)]; auto. rewrite E. auto.
  - intros j. fin j i; [discriminate|auto].
  - unfold cinv in *. cbn [prod cons chan closed limit dead log]. rewrite G2, K in *. destruct (cons s).
    + destruct c_cons0 as (A & B & D). splits; auto. discriminate.
    + destruct c_cons0 as (A & _). discriminate.
    + destruct c_cons0 as ((is & R) & B & D & F). splits; auto; [|discriminate|intros _ G; now rewrite (F eq_refl G)]. exists is. rewrite !in_app_iff. tauto.
  - intros _. lia.
  - intros j w. fin j i; [discriminate|]. intros X. specialize (c_lim3 j w X). lia.
  - intros _ Cl. destruct (Nat.eqb_spec (pred v) 0) as [Z|Z].
    + intros j Hj. apply left_zero; auto. lia.
    + rewrite orb_false_r in Cl. intros j Hj. fin j i; auto.
  - intros j Hj. fin j i; auto.
Qed.

Lemma core_decr : forall s i, core s -> prod s i = PDec ->
  core (mkSt (upd (prod s) i (PDecW (limit s))) (cons s) (chan s) (closed s) (limit s) (dead s) (log s)).
Proof.
  intros s i C Hp. destruct C. assert (Hd : isdec (prod s i) = true) by now rewrite Hp. destruct (c_dec0 i Hd) as (Ip & K). destruct (c_in0 i Ip) as (Hi & Ho & Ie & _).
  assert (L : left_ (upd (prod s) i (PDecW (limit s))) = left_ (prod s)) by (apply left_same; now rewrite Hp).
  split; cbn [prod cons chan closed limit dead log]; rewrite ?L; auto; try congruence.
  - intros j X. destruct (c_in0 j X) as (A & B & D & E). splits; auto. fin j i; auto.
  - intros j. rewrite c_run0. fin j i; [rewrite Hp|]; simpl; tauto.
  - intros j Hj. fin j i; auto. lia.
  - intros j Hj. fin j i; intros X; auto.
  - intros j. fin j i; auto.
  - intros j w. fin j i; eauto. intros X. injection X as <-. auto.
  - intros H1 H2 j Hj. fin j i; auto. rewrite (c_cl0 H1 H2 i Hi) in Hp. discriminate.
  - intros j Hj. fin j i; auto.
Qed.

Lemma core_cput : forall s c q cl es, core s -> pushes (es ++ log s) = pushes (log s) -> ends (es ++ log s) = ends (log s) -> drops (es ++ log s) = drops (log s) ->
  pushes (log s) = pops (es ++ log s) ++ q -> (closed s = true -> cl = true) -> (counted k = true -> cl = closed s) ->
  cinv (mkSt (prod s) c q cl (limit s) (dead s) (es ++ log s)) -> core (mkSt (prod s) c q cl (limit s) (dead s) (es ++ log s)).
Proof.
  intros s c q cl es C G1 G2 G3 G4 Hc Hk Hi. destruct C. split; cbn [prod cons chan closed limit dead log]; rewrite ?G1, ?G2, ?G3; auto.
  - intros j Hj X. destruct (c_done0 j Hj X) as [D|(D & E)]; auto.
  - intros K Cl. rewrite (Hk K) in Cl. auto.
  - intros Cl. destruct (closed s) eqn:X; auto. rewrite (Hc eq_refl) in Cl. discriminate.
Qed.
Lemma all_done : forall s, core s -> counted k = true -> closed s = true -> Permutation (pushes (log s)) (seq 0 n).
Proof.
  intros s C K Cl. destruct C. apply NoDup_Permutation; auto using seq_NoDup. intros i. rewrite in_seq. split.
  - intros X. destruct (c_in0 i X). lia.
  - intros (_ & Hi). simpl in Hi. destruct (c_done0 i Hi (c_cl0 K Cl i Hi)) as [|(D & _)]; auto. rewrite (c_dr0 K) in D. destruct D.
Qed.
Lemma core_cons : forall s s', core s -> dead s = false -> step k n cap ok par s Cons = Some s' -> core s'.
Proof.
  intros s s' C Hd E. unfold step in E. rewrite Hd in E. pose proof (c_cons s C) as Ci. pose proof (c_q s C) as Q. unfold cinv in Ci.
  destruct (cons s) as [got|i|] eqn:Cn; [|injection E as <-|discriminate].
  - destruct Ci as (Hg & Ho & Hk). destruct (chan s) as [|i q] eqn:Ch.
    + destruct (closed s) eqn:Cl; [|discriminate]. injection E as <-.
      assert (K : counted k = true) by (destruct (counted k); auto; specialize (Ho eq_refl); discriminate).
      pose proof (all_done s C K Cl) as P. rewrite app_nil_r in Q.
      assert (X : forall x, pushes (finish k ok got :: x) = pushes x /\ ends (finish k ok got :: x) = ends x /\ drops (finish k ok got :: x) = drops x /\ pops (finish k ok got :: x) = pops x).
      { intros x. unfold finish. destruct k; auto. destruct (filter _ got); auto. }
      destruct (X (log s)) as (X1 & X2 & X3 & X4).
      unfold cput. rewrite Cl. apply core_cput; auto; cbn [app]; rewrite ?X1, ?X2, ?X3, ?X4, ?app_nil_r; auto.
      unfold cinv. cbn [cons log]. rewrite X4, K. splits; try discriminate.
      * unfold result. unfold finish. destruct k; try discriminate K; [exists got; simpl; auto|exists got; simpl; auto|]. destruct (filter _ got) eqn:F; eexists; simpl; eauto.
      * intros Z. rewrite Q, Z in P. apply Permutation_nil in P. destruct n; [lia|discriminate].
      * auto.
    + injection E as <-.
      assert (A : pops ([EPop i] ++ log s) = got ++ [i]) by (simpl; now rewrite Hg).
      assert (B : forall e, (match e with EThrow _ => True | _ => False end) -> pops ([e; EPop i] ++ log s) = got ++ [i]) by (intros []; simpl; intros []; now rewrite Hg).
      assert (P1 : forall c, cinv (mkSt (prod s) c q (closed s) (limit s) (dead s) ([EPop i] ++ log s)) -> core (cput s c q [EPop i])).
      { intros c H. apply core_cput; auto. rewrite A, Q, Hg. now rewrite <- app_assoc. }
      assert (P2 : forall c x, cinv (mkSt (prod s) c q (closed s) (limit s) (dead s) ([EThrow x; EPop i] ++ log s)) -> core (cput s c q [EThrow x; EPop i])).
      { intros c x H. apply core_cput; auto. rewrite B, Q, Hg by auto. now rewrite <- app_assoc. }
      assert (RS : forall x, result ([EThrow x; EPop i] ++ log s)) by (intros x; exists x; simpl; auto).
      unfold take. destruct k eqn:K.
      * apply P1. unfold cinv. rewrite K. cbn [cons log closed]. rewrite A. splits; auto. exists []. rewrite Hk. auto.
      * apply P1. unfold cinv. rewrite K. cbn [cons log closed]. rewrite A. splits; auto. exists []. rewrite Hk. auto.
      * destruct Hk as (Hl & Hf). destruct (ok i) eqn:O; [|destruct (Nat.ltb_spec (S (length got)) n)].
        -- apply P1. unfold cinv. rewrite K. cbn [cons log closed]. rewrite A. splits; auto. exists got. auto.
        -- apply P1. unfold cinv. rewrite K. cbn [cons log closed]. rewrite A. splits; auto; [rewrite app_length; simpl; lia|]. intros j X. apply in_app_or in X. destruct X as [X|[<-|[]]]; auto.
        -- apply P2. unfold cinv. rewrite K. cbn [cons log closed]. rewrite B by auto. splits; auto; [|destruct got; discriminate|discriminate]. intros _. right. rewrite app_length. simpl. lia.
      * apply P1. unfold cinv. rewrite K. cbn [cons log closed]. rewrite A. splits; auto.
      * destruct (ok i) eqn:O.
        -- apply P1. unfold cinv. rewrite K. cbn [cons log closed]. rewrite A. splits; auto. intros j X. apply in_app_or in X. destruct X as [X|[<-|[]]]; auto.
        -- apply P2. unfold cinv. rewrite K. cbn [cons log closed]. rewrite B by auto. splits; auto; try discriminate; try congruence; destruct got; discriminate.
      * apply P1. unfold cinv. rewrite K. cbn [cons log closed]. rewrite A. splits; auto.
  - destruct Ci as (K & Cl & got & Hp & Hk). change ((if ok i then EReturn [i] else EThrow [i]) :: EClose :: log s) with ([if ok i then EReturn [i] else EThrow [i]; EClose] ++ log s).
    rewrite <- Hd. apply core_cput; auto; try (destruct (ok i); simpl; auto; fail); [congruence|].
    unfold cinv. cbn [cons log closed]. rewrite K. splits; auto; try discriminate.
    + exists [i]. destruct (ok i); simpl; auto.
    + replace (pops _) with (pops (log s)) by (destruct (ok i); auto). rewrite Hp. destruct got; discriminate.
Qed.

Lemma push_core : forall s i s', core s -> i < n -> prod s i = PPush -> push k cap par s i = Some s' -> core s'.
Proof.
  intros s i s' C Hi Hp E. unfold push in E. destruct (closed s) eqn:Cl.
  - injection E as <-. rewrite <- Cl. apply core_drop; auto.
  - destruct (length (chan s) <? cap); [|discriminate]. injection E as <-. pose proof (core_push s i C Hi Hp Cl) as C'. rewrite Cl in C'.
    destruct (counted k) eqn:K; cbn [andb]; auto. destruct par; cbn [negb]; auto.
    change (core (dec (mkSt (prod (mkSt (upd (prod s) i PDec) (cons s) (chan s ++ [i]) false (limit s) (dead s) (EPush i :: log s))) (cons s) (chan s ++ [i]) false (limit s) (dead s) (EPush i :: log s)) i)).
    apply (core_dec (mkSt (upd (prod s) i PDec) (cons s) (chan s ++ [i]) false (limit s) (dead s) (EPush i :: log s))); auto; cbn [prod].
    + now rewrite upd_same.
    + exact (c_lim _ C' K).
Qed.

Definition limits (s : st) : Prop := counted k = true -> limit s = left_ (prod s) /\ (closed s = false -> 0 < left_ (prod s)).
Lemma push_facts : forall s i s', par = false -> core s -> i < n -> prod s i = PPush -> limits s -> push k cap par s i = Some s' ->
  limits s' /\ prod s' i = PDone /\ (forall j, j <> i -> prod s' j = prod s j) /\ ends (log s') = ends (log s) /\ dead s' = dead s /\
  ((closed s = true /\ pushes (log s') = pushes (log s) /\ drops (log s') = drops (log s) ++ [i]) \/
   (closed s = false /\ length (chan s) < cap /\ pushes (log s') = pushes (log s) ++ [i] /\ drops (log s') = drops (log s))).
Proof.
  intros s i s' Hpar C Hi Hp L E. unfold push in E. rewrite Hpar in E. cbn [negb] in E. rewrite andb_true_r in E. destruct (closed s) eqn:Cl.
  - injection E as <-. cbn [prod log dead closed limit ends pushes drops]. splits; auto using upd_same, upd_other.
    intros K. rewrite (c_cl s C K Cl i Hi) in Hp. discriminate.
  - destruct (Nat.ltb_spec (length (chan s)) cap); [|discriminate]. injection E as <-. destruct (counted k) eqn:K.
    + unfold dec. cbn [prod log dead closed limit chan].
      set (m := upd (prod s) i PDec). assert (Lm : left_ m = left_ (prod s)) by (apply left_same; now rewrite Hp).
      assert (Ld : S (left_ (upd m i PDone)) = left_ m) by (apply left_done; auto; unfold m; now rewrite upd_same).
      destruct (L K) as (L1 & L2). splits; auto using upd_same.
      * intros _. cbn [limit prod closed]. split; [lia|]. destruct (Nat.eqb_spec (pred (limit s)) 0); [discriminate|]. intros _. lia.
      * intros j N. unfold m. now rewrite !upd_other.
      * destruct (Nat.eqb (pred (limit s)) 0); auto.
      * right. splits; auto; destruct (Nat.eqb (pred (limit s)) 0); auto.
    + cbn [prod log dead closed limit ends pushes drops]. splits; auto using upd_same, upd_other. intros X. congruence.
Qed.

Lemma hd_snoc : forall (a b : list nat) i, hd_error a = hd_error b -> hd_error (a ++ [i]) = hd_error (b ++ [i]).
Proof. intros [|x a] [|y b] i H; simpl in *; congruence. Qed.
Lemma hd_ne : forall (a b : list nat) x y, hd_error a = hd_error b -> a <> [] -> hd_error (a ++ x) = hd_error (b ++ y).
Proof. intros [|u a] [|v b] x y H N; simpl in *; congruence. Qed.
Lemma closed_pushed : forall s, core s -> closed s = true -> pushes (log s) <> [].
Proof.
  intros s C Cl X. destruct (counted k) eqn:K.
  - pose proof (all_done s C K Cl) as P. rewrite X in P. apply Permutation_nil in P. destruct n; [lia|discriminate].
  - pose proof (c_cons s C) as I. unfold cinv in I. rewrite (c_q s C) in X. apply app_eq_nil in X. destruct X as (X & _). destruct (cons s).
    + destruct I as (_ & I & _). rewrite (I K) in Cl. discriminate.
    + destruct I as (_ & I & _). congruence.
    + destruct I as (_ & _ & I & _). congruence.
Qed.
Lemma fresh_room : forall s i, core s -> i < n -> ~ In i (pushes (log s)) -> length (chan s) < n.
Proof.
  intros s i C Hi N. assert (L : length (i :: pushes (log s)) <= n).
  { apply nodup_seq; [constructor; auto; apply (c_nd s C)|]. intros j [<-|X]; auto. apply (c_in s C j X). }
  simpl in L. rewrite (c_q s C), app_length in L. lia.
Qed.

Lemma core_step : forall s l s', core s -> dead s = false -> step k n cap ok par s l = Some s' -> dead s' = false -> core s'.
Proof.
  intros s l s' C Hd E Hd'. destruct l as [i|i|i|i|]; [| | | |eapply core_cons; eauto]; unfold step in E; rewrite Hd in E.
  - destruct (Nat.ltb_spec i n) as [Hi|]; [|discriminate]. destruct (prod s i) eqn:P; try discriminate. injection E as <-.
    unfold ended in *. destruct (catches k || ok i) eqn:O; [|discriminate]. pose proof (core_end s i C Hi P O) as C'. destruct par eqn:Hp; auto.
    destruct (push k cap false _ i) eqn:Q; auto. rewrite <- Hp in Q. eapply push_core; eauto. cbn [prod]. now rewrite upd_same.
  - destruct (Nat.ltb_spec i n) as [Hi|]; [|discriminate]. destruct (prod s i) eqn:P; try discriminate. eapply push_core; eauto.
  - destruct (prod s i) eqn:P; try discriminate. injection E as <-. rewrite <- Hd. apply core_decr; auto.
  - destruct (prod s i) eqn:P; try discriminate. injection E as <-. rewrite <- Hd. apply core_dec; auto; [now rewrite P|]. apply (c_lim2 s C i v P).
Qed.

Lemma ord_cons : forall s s', core s -> dead s = false -> ordered s -> step k n cap ok par s Cons = Some s' -> ordered s'.
Proof.
  intros s s' C Hd O E Hp. destruct (O Hp) as (O1 & O2 & O3 & O4 & O5).
  assert (X : prod s' = prod s /\ limit s' = limit s /\ (counted k = true -> closed s' = closed s) /\ pushes (log s') = pushes (log s) /\ ends (log s') = ends (log s) /\ drops (log s') = drops (log s)).
  { unfold step in E. rewrite Hd in E. pose proof (c_cons s C) as Ci. unfold cinv in Ci. destruct (cons s) as [got|i|] eqn:Cn; [|injection E as <-|discriminate].
    - destruct (chan s) as [|i q].
      + destruct (closed s) eqn:Cl; [|discriminate]. injection E as <-. unfold cput. cbn. splits; auto; unfold finish; destruct k; auto; destruct (filter _ got); auto.
      + injection E as <-. unfold take. destruct k; try destruct (ok i); try destruct (S (length got) <? n); cbn; splits; auto.
    - destruct Ci as (K & _). cbn. splits; auto; try congruence; destruct (ok i); auto. }
  destruct X as (X1 & X2 & X3 & X4 & X5 & X6). rewrite X1, X2, X4, X5, X6. splits; auto. intros K. rewrite (X3 K). auto.
Qed.
Lemma ord_step : forall s l s', core s -> dead s = false -> ordered s -> step k n cap ok par s l = Some s' -> dead s' = false -> ordered s'.
Proof.
  intros s l s' C Hd O E Hd'. destruct l as [i|i|i|i|]; [| | | |eapply ord_cons; eauto]; unfold step in E; rewrite Hd in E; intros Hp; destruct (O Hp) as (O1 & O2 & O3 & O4 & O5).
  - destruct (Nat.ltb_spec i n) as [Hi|]; [|discriminate]. destruct (prod s i) eqn:P; try discriminate. injection E as <-.
    assert (NI : ~ In i (pushes (log s))). { intros X. destruct (c_in s C i X) as (_ & _ & _ & [Y|Y]); rewrite P in Y; discriminate. }
    pose proof (fresh_room s i C Hi NI) as RM.
    unfold ended in *. destruct (catches k || ok i) eqn:OK; [|discriminate]. pose proof (core_end s i C Hi P OK) as C'.
    rewrite Hp in *. destruct (push k cap false _ i) as [s2|] eqn:Q.
    + assert (L : limits (mkSt (upd (prod s) i PPush) (cons s) (chan s) (closed s) (limit s) (dead s) (EEnd i :: log s))).
      { intros K. cbn [limit prod closed]. rewrite left_same by now rewrite P. auto. }
      rewrite <- Hp in Q. apply push_facts in Q; auto; [|cbn [prod]; apply upd_same]. cbn [prod log chan closed ends pushes drops] in Q.
      destruct Q as (F1 & F2 & F3 & F4 & _ & F5). rewrite F4. splits.
      * intros j. fin j i; [now rewrite F2|]. rewrite F3 by auto. rewrite upd_other; auto.
      * intros K. apply (F1 K).
      * intros K. apply (F1 K).
      * intros Cp. specialize (O4 Cp). destruct F5 as [(Cl & F5 & F6)|(Cl & F5 & F6 & F7)]; [rewrite F5|rewrite F6; now apply hd_snoc].
        rewrite <- (app_nil_r (pushes (log s))). apply hd_ne; auto. apply closed_pushed; auto.
      * intros Cp. destruct (O5 Cp) as (O6 & O7). split.
        -- destruct F5 as [(Cl & F5 & F6)|(Cl & F5 & F6 & F7)]; [rewrite F5, F6, O6; now rewrite app_assoc|rewrite F6, F7, O6, (c_dr2 s C Cl); now rewrite !app_nil_r].
        -- intros j. destruct (Nat.eq_dec j i) as [->|N]; [rewrite F2; discriminate|]. rewrite F3, upd_other by auto. auto.
    + unfold push in Q. cbn [closed chan] in Q. destruct (closed s) eqn:Cl; [discriminate|]. destruct (Nat.ltb_spec (length (chan s)) cap); [discriminate|].
      cbn [prod log limit closed ends pushes drops]. rewrite left_same by now rewrite P. splits; auto.
      * intros j. fin j i; auto.
      * intros Cp. specialize (O4 Cp). rewrite <- (app_nil_r (pushes (log s))). apply hd_ne; auto. rewrite (c_q s C). destruct (chan s); [simpl in *; lia|]. destruct (pops (log s)); discriminate.
      * intros Cp. lia.
  - destruct (Nat.ltb_spec i n) as [Hi|]; [|discriminate]. destruct (prod s i) eqn:P; try discriminate.
    apply push_facts in E; auto; [|intros K; auto]. destruct E as (F1 & F2 & F3 & F4 & _ & F5). rewrite F4. splits.
    + intros j. destruct (Nat.eq_dec j i) as [->|N]; [now rewrite F2|]. rewrite F3; auto.
    + intros K. apply (F1 K).
    + intros K. apply (F1 K).
    + intros Cp. specialize (O4 Cp). destruct F5 as [(Cl & F5 & F6)|(Cl & F5 & F6 & F7)]; [rewrite F5; auto|rewrite F6].
      assert (Ie : In i (ends (log s))) by (apply (c_run s C); rewrite P; auto).
      rewrite <- (app_nil_r (ends (log s))). apply hd_ne; auto. intros X. rewrite X in O4. destruct (ends (log s)); [destruct Ie|discriminate].
    + intros Cp. destruct (O5 Cp) as (_ & O7). destruct (O7 i P).
  - specialize (O1 i). destruct (prod s i); discriminate.
  - specialize (O1 i). destruct (prod s i); discriminate.
Qed.

Lemma ends_app : forall es l, exists x, ends (es ++ l) = ends l ++ x.
Proof. induction es as [|[] es IH]; simpl; intros l; try apply IH; [exists []; now rewrite app_nil_r|]. destruct (IH l) as (x & ->). exists (x ++ [i]). now rewrite app_assoc. Qed.
Definition quiet (e : event) : Prop := match e with EReturn _ | EThrow _ | EClosed => False | _ => True end.
Lemma res_app : forall es l, (forall e, In e l -> means (ends l) e) -> (forall e, In e es -> means (ends (es ++ l)) e) -> forall e, In e (es ++ l) -> means (ends (es ++ l)) e.
Proof. intros es l H1 H2 e X. apply in_app_or in X. destruct X as [X|X]; auto. destruct (ends_app es l) as (x & ->). apply means_mono. auto. Qed.
Lemma res_quiet : forall es l, (forall e, In e l -> means (ends l) e) -> Forall quiet es -> forall e, In e (es ++ l) -> means (ends (es ++ l)) e.
Proof. intros es l H1 H2. apply res_app; auto. intros e X. rewrite Forall_forall in H2. specialize (H2 e X). destruct e; simpl in *; tauto. Qed.
Lemma push_log : forall s i s', push k cap par s i = Some s' -> exists es, log s' = es ++ log s /\ Forall quiet es.
Proof.
  intros s i s' E. unfold push in E. destruct (closed s); [injection E as <-; exists [EDrop i]; split; auto; repeat constructor|].
  destruct (length (chan s) <? cap); [|discriminate]. injection E as <-. destruct (counted k && negb par); [|exists [EPush i]; split; auto; repeat constructor].
  unfold dec. cbn [log limit]. destruct (Nat.eqb (pred (limit s)) 0); [exists [EClose; EPush i]|exists [EPush i]]; split; auto; repeat constructor.
Qed.
Lemma perm_filter : forall (f : nat -> bool) a b, Permutation a b -> Permutation (filter f a) (filter f b).
Proof.
  intros f a b P. induction P; simpl; auto.
  - destruct (f x); auto.
  - destruct (f x), (f y); auto. apply perm_swap.
  - eapply perm_trans; eauto.
Qed.
Lemma nd_pre : forall a b : list nat, NoDup (a ++ b) -> NoDup a.
Proof. induction a as [|x a IH]; simpl; intros b H; constructor; inversion H; subst; eauto. intros X. match goal with N : ~ In _ _ |- _ => apply N end. apply in_or_app. auto. Qed.
Lemma pushed_ok : forall s, core s -> (forall j, In j (pushes (log s)) -> j < n /\ In j (ends (log s))).
Proof. intros s C j X. destruct (c_in s C j X) as (A & _ & B & _). auto. Qed.

Lemma res_cons : forall s s', core s -> dead s = false -> ordered s -> (forall e, In e (log s) -> means (ends (log s)) e) -> step k n cap ok par s Cons = Some s' -> forall e, In e (log s') -> means (ends (log s')) e.
Proof.
  intros s s' C Hd O R E. unfold step in E. rewrite Hd in E. pose proof (c_cons s C) as Ci. pose proof (c_q s C) as Q. unfold cinv in Ci.
  destruct (cons s) as [got|i|] eqn:Cn; [|injection E as <-|discriminate].
  - destruct Ci as (Hg & Ho & Hk). destruct (chan s) as [|i q] eqn:Ch.
    + destruct (closed s) eqn:Cl; [|discriminate]. injection E as <-. unfold cput. cbn [log].
      assert (K : counted k = true) by (destruct (counted k); auto; specialize (Ho eq_refl); discriminate).
      pose proof (all_done s C K Cl) as P. rewrite app_nil_r in Q. rewrite Q, <- Hg in P.
      assert (A : forall j, j < n -> In j got) by (intros j Hj; apply (Permutation_in _ (Permutation_sym P)); apply in_seq; lia).
      apply (res_app [finish k ok got]); auto. intros e [<-|[]]. unfold finish. destruct k eqn:KK; try discriminate K.
      * unfold means. rewrite KK. cbn [counted]. split; auto. intros j Hj. specialize (A j Hj). rewrite Hg, <- Q in A. destruct (c_in s C j A) as (_ & X & _). rewrite KK in X. exact X.
      * unfold means. rewrite KK. cbn [counted]. split; auto.
      * change (fun i => negb (ok i)) with fails. destruct (filter fails got) as [|y l] eqn:F.
        -- unfold means. rewrite KK. cbn [counted]. split; auto. intros j Hj. destruct (ok j) eqn:X; auto. exfalso. assert (Y : In j (filter fails got)) by (apply filter_In; split; auto; unfold fails; now rewrite X). rewrite F in Y. destruct Y.
        -- unfold means. rewrite KK. split; [discriminate|]. rewrite <- F. now apply perm_filter.
    + injection E as <-. rewrite <- Hg in Q.
      assert (S1 : forall c, forall e, In e (log (cput s c q [EPop i])) -> means (ends (log (cput s c q [EPop i]))) e).
      { intros c. apply (res_quiet [EPop i]); auto. repeat constructor. }
      assert (Ii : In i (pushes (log s))) by (rewrite Q; apply in_or_app; simpl; auto). destruct (pushed_ok s C i Ii) as (Hi & Ie).
      unfold take. destruct k eqn:K; auto.
      * destruct Hk as (Hl & Hf). destruct (ok i) eqn:Oi; auto. destruct (Nat.ltb_spec (S (length got)) n) as [|Ln]; auto.
        unfold cput. cbn [log]. apply (res_app [EThrow (got ++ [i]); EPop i]); auto. intros e [<-|[<-|[]]]; [|exact I]. unfold means. rewrite K.
        assert (P : Permutation (got ++ [i]) (seq 0 n)).
        { apply perm_seq.
          - pose proof (c_nd s C) as ND. rewrite Q in ND. change (i :: q) with ([i] ++ q) in ND. rewrite app_assoc in ND. apply nd_pre in ND. auto.
          - intros j X. apply (pushed_ok s C). rewrite Q. apply in_app_or in X. apply in_or_app. simpl in *. tauto.
          - rewrite app_length. simpl. lia. }
        split; auto. intros j Hj. assert (X : In j (got ++ [i])) by (apply (Permutation_in _ (Permutation_sym P)); apply in_seq; lia). apply in_app_or in X. destruct X as [X|[<-|[]]]; auto.
      * destruct (ok i) eqn:Oi; auto. unfold cput. cbn [log]. apply (res_app [EThrow [i]; EPop i]); auto. intros e [<-|[<-|[]]]; [|exact I]. unfold means. rewrite K. cbn [app ends].
        exists i. splits; auto. intros Hp Hn. destruct (O Hp) as (_ & _ & _ & _ & O5). destruct (O5 Hn) as (O6 & _). rewrite O6, Q. exists got, (q ++ drops (log s)). rewrite <- app_assoc. splits; auto; [unfold fails; now rewrite Oi|]. intros j X. unfold fails. now rewrite (Hk j X).
  - destruct Ci as (K & Cl & got & Hp & Hk). cbn [log].
    apply (res_app [if ok i then EReturn [i] else EThrow [i]; EClose]); auto. intros e [<-|[<-|[]]]; [|exact I].
    rewrite Hp in Q. assert (Ii : In i (pushes (log s))) by (rewrite Q; rewrite !in_app_iff; simpl; auto). destruct (c_in s C i Ii) as (Hi & Co & Ie & _).
    assert (EE : ends ([if ok i then EReturn [i] else EThrow [i]; EClose] ++ log s) = ends (log s)) by (destruct (ok i); auto). rewrite EE.
    assert (H1 : par = false -> 0 < cap -> k <> FirstSuccess -> hd_error (ends (log s)) = Some i).
    { intros A B D. destruct (O A) as (_ & _ & _ & O4 & _). rewrite <- (O4 B), Q. destruct k; try discriminate K; try congruence; rewrite Hk; auto. }
    destruct (ok i) eqn:Oi.
    + unfold means. rewrite K. exists i. splits; auto. intros A B D. destruct (O A) as (_ & _ & _ & _ & O5). destruct (O5 B) as (O6 & _). rewrite D in Hk. rewrite O6, Q. exists got, (chan s ++ drops (log s)). rewrite <- !app_assoc. splits; auto. tauto.
    + unfold means. destruct k eqn:KK; try discriminate K.
      * discriminate Co.
      * exists i. splits; auto. intros A B. apply H1; auto. discriminate.
      * destruct Hk. congruence.
Qed.

Lemma inv_step : forall s l s', inv s -> step k n cap ok par s l = Some s' -> inv s'.
Proof.
  intros s l s' [Ic Io Ir] E. assert (Hd : dead s = false) by (unfold step in E; destruct (dead s); auto; discriminate).
  specialize (Ic Hd). specialize (Io Hd). split; [eapply core_step; eauto|eapply ord_step; eauto|].
  destruct l as [i|i|i|i|]; [| | | |eapply res_cons; eauto]; unfold step in E; rewrite Hd in E.
  - destruct (i <? n); [|discriminate]. destruct (prod s i) eqn:P; try discriminate. injection E as <-. unfold ended. destruct (catches k || ok i).
    + destruct par eqn:Hp; [apply (res_quiet [EEnd i]); auto; repeat constructor|]. destruct (push k cap false _ i) as [s2|] eqn:Q.
      * rewrite <- Hp in Q. destruct (push_log _ _ _ Q) as (es & -> & F). cbn [log]. change (EEnd i :: log s) with ([EEnd i] ++ log s). rewrite app_assoc. apply res_quiet; auto. apply Forall_app. split; auto. repeat constructor.
      * apply (res_quiet [EEnd i]); auto. repeat constructor.
    + apply (res_quiet [ETerminate i; EEnd i]); auto. repeat constructor.
  - destruct (i <? n); [|discriminate]. destruct (prod s i) eqn:P; try discriminate. destruct (push_log _ _ _ E) as (es & -> & F). now apply res_quiet.
  - destruct (prod s i); try discriminate. injection E as <-. exact Ir.
  - destruct (prod s i); try discriminate. injection E as <-. unfold dec. cbn [log limit]. apply res_quiet; auto. destruct (Nat.eqb (pred v) 0); repeat constructor.
Qed.
Lemma inv_init : inv (init_state n).
Proof.
  split.
  - intros _. apply core_init.
  - intros _ Hp. cbn [init_state prod log closed limit ends pushes drops app]. splits; auto; try discriminate.
    + intros _. cut (length (seq 0 n) = left_ (fun _ => PRun)); [rewrite seq_length; auto|]. unfold left_. generalize (seq 0 n). induction l; simpl; auto.
    + intros _ _. apply (left_pos _ 0); auto.
    + intros _. split; auto. discriminate.
  - intros e [].
Qed.
Lemma inv_reach : forall s, reachable (step k n cap ok par) (init_state n) s -> inv s.
Proof. apply reachable_inv; [apply inv_init|apply inv_step]. Qed.

Lemma stuck_done : forall s, reachable (step k n cap ok par) (init_state n) s -> 0 < cap -> stuck k n cap ok par s -> dead s = false ->
  (par = false \/ counted k = false) -> cons s = CDone /\ (counted k = false \/ k <> UntilError \/ n <= S cap -> forall i, i < n -> prod s i = PDone).
Proof.
  intros s R Cp St Hd Md. destruct (inv_reach s R) as [C O _]. specialize (C Hd). specialize (O Hd).
  assert (PC : forall i, i < n -> prod s i = PDone \/ (prod s i = PPush /\ closed s = false /\ cap <= length (chan s))).
  { intros i Hi. destruct (prod s i) eqn:P; auto.
    - specialize (St (End i)). unfold step in St. rewrite Hd, P in St. apply Nat.ltb_lt in Hi. rewrite Hi in St. discriminate.
    - right. specialize (St (Push i)). unfold step in St. rewrite Hd, P in St. apply Nat.ltb_lt in Hi. rewrite Hi in St. unfold push in St. destruct (closed s); [discriminate|]. destruct (Nat.ltb_spec (length (chan s)) cap); [discriminate|auto].
    - specialize (St (DecR i)). unfold step in St. rewrite Hd, P in St. discriminate.
    - specialize (St (DecW i)). unfold step in St. rewrite Hd, P in St. discriminate. }
  assert (AP : closed s = false -> (forall i, i < n -> prod s i = PDone) -> counted k = false /\ n <= length (pushes (log s))).
  { intros Cl A. split.
    - destruct Md as [Md|]; auto. destruct (counted k) eqn:K; auto. exfalso. destruct (O Md) as (_ & _ & O3 & _). specialize (O3 K Cl).
      unfold left_ in O3. destruct (filter _ _) as [|x l] eqn:F; [simpl in O3; lia|]. assert (X : In x (filter (fun i => live (prod s i)) (seq 0 n))) by (rewrite F; simpl; auto).
      apply filter_In in X. destruct X as (X & Y). apply in_seq in X. rewrite A in Y by lia. discriminate.
    - replace n with (length (seq 0 n)) by apply seq_length. apply NoDup_incl_length; [apply seq_NoDup|]. intros i X. apply in_seq in X. destruct (c_done s C i) as [|(D & _)]; auto; try lia; [apply A; lia|]. rewrite (c_dr2 s C Cl) in D. destruct D. }
  pose proof (c_cons s C) as Ci. unfold cinv in Ci. pose proof (St Cons) as Sc. unfold step in Sc. rewrite Hd in Sc. pose proof (c_q s C) as Q.
  destruct (cons s) as [got|i|] eqn:Cn; [|discriminate|].
  - exfalso. destruct Ci as (Hg & _ & Hk). destruct (chan s) as [|x q] eqn:Ch; [|discriminate]. destruct (closed s) eqn:Cl; [discriminate|].
    destruct AP as (K & L); auto. { intros i Hi. destruct (PC i Hi) as [|(_ & _ & X)]; auto. simpl in X. lia. }
    rewrite Q, app_nil_r, <- Hg in L. destruct k; try discriminate K; [rewrite Hk in L; simpl in L; lia|rewrite Hk in L; simpl in L; lia|lia].
  - split; auto. destruct Ci as (_ & Cf & Ne & Cc). intros Md2 i Hi. destruct (PC i Hi) as [|(P & Cl & L)]; auto. exfalso.
    assert (NI : ~ In i (pushes (log s))). { intros X. destruct (c_in s C i X) as (_ & _ & _ & [Y|Y]); rewrite P in Y; discriminate. }
    assert (Lp : length (i :: pushes (log s)) <= n). { apply nodup_seq; [constructor; auto; apply (c_nd s C)|]. intros j [<-|X]; auto. apply (c_in s C j X). }
    simpl in Lp. rewrite Q, app_length in Lp. destruct (counted k) eqn:K.
    + destruct Md2 as [|[Md2|Md2]]; [discriminate|rewrite (Cc eq_refl Md2) in Cl; discriminate|]. destruct (pops (log s)); [congruence|]. simpl in Lp. lia.
    + destruct (Cf eq_refl) as [X|X]; [congruence|lia].
Qed.

(** Every step uses up something. *)
Definition weight (p : ppc) : nat := match p with PRun => 4 | PPush => 3 | PDec => 2 | PDecW _ => 1 | PDone => 0 end.
Definition cweight (c : cpc) : nat := match c with CPop got => n - length got + 2 | CClose _ => 1 | CDone => 0 end.
Definition total (m : nat -> ppc) : nat := list_sum (map (fun i => weight (m i)) (seq 0 n)).
Definition measure (s : st) : nat := total (prod s) + cweight (cons s) + (if dead s then 0 else 1).
Lemma total_same : forall (m m' : nat -> ppc) (l : list nat), (forall i, In i l -> m i = m' i) -> list_sum (map (fun i => weight (m i)) l) = list_sum (map (fun i => weight (m' i)) l).
Proof. induction l as [|a l IH]; simpl; intros H; auto. rewrite (H a), IH; auto. Qed.
Lemma total_upd : forall m i p, i < n -> total (upd m i p) + weight (m i) = total m + weight p.
Proof.
  intros m i p Hi. unfold total. assert (X : In i (seq 0 n)) by (apply in_seq; lia). pose proof (seq_NoDup n 0) as ND.
  induction (seq 0 n) as [|a l IH]; [destruct X|]. simpl. inversion ND as [|? ? Na ND']; subst. destruct (Nat.eq_dec a i) as [->|N].
  - rewrite upd_same. rewrite (total_same (upd m i p) m); [lia|]. intros j Hj. apply upd_other. intros ->. auto.
  - rewrite upd_other by auto. destruct X as [X|X]; [congruence|]. specialize (IH X ND'). lia.
Qed.
Lemma push_total : forall s i s', i < n -> prod s i = PPush -> push k cap par s i = Some s' -> total (prod s') < total (prod s) /\ cons s' = cons s /\ dead s' = dead s.
Proof.
  intros s i s' Hi P E. pose proof (fun p => total_upd (prod s) i p Hi) as T. rewrite P in T. cbn [weight] in T. unfold push in E. destruct (closed s).
  - injection E as <-. cbn [prod cons dead]. specialize (T PDone). simpl in T. splits; auto. lia.
  - destruct (length (chan s) <? cap); [|discriminate]. injection E as <-. destruct (counted k); cbn [andb].
    + destruct (negb par); cbn [dec prod cons dead].
      * pose proof (total_upd (upd (prod s) i PDec) i PDone Hi) as T2. rewrite upd_same in T2. specialize (T PDec). simpl in *. splits; auto. lia.
      * specialize (T PDec). simpl in T. splits; auto. lia.
    + cbn [prod cons dead]. specialize (T PDone). simpl in T. splits; auto. lia.
Qed.
Lemma measure_step : forall s l s', inv s -> step k n cap ok par s l = Some s' -> measure s' < measure s.
Proof.
  intros s l s' Iv E. assert (Hd : dead s = false) by (unfold step in E; destruct (dead s); auto; discriminate).
  pose proof (i_core s Iv Hd) as C. unfold measure. rewrite Hd. unfold step in E. rewrite Hd in E.
  destruct l as [i|i|i|i|].
  - destruct (Nat.ltb_spec i n) as [Hi|]; [|discriminate]. destruct (prod s i) eqn:P; try discriminate. injection E as <-. unfold ended.
    destruct (catches k || ok i); [|cbn [prod cons dead]; lia].
    pose proof (total_upd (prod s) i PPush Hi) as T. rewrite P in T. cbn [weight] in T.
    destruct par eqn:Hp; [cbn [prod cons dead]; rewrite Hd; lia|]. destruct (push k cap false _ i) as [s2|] eqn:Q; [|cbn [prod cons dead]; rewrite Hd; lia].
    rewrite <- Hp in Q. apply push_total in Q; auto; [|cbn [prod]; apply upd_same]. cbn [prod cons dead] in Q. destruct Q as (Q1 & Q2 & Q3). rewrite Q2, Q3, Hd. lia.
  - destruct (Nat.ltb_spec i n) as [Hi|]; [|discriminate]. destruct (prod s i) eqn:P; try discriminate. apply push_total in E; auto. destruct E as (Q1 & Q2 & Q3). rewrite Q2, Q3, Hd. lia.
  - destruct (prod s i) eqn:P; try discriminate. injection E as <-. cbn [prod cons dead].
    destruct (c_dec s C i) as (Ip & _); [now rewrite P|]. destruct (c_in s C i Ip) as (Hi & _). pose proof (total_upd (prod s) i (PDecW (limit s)) Hi) as T. rewrite P in T. cbn [weight] in T. lia.
  - destruct (prod s i) eqn:P; try discriminate. injection E as <-. cbn [dec prod cons dead].
    destruct (c_dec s C i) as (Ip & _); [now rewrite P|]. destruct (c_in s C i Ip) as (Hi & _). pose proof (total_upd (prod s) i PDone Hi) as T. rewrite P in T. cbn [weight] in T. lia.
  - pose proof (c_cons s C) as Ci. pose proof (c_q s C) as Q. unfold cinv in Ci. destruct (cons s) as [got|i|] eqn:Cn; [|injection E as <-; cbn [prod cons dead cweight]; lia|discriminate].
    destruct Ci as (Hg & _). destruct (chan s) as [|i q] eqn:Ch.
    + destruct (closed s); [|discriminate]. injection E as <-. cbn [cput prod cons dead cweight]. rewrite Hd. lia.
    + injection E as <-. assert (Lg : length got < n).
      { rewrite <- Hg in Q. assert (X : length (pushes (log s)) <= n) by (apply nodup_seq; [apply (c_nd s C)|intros j X; apply (c_in s C j X)]). rewrite Q, app_length in X. simpl in X. lia. }
      unfold take. destruct k; try destruct (ok i); try destruct (S (length got) <? n); cbn [cput prod cons dead cweight]; rewrite ?app_length; simpl length; rewrite Hd; lia.
Qed.
Lemma measure_init : measure (init_state n) = 5 * n + 3.
Proof.
  unfold measure, total. cbn [init_state prod cons dead cweight weight length].
  cut (list_sum (map (fun _ : nat => 4) (seq 0 n)) = 4 * length (seq 0 n)); [rewrite seq_length; lia|]. generalize (seq 0 n). induction l; simpl in *; lia.
Qed.
Lemma steps_bound : forall tr s, exec (step k n cap ok par) (init_state n) tr = Some s -> length tr <= 5 * n + 3.
Proof.
  assert (G : forall tr s s', inv s -> exec (step k n cap ok par) s tr = Some s' -> length tr + measure s' <= measure s).
  { induction tr as [|l tr IH]; simpl; intros s s' Iv E; [injection E as <-; lia|]. destruct (step k n cap ok par s l) as [s1|] eqn:S1; [|discriminate].
    pose proof (measure_step s l s1 Iv S1). pose proof (IH s1 s' (inv_step s l s1 Iv S1) E). lia. }
  intros tr s E. pose proof (G tr _ s inv_init E). rewrite measure_init in H. lia.
Qed.

Lemma safe_alive : forall s, safe k n ok -> reachable (step k n cap ok par) (init_state n) s -> dead s = false.
Proof.
  intros s Sf. apply (reachable_inv (step k n cap ok par) (fun s => dead s = false)); auto. clear s. intros s l s' Hd E. unfold step in E. rewrite Hd in E.
  assert (PD : forall s i s', dead s = false -> push k cap par s i = Some s' -> dead s' = false).
  { clear. intros s i s' Hd E. unfold push in E. destruct (closed s); [injection E as <-; auto|]. destruct (length (chan s) <? cap); [|discriminate]. injection E as <-. destruct (counted k && negb par); auto. }
  destruct l as [i|i|i|i|].
  - destruct (Nat.ltb_spec i n) as [Hi|]; [|discriminate]. destruct (prod s i); try discriminate. injection E as <-. unfold ended.
    assert (O : catches k || ok i = true) by (destruct Sf as [-> | Sf]; [auto|rewrite (Sf i Hi); apply orb_true_r]). rewrite O. destruct par; auto. destruct (push k cap false _ i) eqn:Q; auto. eapply PD; [|exact Q]. auto.
  - destruct (i <? n); [|discriminate]. destruct (prod s i); try discriminate. eauto.
  - destruct (prod s i); try discriminate. injection E as <-. auto.
  - destruct (prod s i); try discriminate. injection E as <-. auto.
  - destruct (cons s) as [got|i|]; [|injection E as <-; auto|discriminate]. destruct (chan s) as [|i q]; [destruct (closed s); [|discriminate]; injection E as <-; auto|]. injection E as <-. unfold take. destruct k; try destruct (ok i); try destruct (S (length got) <? n); auto.
Qed.

(** A decision procedure for witnesses. *)
Definition none (o : option st) : bool := match o with None => true | _ => false end.
Definition stuckb (s : st) : bool := forallb (fun i => none (step k n cap ok par s (End i)) && none (step k n cap ok par s (Push i)) && none (step k n cap ok par s (DecR i)) && none (step k n cap ok par s (DecW i))) (seq 0 n) && none (step k n cap ok par s Cons).
Lemma stuckb_ok : forall s, inv s -> dead s = false -> stuckb s = true -> stuck k n cap ok par s.
Proof.
  intros s Iv Hd H l. unfold stuckb in H. apply andb_true_iff in H. destruct H as (H & Hc). rewrite forallb_forall in H.
  assert (N : forall o, none o = true -> o = None) by (intros []; [discriminate|auto]).
  assert (X : forall i, step k n cap ok par s (End i) = None /\ step k n cap ok par s (Push i) = None /\ step k n cap ok par s (DecR i) = None /\ step k n cap ok par s (DecW i) = None).
  { intros i. destruct (Nat.ltb_spec i n) as [Hi|Hi].
    - assert (Y : In i (seq 0 n)) by (apply in_seq; lia). specialize (H i Y). rewrite !andb_true_iff in H. destruct H as (((A & B) & C) & D). splits; auto.
    - pose proof (c_out s (i_core s Iv Hd) i Hi) as P. apply Nat.ltb_ge in Hi. unfold step. rewrite Hd, P, Hi. auto. }
  destruct l; auto; apply X.
Qed.
End M.
