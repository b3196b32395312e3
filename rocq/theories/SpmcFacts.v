(** Invariant of the lock-free ready queue. *)
From Coq Require Import List Arith Bool Lia Sorted.
From Verif Require Import Base Spmc SpmcSpec.
Import ListNotations.

(** ** The abstract queue: [Q] the elements in it, oldest first, [h] an element pop() has taken and not yet returned. *)
Record abs (Q : list nat) (h : option nat) (lg : list event) : Prop := {
  a_sorted : StronglySorted lt Q;
  a_in : forall n, (In n Q \/ h = Some n) <-> pushed lg n /\ takes lg n = 0;
  a_h : h <> None -> Q = [];
  a_once : forall n, takes lg n <= 1 /\ (0 < takes lg n -> pushed lg n);
  a_pop : forall l1 o l2, lg = l1 ++ EPop o :: l2 -> forall m, pushed l2 m -> match o with Some n => n < m -> takes l2 m = 1 | None => takes l2 m = 1 end;
  a_steal : forall l1 u n l2, lg = l1 ++ ESteal u (Some n) :: l2 -> forall m, pushed l2 m -> m < n -> takes l2 m = 1
}.
Definition neutral (e : event) : Prop := match e with EPush _ _ | ECallPop | EAccess _ _ | ESteal _ None | EAssert => True | _ => False end.
Ltac splitlog H := match type of H with _ :: _ = ?l1 ++ _ :: _ => destruct l1 as [|? ?]; simpl in H; [inversion H; subst; clear H|injection H as ? H; subst] end.
Lemma abs_neutral Q h e lg : abs Q h lg -> neutral e -> abs Q h (e :: lg).
Proof.
  intros A N. assert (P : forall n, pushed (e :: lg) n <-> pushed lg n) by (intros n; unfold pushed; simpl; split; [intros [->|X]; [destruct N|auto]|auto]).
  assert (T : forall n, takes (e :: lg) n = takes lg n) by (intros n; destruct e as [| | | | |u [?|]|]; try reflexivity; destruct N).
  constructor; try apply A.
  - intros n. rewrite P, T. apply A.
  - intros n. rewrite P, T. apply A.
  - intros l1 o l2 E. splitlog E; [destruct N|]. apply (a_pop _ _ _ A _ _ _ eq_refl).
  - intros l1 u n l2 E. splitlog E; [destruct N|]. apply (a_steal _ _ _ A _ _ _ _ eq_refl).
Qed.
Lemma abs_push Q lg n : abs Q None lg -> (forall m, pushed lg m -> m < n) -> abs (Q ++ [n]) None (EPushed n :: lg).
Proof.
  intros A H. assert (Hq : forall m, In m Q -> m < n) by (intros m Hm; apply H; apply (a_in _ _ _ A m); auto). assert (Np : ~ pushed lg n) by (intros X; apply H in X; lia).
  constructor.
  - assert (S := a_sorted _ _ _ A). clear - S Hq. induction Q as [|q Q IH]; simpl; [repeat constructor|]. inversion S; subst. constructor; [apply IH; auto; intros m Hm; apply Hq; now right|]. apply Forall_app. split; auto. constructor; [apply Hq; now left|constructor].
  - intros m. unfold pushed. simpl. rewrite in_app_iff. simpl. pose proof (a_in _ _ _ A m) as I. unfold pushed in I. split.
    + intros [[X|[->|[]]]|X]; [|split; auto|discriminate].
      * destruct I as [I _]. destruct I; auto.
      * destruct (a_once _ _ _ A m) as [T1 T2]. destruct (takes lg m); auto. exfalso. apply Np, T2. lia.
    + intros [[X|X] T]; [left; right; left; congruence|]. destruct I as [_ I]. destruct I; auto.
  - congruence.
  - intros m. simpl. destruct (a_once _ _ _ A m) as [T1 T2]. split; auto. intros T. right. now apply T2.
  - intros l1 o l2 E. splitlog E. apply (a_pop _ _ _ A _ _ _ eq_refl).
  - intros l1 u m l2 E. splitlog E. apply (a_steal _ _ _ A _ _ _ _ eq_refl).
Qed.
Lemma sorted_last Q n : StronglySorted lt (Q ++ [n]) -> StronglySorted lt Q /\ forall m, In m Q -> m < n.
Proof.
  induction Q as [|q Q IH]; simpl; intros S; [split; [constructor|intros m []]|]. inversion S as [|? ? S1 F]; subst. destruct (IH S1) as [I1 I2]. apply Forall_app in F. destruct F as [F1 F2]. inversion F2; subst. split; [constructor; auto|]. intros m [->|Hm]; auto.
Qed.
Lemma takes1 lg n : takes lg n <= 1 -> takes lg n <> 0 -> takes lg n = 1. Proof. lia. Qed.
Lemma abs_pop Q lg n : abs (Q ++ [n]) None lg -> abs Q None (EPop (Some n) :: lg).
Proof.
  intros A. destruct (sorted_last Q n (a_sorted _ _ _ A)) as [S1 S2]. assert (Pn : pushed lg n /\ takes lg n = 0) by (apply (a_in _ _ _ A n); left; apply in_or_app; simpl; auto).
  constructor; auto.
  - intros m. unfold pushed. simpl. pose proof (a_in _ _ _ A m) as I. unfold pushed in I. rewrite in_app_iff in I. simpl in I. destruct (Nat.eqb_spec m n) as [->|N].
    + split; [|lia]. intros [X|X]; [apply S2 in X; lia|discriminate].
    + simpl. split; [intros [X|X]; [|discriminate]|intros [[X|X] T]; [discriminate|]]; [destruct I as [I _]; destruct I; auto|]. destruct I as [_ I]. destruct I as [[I|[I|[]]]|I]; auto; congruence.
  - congruence.
  - intros m. simpl. destruct (a_once _ _ _ A m) as [T1 T2]. unfold pushed. simpl. destruct (Nat.eqb_spec m n) as [->|N]; [split; [lia|right; apply Pn]|]. simpl. split; auto. intros T. right. now apply T2.
  - intros l1 o l2 E. splitlog E; [|apply (a_pop _ _ _ A _ _ _ eq_refl)]. intros m Pm Hm. apply takes1; [apply A|]. intros T. assert (X : In m (Q ++ [n]) \/ None = Some m) by (apply (a_in _ _ _ A); auto). rewrite in_app_iff in X. simpl in X. destruct X as [[X|[X|[]]]|X]; try discriminate; [apply S2 in X|]; lia.
  - intros l1 u m l2 E. splitlog E. apply (a_steal _ _ _ A _ _ _ _ eq_refl).
Qed.
Lemma abs_cas n lg : abs [n] None lg -> abs [] (Some n) lg.
Proof. intros A. constructor; try apply A; [constructor| |auto]. intros m. rewrite <- (a_in _ _ _ A m). simpl. split; [intros [[]|E]; left; left; congruence|intros [[->|[]]|E]; [auto|discriminate]]. Qed.
Lemma abs_end h lg : abs [] h lg -> abs [] None (EPop h :: lg).
Proof.
  intros A. assert (All : forall m, pushed lg m -> h <> Some m -> takes lg m = 1). { intros m Pm Hm. apply takes1; [apply A|]. intros T. destruct (proj2 (a_in _ _ _ A m)) as [[]|]; auto. }
  assert (Hp : forall n, h = Some n -> pushed lg n /\ takes lg n = 0) by (intros n E; apply (a_in _ _ _ A); auto).
  constructor; try congruence; [constructor| | | |].
  - intros m. unfold pushed. simpl. split; [intros [[]|]; discriminate|]. intros [[X|X] T]; [discriminate|]. exfalso. destruct h as [n|]; [destruct (Nat.eqb_spec m n) as [->|N]; [lia|]|]; simpl in T; rewrite All in T; auto; congruence.
  - intros m. unfold pushed. simpl. destruct (a_once _ _ _ A m) as [T1 T2]. destruct h as [n|]; [|split; auto; intros T; right; now apply T2]. destruct (Nat.eqb_spec m n) as [->|N]; [|simpl; split; auto; intros T; right; now apply T2]. destruct (Hp n eq_refl). split; [lia|auto].
  - intros l1 o l2 E. splitlog E; [|apply (a_pop _ _ _ A _ _ _ eq_refl)]. intros m Pm. destruct o as [n|]; [intros Hm|]; apply All; auto; [|discriminate]. intros E. injection E as <-. lia.
  - intros l1 u m l2 E. splitlog E. apply (a_steal _ _ _ A _ _ _ _ eq_refl).
Qed.
Lemma abs_steal u n Q h lg : abs (n :: Q) h lg -> abs Q h (ESteal u (Some n) :: lg).
Proof.
  intros A. assert (S := a_sorted _ _ _ A). inversion S as [|? ? S1 F]; subst. rewrite Forall_forall in F. assert (h = None) by (destruct h; auto; assert (X : n :: Q = []) by (apply (a_h _ _ _ A); discriminate); discriminate). subst h.
  assert (Pn : pushed lg n /\ takes lg n = 0) by (apply (a_in _ _ _ A n); left; now left).
  constructor; auto.
  - intros m. unfold pushed. simpl. pose proof (a_in _ _ _ A m) as I. unfold pushed in I. simpl in I. destruct (Nat.eqb_spec m n) as [->|N].
    + split; [|lia]. intros [X|X]; [apply F in X; lia|discriminate].
    + simpl. split; [intros [X|X]; [|discriminate]|intros [[X|X] T]; [discriminate|]]; [destruct I as [I _]; destruct I; auto|]. destruct I as [_ I]. destruct I as [[I|I]|I]; auto; congruence.
  - congruence.
  - intros m. simpl. destruct (a_once _ _ _ A m) as [T1 T2]. unfold pushed. simpl. destruct (Nat.eqb_spec m n) as [->|N]; [split; [lia|right; apply Pn]|]. simpl. split; auto. intros T. right. now apply T2.
  - intros l1 o l2 E. splitlog E. apply (a_pop _ _ _ A _ _ _ eq_refl).
  - intros l1 v m l2 E. splitlog E; [|apply (a_steal _ _ _ A _ _ _ _ eq_refl)]. intros k Pk Hk. apply takes1; [apply A|]. intros T. assert (X : In k (m :: Q) \/ None = Some k) by (apply (a_in _ _ _ A); auto). destruct X as [[X|X]|X]; try discriminate; [|apply F in X]; lia.
Qed.
Lemma abs_init : abs [] None [].
Proof.
  constructor; [constructor| |congruence| | |].
  - intros n. unfold pushed. simpl. split; [intros [[]|X]; discriminate|intros [[] _]].
  - intros n. simpl. lia.
  - intros [|] o l2 E; discriminate.
  - intros [|] u n l2 E; discriminate.
Qed.

(** ** The concrete queue. *)
Lemma mod_neq i j c : i < j -> j < i + c -> i mod c <> j mod c.
Proof.
  intros H1 H2 E. assert (c <> 0) by lia. pose proof (Nat.div_mod i c H). pose proof (Nat.div_mod j c H). rewrite E in H0. assert (i / c < j / c \/ i / c >= j / c) as [X|X] by lia; nia.
Qed.
Definition at_ (s : st) (i : nat) : option nat := cell s (arr s) (i mod cap s (arr s)).
Definition lim (s : st) : nat := match own s with QTop b | QCas b _ | QEnd b _ => S b | _ => bottom s end.
Definition hand (p : opc) : option nat := match p with QEnd _ o => o | _ => None end.
Definition pushing (p : opc) : bool := match p with PTop _ _ | PArr _ _ _ | PCell _ _ | PBot _ _ => true | _ => false end.
Section Inv.
Variable W : nat.
Variable pinned : nat -> bool.
Notation step := (step W pinned).
Definition own_ok (s : st) : Prop :=
  match own s with
  | OIdle => 0 < next s -> 0 < bottom s
  | PTop n b => bottom s = b /\ next s = S n
  | PArr n b t => bottom s = b /\ next s = S n /\ t <= top s /\ b <= t + cap s (arr s)
  | PCell n b => bottom s = b /\ next s = S n /\ b < top s + cap s (arr s)
  | PBot n b => bottom s = b /\ next s = S n /\ b < top s + cap s (arr s) /\ at_ s b = Some n
  | QBot b => bottom s = S b
  | QTop b => bottom s = b
  | QCas b n => bottom s = b /\ at_ s b = Some n /\ b <= top s
  | QEnd b o => bottom s = b /\ top s = S b
  | OCrashed => False
  end.
Definition thief_ok (s : st) (p : tpc) : Prop :=
  match p with
  | TIdle | TCrashed => True
  | SBot t => t <= top s
  | SArr t => t <= top s /\ (t = top s -> t < lim s)
  | SCell t a => a <= arr s /\ t <= top s /\ (t = top s -> t < lim s /\ cell s a (t mod cap s a) = at_ s t)
  | SPin t n => n < next s /\ t <= top s /\ (t = top s -> t < lim s /\ at_ s t = Some n)
  | SCas t n => n < next s /\ pinned (ictx s n) = false /\ t <= top s /\ (t = top s -> t < lim s /\ at_ s t = Some n)
  end.
Record inv (s : st) (Q : list nat) : Prop := {
  i_abs : abs Q (hand (own s)) (log s);
  i_len : lim s = top s + length Q;
  i_at : forall k n, nth_error Q k = Some n -> at_ s (top s + k) = Some n;
  i_cap : 1 <= cap s (arr s) /\ lim s <= top s + cap s (arr s);
  i_own : own_ok s;
  i_num : lim s + (if pushing (own s) then 1 else 0) <= next s /\ next s = pushes (log s);
  i_pn : forall n, pushed (log s) n -> n + (if pushing (own s) then 1 else 0) < next s;
  i_cells : forall a j n, cell s a j = Some n -> n < next s;
  i_ictx : forall n c, In (EPush n c) (log s) -> n < next s /\ ictx s n = c;
  i_stolen : forall u n, In (ESteal u (Some n)) (log s) -> n < next s /\ pinned (ictx s n) = false;
  i_thief : forall u, thief_ok s (thief s u)
}.
Lemma copy_spec old c : forall k new i j, i + k < W -> 1 <= c -> k <= c -> i <= j < i + k -> copy W old new c i k (j mod (2 * c)) = old (j mod c).
Proof.
  assert (G : forall k new i x, (forall j, i <= j < i + k -> j mod (2 * c) <> x) -> i + k < W -> copy W old new c i k x = new x).
  { induction k as [|k IH]; intros new i x H Hw; [reflexivity|]. cbn [copy]. unfold inc. destruct (Nat.eqb_spec (S i) W); [lia|]. rewrite IH; [|intros j Hj; apply H; lia|lia]. rewrite upd_other; auto. apply not_eq_sym, H. lia. }
  induction k as [|k IH]; intros new i j Hw Hc Hk Hj; [lia|]. cbn [copy]. unfold inc. destruct (Nat.eqb_spec (S i) W); [lia|]. destruct (Nat.eq_dec j i) as [->|N].
  - rewrite G; [apply upd_same| |lia]. intros j Hj'. apply not_eq_sym, mod_neq; lia.
  - apply IH; lia.
Qed.
Lemma copy_cells old c : forall k new i x n, copy W old new c i k x = Some n -> new x = Some n \/ exists y, old y = Some n.
Proof. induction k as [|k IH]; intros new i x n E; cbn [copy] in E; auto. apply IH in E. destruct E as [E|E]; auto. unfold upd in E. destruct (_ =? _); eauto. Qed.
Lemma thief_mono s s' p : thief_ok s p -> next s <= next s' -> (forall n, n < next s -> ictx s' n = ictx s n) -> arr s <= arr s' -> top s <= top s' ->
  (top s' = top s -> top s < lim s -> top s < lim s' /\ at_ s' (top s) = at_ s (top s) /\ forall a, a <= arr s -> cell s' a (top s mod cap s' a) = cell s a (top s mod cap s a)) -> thief_ok s' p.
Proof.
  intros T N C A L H. destruct p; simpl in *; auto; try lia.
  - destruct T as (T0 & T1 & T2). splits; try lia. intros ->. assert (E : top s' = top s) by lia. rewrite E in *. destruct (T2 eq_refl) as [T3 T4]. destruct (H eq_refl T3) as (H1 & H2 & H3). split; auto. rewrite H3, H2; auto.
  - destruct T as (T0 & T1 & T2). splits; try lia. intros ->. assert (E : top s' = top s) by lia. rewrite E in *. destruct (T2 eq_refl) as [T3 T4]. destruct (H eq_refl T3) as (H1 & H2 & H3). split; auto. congruence.
  - destruct T as (T0 & Tp & T1 & T2). splits; try lia; [rewrite C; auto|]. intros ->. assert (E : top s' = top s) by lia. rewrite E in *. destruct (T2 eq_refl) as [T3 T4]. destruct (H eq_refl T3) as (H1 & H2 & H3). split; auto. congruence.
Qed.
Definition quiet (s : st) (p : opc) : Prop := match p with QTop b | QCas b _ | QEnd b _ => S b = lim s | _ => bottom s = lim s end.
(** Steps of the owner which change nothing but its own progress. *)
Lemma inv_own s Q p e : inv s Q -> quiet s p -> hand p = hand (own s) -> pushing p = pushing (own s) -> (forall x, In x e -> neutral x /\ forall n c, x <> EPush n c) -> own_ok (with_own s p e) -> inv (with_own s p e) Q.
Proof.
  intros I Hq Hh Hp He Ho. assert (L : lim (with_own s p e) = lim s) by (unfold lim at 1; simpl; destruct p; simpl in Hq; auto).
  assert (Pe : forall n, pushed (e ++ log s) n <-> pushed (log s) n) by (intros n; unfold pushed; rewrite in_app_iff; split; auto; intros [X|X]; auto; destruct (He _ X) as [[] _]).
  assert (Pu : pushes (e ++ log s) = pushes (log s)). { clear - He. induction e as [|x e IH]; simpl; auto. destruct (He x) as [_ X]; [now left|]. rewrite IH by (intros y Hy; apply He; now right). destruct x; auto. now destruct (X n c). }
  constructor; try apply I; cbn [log own with_own next top cell ictx thief arr cap]; auto.
  - rewrite Hh. clear - I He. induction e as [|x e IH]; simpl; [apply I|]. apply abs_neutral; [apply IH; intros y Hy; apply He; now right|apply He; now left].
  - rewrite L. apply I.
  - rewrite L. apply I.
  - rewrite L, Hp, Pu. apply I.
  - intros n Hn. rewrite Hp. apply I. now apply Pe.
  - intros n c Hn. apply (i_ictx _ _ I). apply in_app_iff in Hn. destruct Hn as [X|X]; auto. destruct (He _ X) as [_ Y]. now destruct (Y n c).
  - intros u n Hn. apply (i_stolen _ _ I u). apply in_app_iff in Hn. destruct Hn as [X|X]; auto. now destruct (He _ X).
  - intros u. apply (thief_mono s); auto; try apply I. intros _ H. rewrite L. auto.
Qed.
Lemma inv_thief s Q u p e : inv s Q -> (forall x, In x e -> neutral x /\ forall n c, x <> EPush n c) -> thief_ok s p -> inv (with_thief s u p e) Q.
Proof.
  intros I He Ho. assert (L : lim (with_thief s u p e) = lim s) by reflexivity.
  assert (Pe : forall n, pushed (e ++ log s) n <-> pushed (log s) n) by (intros n; unfold pushed; rewrite in_app_iff; split; auto; intros [X|X]; auto; destruct (He _ X) as [[] _]).
  assert (Pu : pushes (e ++ log s) = pushes (log s)). { clear - He. induction e as [|x e IH]; simpl; auto. destruct (He x) as [_ X]; [now left|]. rewrite IH by (intros y Hy; apply He; now right). destruct x; auto. now destruct (X n c). }
  constructor; try apply I; cbn [log own with_thief next top cell ictx thief arr cap]; auto.
  - clear - I He. induction e as [|x e IH]; simpl; [apply I|]. apply abs_neutral; [apply IH; intros y Hy; apply He; now right|apply He; now left].
  - rewrite L, Pu. apply I.
  - intros n Hn. apply I. now apply Pe.
  - intros n c Hn. apply (i_ictx _ _ I). apply in_app_iff in Hn. destruct Hn as [X|X]; auto. destruct (He _ X) as [_ Y]. now destruct (Y n c).
  - intros v n Hn. apply (i_stolen _ _ I v). apply in_app_iff in Hn. destruct Hn as [X|X]; auto. now destruct (He _ X).
  - intros v. apply (thief_mono s); auto. unfold upd. destruct (v =? u); auto. apply I.
Qed.
Lemma at_top s Q : inv s Q -> top s < lim s -> exists n Q', Q = n :: Q' /\ at_ s (top s) = Some n.
Proof. intros I H. pose proof (i_len _ _ I) as L. destruct Q as [|n Q']; simpl in L; [lia|]. exists n, Q'. split; auto. rewrite <- (i_at _ _ I 0 n eq_refl). now rewrite Nat.add_0_r. Qed.
Lemma at_last s Q b : inv s Q -> lim s = S b -> top s <= b -> exists n Q', Q = Q' ++ [n] /\ at_ s b = Some n /\ length Q' = b - top s.
Proof.
  intros I Hl H. pose proof (i_len _ _ I) as L. destruct (exists_last (l := Q)) as (Q' & n & E); [intros ->; simpl in L; lia|]. exists n, Q'. rewrite E, app_length in L. simpl in L. splits; auto; [|lia].
  replace b with (top s + length Q') by lia. apply (i_at _ _ I). rewrite E, nth_error_app2, Nat.sub_diag by lia. reflexivity.
Qed.
End Inv.
