(** Proofs for C139. *)
From Coq Require Import List Arith Bool Lia.
From Verif Require Import Base MutexHb SwitchHbFacts BufHb BufHbSpec.
Import ListNotations.

Record binv (cap : nat) (s : bst) : Prop := {
  i_own : forall t, incl (acts_of t (blog s)) (bview s t);
  i_push : forall x, In x (pushes (blog s)) -> incl (snd (fst x)) (bv s);
  i_pop : forall x, In x (pops (blog s)) -> incl (snd (fst x)) (bv s);
  i_macc : incl (macc s) (bv s);
  i_sacc : forall i, incl (sacc s i) (bv s);
  i_race : race_free (blog s);
  i_num : distinct (blog s) /\ forall n, In n (all_acts (blog s)) -> n < bnext s;
  i_del : delivered (blog s);
  i_bnd : bounded cap (blog s);
  i_idx : pidx s = length (pushes (blog s)) mod cap /\ cidx s = length (pops (blog s)) mod cap;
  i_slots : forall j, length (pops (blog s)) <= j -> j < length (pushes (blog s)) -> exists a w, nth_error (pushes (blog s)) j = Some (slots s (j mod cap), a, w);
  i_closed : if closed s then exists l3 u l4, blog s = l3 ++ BClose u :: l4 /\ incl (acts_of u l4) (bv s) else forall u, ~ In (BClose u) (blog s);
  i_seen : close_seen (blog s);
  i_shut : shut (blog s) }.

(** The section without the race branch. *)
Definition clean_section (s : bst) (t : nat) (p : bpc) (e : list nat -> list bevent) : bst :=
  let w := bnext s :: bv s ++ bview s t in mkB (slots s) (pidx s) (cidx s) (closed s) w (sacc s) (bnext s :: macc s) (upd (bview s) t w) (S (bnext s)) (upd (bpcs s) t p) (e w ++ blog s).
Lemma section_eq cap s t p e : binv cap s -> section s t p e = clean_section s t p e.
Proof.
  intros I. unfold section. rewrite (proj2 (ordered_incl _ _)); auto. apply incl_tl, incl_appl. apply (i_macc cap s I).
Qed.
Lemma close_cons e l : (forall t w, e <> BClosed t w) -> close_seen l -> close_seen (e :: l).
Proof.
  intros N C [|x l1] t w l2 E; simpl in E; injection E as E1 E2; [exfalso; apply (N t w E1)|]. apply (C l1 t w l2 E2).
Qed.
Lemma shut_cons e l : (forall t v w, e <> BPush t v w) -> shut l -> shut (e :: l).
Proof.
  intros N C [|x l1] t v w l2 E; simpl in E; injection E as E1 E2; [exfalso; apply (N t v w E1)|]. apply (C l1 t v w l2 E2).
Qed.
Lemma closed_cons (b : bool) e l v w : (forall u, e <> BClose u) -> incl v w ->
  (if b then exists l3 u l4, l = l3 ++ BClose u :: l4 /\ incl (acts_of u l4) v else forall u, ~ In (BClose u) l) ->
  if b then exists l3 u l4, e :: l = l3 ++ BClose u :: l4 /\ incl (acts_of u l4) w else forall u, ~ In (BClose u) (e :: l).
Proof.
  intros N G C. destruct b.
  - destruct C as (l3 & u & l4 & -> & H). exists (e :: l3), u, l4. split; auto. eapply incl_tran; eauto.
  - intros u [H|H]; [apply (N u H) | apply (C u H)].
Qed.
(** Events that are neither actions nor push, pop or close. *)
Definition minor (s : bst) (w : list nat) (e : bevent) : Prop := match e with BFull _ | BEmpty _ | BTime _ | BOpen _ => True | BClosed _ v => v = w /\ closed s = true | _ => False end.
Lemma inv_minor cap s t p e : binv cap s -> (forall w, e w = [] \/ exists x, e w = [x] /\ minor s w x) -> binv cap (section s t p e).
Proof.
  intros I M. rewrite (section_eq cap) by auto. unfold clean_section. set (w := bnext s :: bv s ++ bview s t).
  assert (incl (bv s) w) as G by (apply incl_tl, incl_appl, incl_refl).
  assert (incl (bview s t) w) as G' by (apply incl_tl, incl_appr, incl_refl).
  destruct I. destruct (M w) as [-> | (x & -> & X)].
  - constructor; simpl; auto.
    + intros u. ut u t; auto. eapply incl_tran; eauto.
    + intros y Y. eapply incl_tran; eauto.
    + intros y Y. eapply incl_tran; eauto.
    + intros a [<-|A]; [left; auto | apply G, i_macc0, A].
    + intros i. eapply incl_tran; eauto.
    + destruct i_num0 as (N1 & N2). split; auto; intros n N; apply N2 in N; lia.
    + destruct (closed s); auto. destruct i_closed0 as (l3 & u & l4 & A & B). exists l3, u, l4. split; auto. eapply incl_tran; eauto.
  - assert (pushes (x :: blog s) = pushes (blog s) /\ pops (x :: blog s) = pops (blog s) /\ (forall u, acts_of u (x :: blog s) = acts_of u (blog s)) /\ all_acts (x :: blog s) = all_acts (blog s)) as (A1 & A2 & A3 & A4) by (destruct x; simpl in X; try contradiction; auto).
    constructor; cbn [blog bview bv macc sacc bnext pidx cidx slots closed app]; unfold delivered, bounded, distinct in *; rewrite ?A1, ?A2, ?A4; auto.
    + intros u. rewrite A3. ut u t; auto. eapply incl_tran; eauto.
    + intros y Y. eapply incl_tran; eauto.
    + intros y Y. eapply incl_tran; eauto.
    + intros a [<-|A]; [left; auto | apply G, i_macc0, A].
    + intros i. eapply incl_tran; eauto.
    + intros u [U|U]; [subst x; contradiction | apply (i_race0 u U)].
    + destruct i_num0 as (N1 & N2). split; auto; intros n N; apply N2 in N; lia.
    + apply (closed_cons _ _ _ (bv s)); auto. intros u ->. contradiction.
    + destruct x; simpl in X; try contradiction; try (apply close_cons; auto; discriminate). destruct X as (-> & X). rewrite X in i_closed0.
      intros [|y l1] u v l2 E; simpl in E; injection E as E1 E2; [|apply (i_seen0 l1 u v l2 E2)]. subst. destruct i_closed0 as (l3 & u' & l4 & A & B). exists l3, u', l4. split; auto. eapply incl_tran; eauto.
    + apply shut_cons; auto. intros u v v' ->. contradiction.
Qed.
Lemma inv_close cap s t : binv cap s -> binv cap (set_closed (section s t BIdle (fun _ => [BClose t]))).
Proof.
  intros I. rewrite (section_eq cap) by auto. unfold clean_section, set_closed. set (w := bnext s :: bv s ++ bview s t).
  assert (incl (bv s) w) as G by (apply incl_tl, incl_appl, incl_refl).
  assert (incl (bview s t) w) as G' by (apply incl_tl, incl_appr, incl_refl).
  destruct I. constructor; simpl; auto.
  - intros u. ut u t; auto. eapply incl_tran; eauto.
  - intros y Y. eapply incl_tran; eauto.
  - intros y Y. eapply incl_tran; eauto.
  - intros a [<-|A]; [left; auto | apply G, i_macc0, A].
  - intros i. eapply incl_tran; eauto.
  - intros u [U|U]; [discriminate | apply (i_race0 u U)].
  - destruct i_num0 as (N1 & N2). split; auto; intros n N; apply N2 in N; lia.
  - exists [], t, (blog s). split; auto. eapply incl_tran; eauto.
  - apply close_cons; auto. discriminate.
  - apply shut_cons; auto. discriminate.
Qed.

Lemma nth_snoc {A} (l : list A) x k y : nth_error (l ++ [x]) k = Some y -> (k < length l /\ nth_error l k = Some y) \/ (k = length l /\ y = x).
Proof.
  intros H. destruct (Nat.lt_ge_cases k (length l)) as [L|L].
  - left. rewrite nth_error_app1 in H; auto.
  - right. rewrite nth_error_app2 in H by auto. destruct (k - length l) eqn:E; simpl in H; [injection H as <-; split; auto; lia | destruct n; discriminate].
Qed.
Lemma nth_lt {A} (l : list A) k y : nth_error l k = Some y -> k < length l.
Proof. intros H. apply nth_error_Some. congruence. Qed.
Lemma mod_neq cap a b : 2 <= cap -> a < b -> b < a + cap -> a mod cap <> b mod cap.
Proof.
  intros C L1 L2 E. pose proof (Nat.div_mod a cap ltac:(lia)) as A. pose proof (Nat.div_mod b cap ltac:(lia)) as B. rewrite E in A.
  assert (cap * (b / cap) - cap * (a / cap) = b - a) as D by lia. rewrite <- Nat.mul_sub_distr_l in D. destruct (b / cap - a / cap) as [|k]; [lia|]. rewrite Nat.mul_succ_r in D. lia.
Qed.
Lemma mod_S cap a : 2 <= cap -> (a mod cap + 1) mod cap = (a + 1) mod cap.
Proof. intros C. rewrite Nat.add_mod_idemp_l; auto. lia. Qed.

(** The touch without the race branch. *)
Lemma touch_eq cap s t i p e : binv cap s -> touch (clean_section s t p e) t i =
  mkB (slots s) (pidx s) (cidx s) (closed s) (bnext s :: bv s ++ bview s t) (upd (sacc s) i (bnext s :: sacc s i)) (bnext s :: macc s) (upd (bview s) t (bnext s :: bv s ++ bview s t)) (S (bnext s)) (upd (bpcs s) t p) (e (bnext s :: bv s ++ bview s t) ++ blog s).
Proof.
  intros I. unfold touch. rewrite (proj2 (ordered_incl _ _)); [reflexivity|]. simpl. rewrite upd_same. apply incl_tl, incl_appl. apply (i_sacc cap s I).
Qed.
Lemma inv_put cap s t v : 2 <= cap -> binv cap s -> closed s = false -> is_full cap s = false -> binv cap (put cap (touch (section s t BIdle (fun w => [BPush t v w])) t (pidx s)) v).
Proof.
  intros C I CL F. rewrite (section_eq cap), (touch_eq cap) by auto. unfold put. set (w := bnext s :: bv s ++ bview s t). cbn [slots pidx cidx closed bv sacc macc bview bnext bpcs blog app].
  assert (incl (bv s) w) as G by (apply incl_tl, incl_appl, incl_refl).
  assert (incl (bview s t) w) as G' by (apply incl_tl, incl_appr, incl_refl).
  destruct I. destruct i_idx0 as (X1 & X2). destruct i_del0 as (D1 & D2). destruct i_bnd0 as (B1 & B2).
  assert (S (length (pushes (blog s))) < length (pops (blog s)) + cap) as ROOM.
  { unfold is_full in F. apply Nat.eqb_neq in F. rewrite X1, X2, mod_S in F by auto. destruct (Nat.eq_dec (S (length (pushes (blog s)))) (length (pops (blog s)) + cap)) as [Y|]; [|lia]. exfalso. apply F. rewrite Nat.add_1_r, Y. rewrite <- Nat.add_mod_idemp_r, Nat.mod_same, Nat.add_0_r by lia. auto. }
  constructor; simpl; auto.
  - intros u. ut u t; auto. eapply incl_tran; eauto.
  - intros y Y. apply in_app_iff in Y. destruct Y as [Y | [<- | []]]; simpl; [eapply incl_tran; eauto | eapply incl_tran; eauto].
  - intros y Y. eapply incl_tran; eauto.
  - intros a [<-|A]; [left; auto | apply G, i_macc0, A].
  - intros i. destruct (Nat.eq_dec i (pidx s)) as [->|N]; [rewrite upd_same | rewrite upd_other by auto; eapply incl_tran; eauto]. intros a [<-|A]; [left; auto | apply G, (i_sacc0 _ _ A)].
  - intros u [U|U]; [discriminate | apply (i_race0 u U)].
  - destruct i_num0 as (N1 & N2). split; auto; intros n N; apply N2 in N; lia.
  - split; simpl; [rewrite app_length; lia|]. intros k v1 a1 w1 v2 a2 w2 P Q. apply nth_snoc in P. destruct P as [(_ & P) | (-> & _)]; [eapply D2; eauto|]. apply nth_lt in Q. lia.
  - split; simpl; [rewrite app_length; simpl; lia|]. intros k v1 a1 w1 v2 a2 w2 P Q. apply nth_snoc in Q. destruct Q as [(_ & Q) | (_ & Q)]; [eapply B2; eauto|]. injection Q as -> -> ->. apply nth_error_In in P. specialize (i_pop0 _ P). eapply incl_tran; eauto.
  - rewrite app_length. simpl. split; auto. rewrite X1. apply mod_S. auto.
  - intros j J1 J2. rewrite app_length in J2. simpl in J2. destruct (Nat.eq_dec j (length (pushes (blog s)))) as [->|N].
    + exists (acts_of t (blog s)), w. rewrite <- X1, upd_same. rewrite nth_error_app2, Nat.sub_diag by auto. reflexivity.
    + destruct (i_slots0 j J1) as (a & w' & H); [lia|]. exists a, w'. rewrite nth_error_app1 by lia. rewrite upd_other; auto. rewrite X1. apply mod_neq; auto; lia.
  - rewrite CL in *. intros u [U|U]; [discriminate | apply (i_closed0 u U)].
  - apply close_cons; auto. discriminate.
  - intros [|y l1] u v' w' l2 E; simpl in E; injection E as E1 E2; [|apply (i_shut0 l1 u v' w' l2 E2)]. subst l2. rewrite CL in i_closed0. exact i_closed0.
Qed.
Lemma inv_take cap s t : 2 <= cap -> binv cap s -> is_empty s = false -> binv cap (take cap (touch (section s t BIdle (fun w => [BPop t (slots s (cidx s)) w])) t (cidx s))).
Proof.
  intros C I F. rewrite (section_eq cap), (touch_eq cap) by auto. unfold take. set (w := bnext s :: bv s ++ bview s t). cbn [slots pidx cidx closed bv sacc macc bview bnext bpcs blog app].
  assert (incl (bv s) w) as G by (apply incl_tl, incl_appl, incl_refl).
  assert (incl (bview s t) w) as G' by (apply incl_tl, incl_appr, incl_refl).
  destruct I. destruct i_idx0 as (X1 & X2). destruct i_del0 as (D1 & D2). destruct i_bnd0 as (B1 & B2).
  assert (length (pops (blog s)) < length (pushes (blog s))) as SOME.
  { unfold is_empty in F. apply Nat.eqb_neq in F. rewrite X1, X2 in F. destruct (Nat.eq_dec (length (pops (blog s))) (length (pushes (blog s)))) as [Y|]; [|lia]. congruence. }
  constructor; simpl; auto.
  - intros u. ut u t; auto. eapply incl_tran; eauto.
  - intros y Y. eapply incl_tran; eauto.
  - intros y Y. apply in_app_iff in Y. destruct Y as [Y | [<- | []]]; simpl; [eapply incl_tran; eauto | eapply incl_tran; eauto].
  - intros a [<-|A]; [left; auto | apply G, i_macc0, A].
  - intros i. destruct (Nat.eq_dec i (cidx s)) as [->|N]; [rewrite upd_same | rewrite upd_other by auto; eapply incl_tran; eauto]. intros a [<-|A]; [left; auto | apply G, (i_sacc0 _ _ A)].
  - intros u [U|U]; [discriminate | apply (i_race0 u U)].
  - destruct i_num0 as (N1 & N2). split; auto; intros n N; apply N2 in N; lia.
  - split; simpl; [rewrite app_length; simpl; lia|]. intros k v1 a1 w1 v2 a2 w2 P Q. apply nth_snoc in Q. destruct Q as [(_ & Q) | (K & Q)]; [eapply D2; eauto|]. injection Q as -> -> ->. subst k.
    destruct (i_slots0 _ (le_n _) SOME) as (a & w' & H). rewrite H in P. rewrite X2. injection P as <- <- <-. split; auto. apply nth_error_In in H. specialize (i_push0 _ H). eapply incl_tran; eauto.
  - split; simpl; [rewrite app_length; simpl; lia|]. intros k v1 a1 w1 v2 a2 w2 P Q. apply nth_snoc in P. destruct P as [(_ & P) | (-> & _)]; [eapply B2; eauto|]. apply nth_lt in Q. lia.
  - rewrite app_length. simpl. split; auto. rewrite X2. apply mod_S. auto.
  - intros j J1 J2. rewrite app_length in J1. simpl in J1. apply i_slots0; lia.
  - apply (closed_cons _ _ _ (bv s)); auto. discriminate.
  - apply close_cons; auto. discriminate.
  - apply shut_cons; auto. discriminate.
Qed.
Lemma inv_pc cap s t p : binv cap s -> binv cap (mkB (slots s) (pidx s) (cidx s) (closed s) (bv s) (sacc s) (macc s) (bview s) (bnext s) (upd (bpcs s) t p) (blog s)).
Proof. intros []. constructor; auto. Qed.
Lemma inv_push_section cap s t v p e : 2 <= cap -> binv cap s -> (e = [] \/ e = [BFull t]) -> binv cap (push_section cap s t v p e).
Proof.
  intros C I E. unfold push_section. destruct (closed s) eqn:CL; [|destruct (is_full cap s) eqn:F].
  - apply inv_minor; auto. intros w. right. exists (BClosed t w). simpl. auto.
  - apply inv_minor; auto. intros w. destruct E as [-> | ->]; auto. right. exists (BFull t). simpl. auto.
  - apply inv_put; auto.
Qed.
Lemma inv_pop_section cap s t p e : 2 <= cap -> binv cap s -> (e = [] \/ e = [BEmpty t]) -> binv cap (pop_section cap s t p e).
Proof.
  intros C I E. unfold pop_section. destruct (is_empty s) eqn:F; [destruct (closed s) eqn:CL|].
  - apply inv_minor; auto. intros w. right. exists (BClosed t w). simpl. auto.
  - apply inv_minor; auto. intros w. destruct E as [-> | ->]; auto. right. exists (BEmpty t). simpl. auto.
  - apply inv_take; auto.
Qed.
Lemma bstep_inv cap s l s' : 2 <= cap -> binv cap s -> bstep cap s l = Some s' -> binv cap s'.
Proof.
  intros C I X. destruct l; simpl in X.
  - destruct (bpcs s t); try discriminate. injection X as <-. destruct I. constructor; simpl; auto.
    + intros u. destruct (Nat.eq_dec t u) as [<-|N]; [rewrite upd_same; simpl; intros a [<-|A]; [left; auto | right; apply i_own0; auto] | rewrite upd_other by auto; simpl; auto].
    + intros u [U|U]; [discriminate | apply (i_race0 u U)].
    + destruct i_num0 as (N1 & N2). split; [constructor; auto; intros N; apply N2 in N; lia | intros n [<-|N]; auto; apply N2 in N; lia].
    + apply (closed_cons _ _ _ (bv s)); auto using incl_refl. discriminate.
    + apply close_cons; auto. discriminate.
    + apply shut_cons; auto. discriminate.
  - destruct (bpcs s t); try discriminate. injection X as <-. apply inv_pc; auto.
  - destruct (bpcs s t) as [|[]| |]; try discriminate; injection X as <-; try (apply inv_push_section; auto); try (apply inv_pop_section; auto).
    + apply inv_close; auto.
    + apply inv_minor; auto. intros w. right. destruct (closed s) eqn:CL; [exists (BClosed t w) | exists (BOpen t)]; simpl; auto.
    + apply inv_minor; auto. intros w. right. exists (BTime t). simpl; auto.
  - destruct (bpcs s t); try discriminate. injection X as <-. apply inv_pc; auto.
  - destruct (bpcs s t) as [| |[]|]; try discriminate; injection X as <-; apply inv_pc; auto.
Qed.
Lemma binit_inv cap : 2 <= cap -> binv cap binit.
Proof.
  intros C. constructor; simpl; auto.
  - intros t a [].
  - intros x [].
  - intros x [].
  - intros a [].
  - intros i a [].
  - intros t [].
  - split; [constructor | intros n []].
  - split; auto. intros [] ? ? ? ? ? ? E; discriminate.
  - split; simpl; [lia|]. intros [] ? ? ? ? ? ? E; discriminate.
  - rewrite Nat.mod_0_l by lia. auto.
  - intros j J1 J2. lia.
  - intros l1 t w l2 E. destruct l1; discriminate.
  - intros l1 t v w l2 E. destruct l1; discriminate.
Qed.
Lemma breach_inv cap s : 2 <= cap -> reachable (bstep cap) binit s -> binv cap s.
Proof. intros C. apply (reachable_inv (bstep cap) (binv cap) binit (binit_inv cap C)). intros ? ? ? I E. exact (bstep_inv cap _ _ _ C I E). Qed.
