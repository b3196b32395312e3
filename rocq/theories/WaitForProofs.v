(** Proofs about waitfor_all(). *)
From Coq Require Import List Arith Bool Lia Permutation Sorted.
From Verif Require Import Base WaitFor WaitForSpec.
Import ListNotations.

(** ** One stream *)
Record SInv (st : nat) (s : sst) : Prop := mkSI {
  s1_done : s_done s = true -> s_rep s = [(s_st s, s_status s)] /\ s_st s = st;
  s1_todo : s_done s = false -> s_rep s = [] /\ (s_ph s = SCtor \/ s_cb s = CPending);
  s1_pend : s_cb s = CPending -> s_done s = false;
  s1_ctor : s_ph s = SCtor -> s_cb s = CNone /\ s_done s = false;
  s1_ret : forall a b, s_ph s = SRet a b -> s_done s = true /\ a = s_st s /\ b = s_status s;
  s1_blk : s_ph s = SBlock -> s_cb s = CPending \/ s_cb s = CNotify
}.
Lemma sinv_init st : SInv st s_init.
Proof. constructor; simpl; auto; discriminate. Qed.
Lemma sinv_step st s l s' : SInv st s -> s_step st s l = Some s' -> SInv st s'.
Proof.
  intros [D T P C R B] E. destruct s as [ph cb a b d rep ub]; simpl in *. destruct l as [err|status| |].
  - destruct ph; try discriminate. destruct (C eq_refl) as (-> & ->). destruct T as (-> & _); auto.
    destruct err as [e|]; injection E as <-; constructor; simpl; intros; try discriminate; auto.
  - destruct cb; try discriminate. specialize (P eq_refl). subst d. destruct T as (-> & _); auto.
    destruct ph; try (destruct (R _ _ eq_refl); discriminate); injection E as <-; constructor; simpl; intros; try discriminate; auto; destruct (C eq_refl); discriminate.
  - destruct cb; try discriminate. destruct d; [|destruct T as (_ & [-> |]); [auto|destruct C; auto; discriminate|discriminate]].
    destruct D as (-> & ->); auto.
    destruct ph; injection E as <-; constructor; simpl; intros; try discriminate; auto; destruct C; auto; discriminate.
  - destruct ph; try discriminate. injection E as <-. destruct d.
    + destruct D as (-> & ->); auto. constructor; simpl; intros; try discriminate; auto. injection H as <- <-. auto.
    + destruct T as (-> & [| ->]); auto; try discriminate. constructor; simpl; intros; try discriminate; auto.
Qed.
Lemma sinv_reachable st s : reachable (s_step st) s_init s -> SInv st s.
Proof. revert s. apply (reachable_inv (s_step st) (SInv st)); [apply sinv_init|apply sinv_step]. Qed.

Lemma scalm_step st s l s' : s_calm st s l = Some s' -> s_step st s l = Some s'.
Proof. unfold s_calm. destruct l, (s_cb s); try discriminate; auto. Qed.
Definition s_over (s : sst) : bool := match s_ph s with SRet _ _ => true | _ => false end.
Lemma scalm_inv st s : reachable (s_calm st) s_init s -> SInv st s /\ s_ub s = false /\ (s_over s = true -> s_cb s <> CNotify).
Proof.
  revert s. apply reachable_inv.
  - splits; [apply sinv_init|auto|discriminate].
  - intros s l s' (I & U & N) E. assert (E0 := scalm_step _ _ _ _ E). assert (I' := sinv_step _ _ _ _ I E0). splits; auto; destruct I, s as [ph cb a b d rep ub]; simpl in *; subst ub; unfold s_over, s_calm in *; simpl in *.
    + destruct l as [err|status| |], cb, ph; simpl in *; try discriminate; try (destruct err); try (injection E0 as <-); auto.
      * exfalso. edestruct s1_ret0 as (? & _); eauto. specialize (s1_pend0 eq_refl). congruence.
      * exfalso. now apply N.
    + destruct l as [err|status| |], cb, ph; simpl in *; try discriminate; try (destruct err); try (injection E0 as <-); simpl; try discriminate; try congruence; try (destruct d; discriminate).
      all: intros _; exfalso; edestruct s1_ret0 as (? & _); eauto; specialize (s1_pend0 eq_refl); congruence.
Qed.

(** ** Many streams *)
Lemma insert_in x y l : In y (insert x l) <-> y = x \/ In y l.
Proof.
  induction l as [|z l IH]; simpl; [intuition|]. destruct (Nat.ltb_spec x z); simpl; [intuition|]. destruct (Nat.eqb_spec x z) as [->|]; simpl; [intuition|]. rewrite IH. intuition.
Qed.
Lemma insert_sorted x l : StronglySorted lt l -> StronglySorted lt (insert x l).
Proof.
  induction 1 as [|z l S IH F]; simpl; [repeat constructor|]. destruct (Nat.ltb_spec x z).
  - constructor; [constructor; auto|]. constructor; auto. eapply Forall_impl; [|exact F]. simpl. intros; lia.
  - destruct (Nat.eqb_spec x z); [constructor; auto|]. constructor; auto. apply Forall_forall. intros y Y. apply insert_in in Y. destruct Y as [->|Y]; [lia|]. rewrite Forall_forall in F. auto.
Qed.
Lemma set_sorted l : StronglySorted lt (set_of l).
Proof. induction l; simpl; [constructor|now apply insert_sorted]. Qed.
Lemma set_in l y : In y (set_of l) <-> In y l.
Proof. induction l as [|x l IH]; simpl; [tauto|]. rewrite insert_in, IH. intuition. Qed.
Lemma sorted_nodup l : StronglySorted lt l -> NoDup l.
Proof. induction 1 as [|z l S IH F]; constructor; auto. intros I. rewrite Forall_forall in F. specialize (F z I). lia. Qed.
Lemma erase_in x y l : In y (erase x l) <-> In y l /\ y <> x.
Proof. unfold erase. rewrite filter_In. destruct (Nat.eqb_spec y x); simpl; intuition congruence. Qed.
Lemma erase_sorted x l : StronglySorted lt l -> StronglySorted lt (erase x l).
Proof.
  induction 1 as [|z l S IH F]; simpl; [constructor|]. destruct (negb (z =? x)); auto. constructor; auto. apply Forall_forall. intros y Y. apply erase_in in Y. rewrite Forall_forall in F. now apply F.
Qed.
Lemma erase_id x l : ~ In x l -> erase x l = l.
Proof. induction l as [|y l IH]; simpl; auto. intros N. destruct (Nat.eqb_spec y x); [intuition|]. simpl. f_equal. apply IH. intuition. Qed.
Lemma erase_cons x z l : erase x (z :: l) = if z =? x then erase x l else z :: erase x l.
Proof. unfold erase. simpl. now destruct (z =? x). Qed.
Lemma erase_perm x l : NoDup l -> In x l -> Permutation l (x :: erase x l).
Proof.
  induction 1 as [|z l N D IH]; [easy|]. rewrite erase_cons. intros [->|I].
  - rewrite Nat.eqb_refl. now rewrite erase_id.
  - destruct (Nat.eqb_spec z x) as [->|]; [easy|]. rewrite perm_swap. constructor. auto.
Qed.
Lemma succ_spec x l : StronglySorted lt l -> match succ_in x l with Some y => In y l /\ x < y /\ (forall z, In z l -> x < z -> y <= z) | None => forall z, In z l -> z <= x end.
Proof.
  unfold succ_in. induction 1 as [|z l S IH F]; simpl; [easy|]. destruct (Nat.ltb_spec x z).
  - splits; auto. intros y [->|Y]; auto. rewrite Forall_forall in F. specialize (F y Y). lia.
  - destruct (find _ l) as [y|]; [destruct IH as (A & B & C); splits; auto; intros w [->|W] ?; auto; lia|]. intros y [->|Y]; auto.
Qed.
Lemma sorted_head x l z : StronglySorted lt (x :: l) -> In z (x :: l) -> x <= z.
Proof. intros S. inversion S as [|? ? _ F]; subst. intros [->|I]; auto. rewrite Forall_forall in F. specialize (F z I). lia. Qed.

(** [todo p st]: the loop of the constructor has still to register st. *)
Definition todo (p : mphase) (st : nat) : Prop :=
  match p with MAdd x | MFail x _ => x <= st | MInc (Some x) => x < st | MInc None => True | _ => False end.
Record MInv (l0 : list nat) (s : mst) : Prop := mkMI {
  m1_sorted : StronglySorted lt (m_stx s);
  m1_perm : Permutation (m_stx s ++ map fst (m_res s)) (set_of l0);
  m1_rep : m_rep s = rev (m_res s);
  m1_pend : forall st, m_cb s st = CPending -> In st (m_stx s);
  m1_in : forall st, In st (m_stx s) -> (todo (m_ph s) st /\ m_cb s st = CNone) \/ (~ todo (m_ph s) st /\ m_cb s st = CPending);
  m1_cur : forall x, (m_ph s = MAdd x \/ exists e, m_ph s = MFail x e) -> In x (m_stx s);
  m1_ret : forall r, m_ph s = MRet r -> m_stx s = [] /\ r = m_res s;
  m1_blk : m_ph s = MBlock -> m_stx s = [] -> exists st, In st l0 /\ m_cb s st = CNotify;
  m1_ntf : forall st, m_cb s st = CNotify -> m_stx s = [] /\ In st l0
}.

Lemma minv_init l0 : MInv l0 (m_init l0).
Proof.
  constructor; simpl; auto; try discriminate.
  - apply set_sorted.
  - now rewrite app_nil_r.
  - intros x [|(e & ?)]; discriminate.
Qed.
Lemma in_l0 l0 s st : MInv l0 s -> In st (m_stx s) -> In st l0.
Proof. intros I H. apply set_in. apply (Permutation_in _ (m1_perm _ _ I)). apply in_or_app. auto. Qed.
Lemma move_perm (x y : nat) l (r : list (nat * nat)) l0 : NoDup l -> In x l -> Permutation (l ++ map fst r) l0 -> Permutation (erase x l ++ map fst (r ++ [(x, y)])) l0.
Proof.
  intros N I P. rewrite <- P. rewrite map_app. simpl. rewrite app_assoc. rewrite <- Permutation_cons_append. rewrite app_comm_cons. apply Permutation_app_tail. symmetry. now apply erase_perm.
Qed.
Ltac cu z x := destruct (Nat.eq_dec z x) as [->|]; [rewrite upd_same|rewrite upd_other by auto].
Lemma minv_step l0 s l s' : MInv l0 s -> m_step s l = Some s' -> m_ub s' = false -> MInv l0 s'.
Proof.
  intros I E U. pose proof (in_l0 l0 s) as L0. pose proof (fun st => L0 st I) as L1; clear L0. destruct I as [S P Rp Pe In_ Cu Re Bl Nt].
  assert (ND := sorted_nodup _ S). destruct s as [ph stx res cb rep ub]; simpl in *.
  destruct l as [|err| |st status|st|]; simpl in E.
  - destruct ph as [| |[x|]| | |]; try discriminate.
    + destruct (existsb _ _) eqn:X; [|injection E as <-; discriminate]. injection E as <-. simpl in U.
      pose proof (succ_spec x stx S) as Sp. destruct (succ_in x stx) as [y|]; constructor; simpl; auto; try discriminate.
      * destruct Sp as (A & B & C). intros z Z. destruct (In_ z Z) as [(T & N)|(T & N)]; [left|right]; split; auto; simpl in T. lia.
      * intros z [H|(e & H)]; [injection H as <-; now destruct Sp|discriminate].
      * intros z Z. right. destruct (In_ z Z) as [(T & N)|(T & N)]; auto. specialize (Sp z Z). simpl in T. lia.
      * intros z [H|(e & H)]; discriminate.
    + injection E as <-. destruct stx as [|y stx]; constructor; simpl; auto; try discriminate; try easy.
      * intros z [H|(e & H)]; discriminate.
      * intros z Z. left. destruct (In_ z Z) as [(_ & N)|(T & N)]; [|now destruct T]. split; auto. now apply (sorted_head y stx).
      * intros z [H|(e & H)]; [injection H as <-; auto|discriminate].
  - destruct ph as [x| | | | |]; try discriminate. assert (Ix : In x stx) by (apply Cu; auto). destruct err as [e|]; injection E as <-; simpl in U; constructor; simpl; auto; try discriminate.
    + intros z [H|(e' & H)]; [discriminate|injection H as <- <-; auto].
    + intros z. cu z x; auto.
    + intros z Z. cu z x; [right; split; auto; lia|]. destruct (In_ z Z) as [(T & N)|(T & N)]; [left|right]; simpl in T; split; auto; lia.
    + intros z [H|(e' & H)]; discriminate.
    + intros z. cu z x; [discriminate|auto].
  - destruct ph as [|x e| | | |]; try discriminate. assert (Ix : In x stx) by (apply Cu; eauto). injection E as <-. simpl in U. constructor; simpl; auto; try discriminate.
    + now apply erase_sorted.
    + now apply move_perm.
    + rewrite rev_app_distr, Rp. auto.
    + intros z Z. apply erase_in. split; auto. intros ->. destruct (In_ x Ix) as [(T & N)|(T & N)]; [congruence|simpl in T; lia].
    + intros z Z. apply erase_in in Z. destruct Z as (Z & N'). destruct (In_ z Z) as [(T & N)|(T & N)]; [left|right]; simpl in T; split; auto; lia.
    + intros z [H|(e' & H)]; discriminate.
    + intros z Z. destruct (Nt z Z) as (-> & A). auto.
  - destruct (cb st) eqn:Cb; try discriminate. assert (Is := Pe st Cb). assert (NR : forall r, ph <> MRet r) by (intros r ->; destruct (Re r eq_refl) as (-> & _); easy).
    assert (E' : s' = mkM ph (erase st stx) (res ++ [(st, status)]) (upd cb st (match erase st stx with [] => CNotify | _ => CEnd end)) ((st, status) :: rep) ub).
    { destruct ph; try (now injection E as <-); now destruct (NR r). } clear E. subst s'. simpl in U. constructor; simpl; auto.
    + now apply erase_sorted.
    + now apply move_perm.
    + rewrite rev_app_distr, Rp. auto.
    + intros z. cu z st; [destruct (erase st stx); discriminate|]. intros Z. apply erase_in. auto.
    + intros z Z. apply erase_in in Z. destruct Z as (Z & N). rewrite upd_other by auto. auto.
    + intros z H. apply erase_in. split; auto. intros ->. assert (T : todo ph st) by (destruct H as [->|(e & ->)]; simpl; auto). destruct (In_ st Is) as [(? & N)|(N & _)]; [congruence|easy].
    + intros r ->. now destruct (NR r).
    + intros H X. exists st. rewrite upd_same, X. auto.
    + intros z. cu z st; [destruct (erase st stx); [auto|discriminate]|]. intros Z. destruct (Nt z Z) as (-> & A). auto.
  - destruct (cb st) eqn:Cb; try discriminate. destruct (Nt st Cb) as (-> & Il).
    assert (NR : forall r, ph <> MRet r) by (intros r ->; injection E as <-; discriminate).
    assert (E' : s' = mkM (match ph with MBlock => MWait | p => p end) [] res (upd cb st CEnd) rep ub).
    { destruct ph; try (now injection E as <-); now destruct (NR r). } clear E. subst s'. constructor; simpl; auto.
    + intros z. cu z st; [discriminate|apply Pe].
    + easy.
    + intros x H. apply (Cu x). destruct ph; auto; destruct H as [H|(? & H)]; discriminate.
    + intros r H. destruct ph; try discriminate; now destruct (NR r0).
    + intros H. destruct ph; discriminate.
    + intros z. cu z st; [discriminate|]. apply Nt.
  - destruct ph; try discriminate. injection E as <-. simpl in U. destruct stx as [|y stx]; constructor; simpl; auto; try discriminate.
    + intros z [H|(e' & H)]; discriminate.
    + intros r H. injection H as <-. auto.
    + intros z [H|(e' & H)]; discriminate.
Qed.
Lemma m_ub_mono s l s' : m_step s l = Some s' -> m_ub s' = false -> m_ub s = false.
Proof.
  intros E U. destruct s as [ph stx res cb rep ub]; simpl in *. destruct l as [|err| |st status|st|]; simpl in E; repeat match type of E with context [match ?x with _ => _ end] => destruct x end; try discriminate; injection E as <-; simpl in U; congruence.
Qed.
Lemma minv_reachable l0 s : reachable m_step (m_init l0) s -> m_ub s = false -> MInv l0 s.
Proof.
  revert s. apply (reachable_inv m_step (fun s => m_ub s = false -> MInv l0 s)); [intros _; apply minv_init|]. intros s l s' I E U. apply (minv_step l0 s l s'); auto. apply I. eapply m_ub_mono; eauto.
Qed.

Lemma mcalm_step l0 s l s' : m_calm l0 s l = Some s' -> m_step s l = Some s'.
Proof. unfold m_calm. destruct l as [|[e|]| |st status|st|]; try discriminate; auto; [destruct (m_ph s); try discriminate; auto|destruct (existsb _ _); try discriminate; auto]. Qed.
(** In a calm execution the constructor sees all streams it started with. *)
Lemma mcalm_inv l0 s : reachable (m_calm l0) (m_init l0) s ->
  m_ub s = false /\ MInv l0 s /\ (match m_ph s with MAdd _ | MInc None => True | MInc (Some x) => In x (m_stx s) | MFail _ _ => False | MRet _ => forall st, m_cb s st <> CNotify | _ => True end).
Proof.
  revert s. apply reachable_inv; [splits; simpl; auto; apply minv_init|].
  intros s l s' (U & I & H) E. assert (E0 := mcalm_step _ _ _ _ E).
  assert (U' : m_ub s' = false).
  { destruct s as [ph stx res cb rep ub]; simpl in *. subst ub. destruct l as [|err| |st status|st|]; simpl in E0.
    - destruct ph as [| |[x|]| | |]; try discriminate; [|now injection E0 as <-]. assert (X : existsb (Nat.eqb x) stx = true) by (apply existsb_exists; exists x; split; auto; apply Nat.eqb_refl). rewrite X in E0. now injection E0 as <-.
    - destruct ph, err; try discriminate; now injection E0 as <-.
    - destruct ph; try discriminate; now injection E0 as <-.
    - destruct (cb st) eqn:Cb; try discriminate. assert (X := m1_pend _ _ I st Cb). destruct ph; try (now injection E0 as <-); destruct (m1_ret _ _ I r eq_refl) as (Y & _); simpl in *; now subst stx.
    - destruct (cb st) eqn:Cb; try discriminate. destruct ph; try (now injection E0 as <-); now destruct (H st).
    - destruct ph; try discriminate; now injection E0 as <-. }
  splits; auto; [eapply minv_step; eauto|].
  destruct s as [ph stx res cb rep ub]; simpl in *. destruct l as [|err| |st status|st|]; simpl in E, E0.
  - destruct ph as [| |[x|]| | |]; try discriminate; [|injection E0 as <-; simpl; now destruct stx]. destruct (existsb _ _); injection E0 as <-; simpl; auto. now destruct (succ_in x stx).
  - destruct ph as [x| | | | |], err; try discriminate; injection E0 as <-; simpl; auto. apply (m1_cur _ _ I x). auto.
  - destruct ph; try discriminate. easy.
  - destruct (cb st); try discriminate. destruct ph; try discriminate; injection E0 as <-; simpl; auto.
  - destruct (cb st); try discriminate. destruct ph; try discriminate; injection E0 as <-; simpl; auto. intros z. cu z st; [discriminate|auto].
  - destruct (existsb _ l0) eqn:X; try discriminate. destruct ph; try discriminate. injection E0 as <-. simpl. destruct stx; auto. intros z Z.
    destruct (m1_ntf _ _ I z Z) as (_ & Y). assert (F : false = true); [|discriminate]. rewrite <- X. apply existsb_exists. exists z. split; auto. simpl in Z. now rewrite Z.
Qed.
