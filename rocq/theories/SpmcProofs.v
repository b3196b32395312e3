(** The invariant holds in every execution. *)
From Coq Require Import List Arith Bool Lia Sorted.
From Verif Require Import Base Spmc SpmcSpec SpmcFacts.
Import ListNotations.

Section Inv.
Variable W : nat.
Variable pinned : nat -> bool.
Notation step := (step W pinned).
Notation inv := (inv pinned).
Ltac nilev := intros x [].
Lemma inc_ok b : S b < W -> inc W b = S b. Proof. unfold inc. intros H. destruct (Nat.eqb_spec (S b) W); lia. Qed.
Lemma diff_ok b t : t <= b -> diff W b t = b - t. Proof. unfold diff. intros H. destruct (Nat.leb_spec t b); lia. Qed.
Lemma nth_lt {A} (l : list A) k x : nth_error l k = Some x -> k < length l. Proof. intros E. apply nth_error_Some. congruence. Qed.
Ltac mk I := constructor; try exact (i_pn _ _ _ I); try exact (i_cells _ _ _ I); try exact (i_ictx _ _ _ I); try exact (i_stolen _ _ _ I); cbn [log own next top cell ictx thief arr cap bottom hand pushing].

Lemma step_push s Q c s' : inv s Q -> step s (Push c) = Some s' -> inv s' Q.
Proof.
  intros I E. unfold Spmc.step in E. destruct (own s) eqn:O; try discriminate. injection E as <-.
  pose proof (i_abs _ _ _ I) as A. pose proof (i_len _ _ _ I) as L. pose proof (i_num _ _ _ I) as N. pose proof (i_cap _ _ _ I) as C. unfold lim in *. rewrite O in *. cbn [hand pushing] in *. mk I; unfold lim; cbn [log own next top cell ictx thief arr cap bottom hand pushing]; auto.
  - apply abs_neutral; simpl; auto.
  - apply (i_at _ _ _ I).
  - unfold own_ok. simpl. splits; auto; lia.
  - simpl. lia.
  - intros n [X|Hn]; [discriminate|]. assert (X := i_pn _ _ _ I n Hn). lia.
  - intros a j n Hn. apply (i_cells _ _ _ I) in Hn. lia.
  - intros n d [X|X]; [injection X as <- <-; split; [lia|apply upd_same]|]. apply (i_ictx _ _ _ I) in X. split; [lia|]. rewrite upd_other; [apply X|lia].
  - intros u n [X|X]; [discriminate|]. apply (i_stolen _ _ _ I) in X. split; [lia|]. rewrite upd_other; [apply X|lia].
  - intros u. apply (thief_mono pinned s); cbn [next ictx arr top]; auto; [apply I|intros n H; apply upd_other; lia|].
    intros _ H. unfold lim, at_ in *. cbn [own bottom cell arr cap]. rewrite O in H. auto.
Qed.
Lemma step_own s Q s' : inv s Q -> own_step W s = Some s' -> pushes (log s') < W -> exists Q', inv s' Q'.
Proof.
  intros I E HW. unfold own_step in E.
  assert (HW' : pushes (log s) < W). { destruct (own s); try discriminate E; repeat match type of E with context [if ?b then _ else _] => destruct b | context [match ?b with Some _ => _ | None => _ end] => destruct b end; injection E as <-; simpl in HW; auto. }
  pose proof (i_abs _ _ _ I) as A. pose proof (i_len _ _ _ I) as L. pose proof (i_num _ _ _ I) as N. pose proof (i_cap _ _ _ I) as C. pose proof (i_own _ _ _ I) as Ow. pose proof (i_at _ _ _ I) as At. unfold own_ok in Ow. rewrite <- (proj2 N) in HW'. apply proj1 in N. clear HW.
  destruct (own s) as [|n b|n b t|n b|n b|b|b|b n|b o|] eqn:O; try discriminate.
  - (* PTop *) injection E as <-. exists Q. assert (X : lim s = bottom s) by (unfold lim; now rewrite O). apply inv_own; auto; rewrite ?O; try reflexivity; [simpl; auto|nilev|]. unfold own_ok. simpl. splits; try lia; auto.
  - (* PArr *) destruct Ow as (O1 & O2 & O3 & O4). assert (X : lim s = bottom s) by (unfold lim; now rewrite O). cbn [pushing] in N.
    assert (Tb : t <= b) by lia. rewrite (diff_ok _ _ Tb) in E. destruct (Nat.ltb_spec (cap s (arr s) - 1) (b - t)) as [F|F].
    + injection E as <-. exists Q. set (s' := mkSt _ _ _ _ _ _ _ _ _ _).
      assert (K : forall j, t <= j < b -> at_ s' j = at_ s j). { intros j Hj. unfold at_, s'. cbn [cell arr cap]. rewrite !upd_same. apply copy_spec; lia. }
      assert (L' : lim s' = lim s) by (unfold s', lim; simpl; rewrite O; reflexivity).
      constructor; rewrite ?L'; try exact (i_ictx _ _ _ I); try exact (i_stolen _ _ _ I); auto.
      * unfold s'. cbn [top]. intros k m Hk. rewrite K; auto. apply nth_lt in Hk. lia.
      * unfold s'. cbn [cap arr top]. rewrite upd_same. lia.
      * unfold own_ok, s'. cbn [own bottom next top cap arr]. rewrite upd_same. splits; auto; lia.
      * unfold s'. cbn [own pushing next log]. split; auto. apply (i_num _ _ _ I).
      * intros m Hm. apply (i_pn _ _ _ I) in Hm. rewrite O in Hm. exact Hm.
      * unfold s'. cbn [cell next]. intros a j m Hm. unfold upd at 1 in Hm. destruct (_ =? _); [|now apply (i_cells _ _ _ I) in Hm]. apply copy_cells in Hm. destruct Hm as [Hm|[y Hm]]; [discriminate|]. now apply (i_cells _ _ _ I) in Hm.
      * intros u. apply (thief_mono pinned s); unfold s'; cbn [next ictx arr top]; auto; [apply I|]. intros _ H. fold s'. rewrite L', K by lia. splits; auto. intros a Ha. unfold s'. cbn [cell cap]. rewrite !upd_other by lia. auto.
    + injection E as <-. exists Q. apply inv_own; auto; rewrite ?O; try reflexivity; [simpl; auto|nilev|]. unfold own_ok. simpl. splits; auto; lia.
  - (* PCell *) destruct Ow as (O1 & O2 & O3). assert (X : lim s = bottom s) by (unfold lim; now rewrite O). cbn [pushing] in N. injection E as <-. exists Q. set (s' := mkSt _ _ _ _ _ _ _ _ _ _).
    assert (K : forall j, top s <= j < b -> at_ s' j = at_ s j). { intros j Hj. unfold at_, s'. cbn [cell arr cap]. rewrite upd_same. apply upd_other. apply mod_neq; lia. }
    assert (L' : lim s' = lim s) by (unfold s', lim; simpl; rewrite O; reflexivity).
    constructor; rewrite ?L'; try exact (i_ictx _ _ _ I); try exact (i_stolen _ _ _ I); auto.
    * unfold s'. cbn [top]. intros k m Hk. rewrite K; auto. apply nth_lt in Hk. lia.
    * unfold own_ok, s'. cbn [own bottom next top cap arr]. splits; auto. unfold at_. cbn [cell arr cap]. rewrite upd_same. apply upd_same.
    * unfold s'. cbn [own pushing next log]. split; auto. apply (i_num _ _ _ I).
    * intros m Hm. apply (i_pn _ _ _ I) in Hm. rewrite O in Hm. exact Hm.
    * unfold s'. cbn [cell next]. intros a j m Hm. unfold upd in Hm. destruct (_ =? _); [|now apply (i_cells _ _ _ I) in Hm]. destruct (_ =? _); [injection Hm as <-; lia|]. now apply (i_cells _ _ _ I) in Hm.
    * intros u. apply (thief_mono pinned s); unfold s'; cbn [next ictx arr top]; auto; [apply I|]. intros _ H. fold s'. rewrite L', K by lia. splits; auto. intros a Ha. unfold s'. cbn [cell cap]. destruct (Nat.eq_dec a (arr s)) as [->|Na]; [|now rewrite upd_other]. rewrite upd_same. apply upd_other. apply mod_neq; lia.
  - (* PBot *) destruct Ow as (O1 & O2 & O3 & O4). assert (X : lim s = bottom s) by (unfold lim; now rewrite O). cbn [pushing hand] in *. rewrite inc_ok in E by lia. injection E as <-. exists (Q ++ [n]). mk I; unfold lim; cbn [log own next top cell ictx thief arr cap bottom hand pushing].
    + apply abs_push; auto. intros m Hm. apply (i_pn _ _ _ I) in Hm. rewrite O in Hm. cbn [pushing] in Hm. lia.
    + rewrite app_length. simpl. lia.
    + intros k m Hk. unfold at_. cbn [cell arr cap top]. destruct (Nat.lt_ge_cases k (length Q)) as [D|D]; [rewrite nth_error_app1 in Hk by auto; now apply At|]. assert (k = length Q) by (apply nth_lt in Hk; rewrite app_length in Hk; simpl in Hk; lia). subst k. rewrite nth_error_app2, Nat.sub_diag in Hk by auto. injection Hk as <-. rewrite <- L, X, O1. exact O4.
    + lia.
    + unfold own_ok. simpl. lia.
    + split; [lia|]. apply (i_num _ _ _ I).
    + intros m [Hm|Hm]; [injection Hm as <-; lia|]. apply (i_pn _ _ _ I) in Hm. rewrite O in Hm. cbn [pushing] in Hm. lia.
    + intros m c [Hm|Hm]; [discriminate|]. now apply (i_ictx _ _ _ I).
    + intros u m [Hm|Hm]; [discriminate|]. now apply (i_stolen _ _ _ I u).
    + intros u. apply (thief_mono pinned s); cbn [next ictx arr top]; auto; [apply I|]. intros _ H. unfold lim at 1. cbn [own bottom]. splits; auto; lia.
  - (* QBot *) assert (X : lim s = bottom s) by (unfold lim; now rewrite O). injection E as <-. exists Q. mk I; unfold lim; cbn [log own next top cell ictx thief arr cap bottom hand pushing] in *; auto; try lia.
    + unfold own_ok. reflexivity.
    + split; [lia|]. apply (i_num _ _ _ I).
    + intros m Hm. apply (i_pn _ _ _ I) in Hm. rewrite O in Hm. exact Hm.
    + intros u. apply (thief_mono pinned s); cbn [next ictx arr top]; auto; [apply I|]. intros _ H. unfold lim at 1. cbn [own bottom]. splits; auto; lia.
  - (* QTop *) assert (X : lim s = S b) by (unfold lim; now rewrite O). cbn [pushing hand] in *. destruct (Nat.leb_spec (top s) b) as [F|F].
    + destruct (at_last pinned s Q b I X F) as (n & Q' & EQ & En & Lq). unfold at_ in En. rewrite En in E. destruct (Nat.eqb_spec (top s) b) as [G|G]; injection E as <-.
      * exists Q. apply inv_own; auto; rewrite ?O; try reflexivity; [simpl; auto|nilev|]. unfold own_ok. simpl. splits; auto; lia.
      * exists Q'. subst Q. rewrite app_length in L. simpl in L. mk I; unfold lim; cbn [log own next top cell ictx thief arr cap bottom hand pushing with_own app].
        -- now apply abs_pop.
        -- lia.
        -- intros k m Hk. apply At. rewrite nth_error_app1; auto. now apply nth_lt in Hk.
        -- lia.
        -- unfold own_ok. simpl. lia.
        -- split; [lia|]. apply (i_num _ _ _ I).
        -- intros m [Hm|Hm]; [discriminate|]. apply (i_pn _ _ _ I) in Hm. rewrite O in Hm. exact Hm.
        -- intros m c [Hm|Hm]; [discriminate|]. now apply (i_ictx _ _ _ I).
        -- intros u m [Hm|Hm]; [discriminate|]. now apply (i_stolen _ _ _ I u).
        -- intros u. apply (thief_mono pinned s); cbn [next ictx arr top with_own]; auto; [apply I|]. intros _ H. unfold lim at 1. cbn [own bottom with_own]. splits; auto; lia.
    + injection E as <-. exists Q. apply inv_own; auto; rewrite ?O; try reflexivity; [simpl; auto|nilev|]. unfold own_ok. simpl. lia.
  - (* QCas *) assert (X : lim s = S b) by (unfold lim; now rewrite O). cbn [pushing hand] in *. destruct Ow as (O1 & O2 & O3). destruct (Nat.eqb_spec (top s) b) as [G|G]; injection E as <-.
    + destruct (at_last pinned s Q b I X) as (m & Q' & EQ & En & Lq); [lia|]. destruct Q' as [|]; simpl in Lq; [|lia]. simpl in EQ. subst Q. rewrite O2 in En. injection En as <-. exists []. rewrite inc_ok by lia. mk I; unfold lim; cbn [log own next top cell ictx thief arr cap bottom hand pushing].
      * now apply abs_cas.
      * simpl. lia.
      * intros [|] m; discriminate.
      * lia.
      * unfold own_ok. simpl. splits; auto; lia.
      * split; [lia|]. apply (i_num _ _ _ I).
      * intros m Hm. apply (i_pn _ _ _ I) in Hm. rewrite O in Hm. exact Hm.
      * intros u. apply (thief_mono pinned s); cbn [next ictx arr top]; auto; [apply I|lia|lia].
    + exists Q. apply inv_own; auto; rewrite ?O; try reflexivity; [simpl; auto|nilev|]. unfold own_ok. simpl. lia.
  - (* QEnd *) assert (X : lim s = S b) by (unfold lim; now rewrite O). cbn [pushing hand] in *. destruct Ow as [O1 O2]. rewrite inc_ok in E by lia. injection E as <-. assert (EQ : Q = []) by (destruct Q; auto; simpl in L; lia). subst Q. exists []. mk I; unfold lim; cbn [log own next top cell ictx thief arr cap bottom hand pushing].
    + now apply abs_end.
    + simpl. lia.
    + intros [|] m; discriminate.
    + lia.
    + unfold own_ok. simpl. lia.
    + split; [lia|]. apply (i_num _ _ _ I).
    + intros m [Hm|Hm]; [discriminate|]. apply (i_pn _ _ _ I) in Hm. rewrite O in Hm. exact Hm.
    + intros m c [Hm|Hm]; [discriminate|]. now apply (i_ictx _ _ _ I).
    + intros u m [Hm|Hm]; [discriminate|]. now apply (i_stolen _ _ _ I u).
    + intros u. apply (thief_mono pinned s); cbn [next ictx arr top]; auto; [apply I|]. intros _ H. lia.
Qed.
Lemma step_thief s Q u s' : inv s Q -> thief_step W pinned s u = Some s' -> pushes (log s') < W -> exists Q', inv s' Q'.
Proof.
  intros I E HW. unfold thief_step in E. pose proof (i_thief _ _ _ I u) as T. pose proof (i_len _ _ _ I) as L. pose proof (i_num _ _ _ I) as N.
  assert (LB : bottom s <= lim s). { pose proof (i_own _ _ _ I) as Ow. unfold own_ok, lim in *. destruct (own s); lia. }
  destruct (thief s u) as [|t|t|t a|t n|t n|] eqn:Tu; try discriminate; cbn [thief_ok] in T.
  - destruct (Nat.ltb_spec t (bottom s)) as [F|F]; injection E as <-; exists Q; apply inv_thief; simpl; auto; [nilev|split; [auto|]|]. + intros ->. lia. + intros x [<-|[]]; split; simpl; auto; discriminate.
  - injection E as <-. exists Q. apply inv_thief; auto; [nilev|]. simpl. destruct T as [T1 T2]. splits; auto.
  - destruct T as (T0 & T1 & T2). destruct (cell s a (t mod cap s a)) as [n|] eqn:Ec; injection E as <-; exists Q; apply inv_thief; simpl; auto; [nilev|splits; auto|].
    + now apply (i_cells _ _ _ I) in Ec.
    + intros Et. destruct (T2 Et) as [T3 T4]. split; auto.
    + intros x [<-|[]]; split; simpl; auto; discriminate.
  - destruct (pinned (ictx s n)) eqn:Pn; injection E as <-; exists Q; apply inv_thief; simpl; auto; try (intros x Hx; repeat (destruct Hx as [<-|Hx]; [split; simpl; auto; discriminate|]); destruct Hx). tauto.
  - destruct T as (T0 & Tp & T1 & T2). destruct (Nat.eqb_spec (top s) t) as [F|F]; injection E as <-.
    + subst t. destruct (T2 eq_refl) as [T3 T4]. destruct (at_top pinned s Q I T3) as (m & Q' & EQ & Em). rewrite T4 in Em. injection Em as <-. subst Q. simpl in L. exists Q'. cbn [log pushes] in HW. rewrite inc_ok by lia. mk I; auto.
      * unfold hand. pose proof (i_abs _ _ _ I) as A. now apply abs_steal.
      * unfold lim in *. cbn [own bottom]. lia.
      * intros k m Hk. unfold at_. cbn [cell arr cap]. rewrite Nat.add_succ_comm. now apply (i_at _ _ _ I (S k) m).
      * pose proof (i_cap _ _ _ I) as C. unfold lim in *. cbn [own bottom]. lia.
      * pose proof (i_own _ _ _ I) as Ow. unfold own_ok, lim in *. cbn [own bottom next top cap arr] in *. destruct (own s); auto; try lia.
        -- splits; try lia; tauto.
        -- splits; try lia; tauto.
      * intros m [Hm|Hm]; [discriminate|]. now apply (i_pn _ _ _ I) in Hm.
      * intros m c [Hm|Hm]; [discriminate|]. now apply (i_ictx _ _ _ I).
      * intros v m [Hm|Hm]; [injection Hm as <- <-; auto|]. now apply (i_stolen _ _ _ I v).
      * intros v. apply (thief_mono pinned s); cbn [next ictx arr top]; auto; try lia. unfold upd. destruct (v =? u); simpl; auto. apply I.
    + exists Q. apply inv_thief; simpl; auto. intros x [<-|[]]; split; simpl; auto; discriminate.
Qed.
Lemma inv_step s Q l s' : inv s Q -> step s l = Some s' -> pushes (log s') < W -> push_first (log s') -> exists Q', inv s' Q'.
Proof.
  intros I E HW HF. destruct l as [c| | |u|u].
  - exists Q. eapply step_push; eauto.
  - unfold Spmc.step in E. destruct (own s) eqn:O; try discriminate. injection E as <-. simpl in HF. destruct HF as [HF _]. pose proof (i_num _ _ _ I) as N. pose proof (i_own _ _ _ I) as Ow. unfold own_ok in Ow. rewrite O in *. exists Q. apply inv_own; rewrite ?O; auto.
    + unfold quiet, lim. now rewrite O.
    + intros x [<-|[]]; split; simpl; auto; discriminate.
    + unfold own_ok. simpl. destruct (bottom s); simpl; lia.
  - eapply step_own; eauto.
  - unfold Spmc.step in E. destruct (thief s u); try discriminate. injection E as <-. exists Q. apply inv_thief; simpl; auto. nilev.
  - eapply step_thief; eauto.
Qed.
Lemma inv_init c : 0 < c -> inv (init_state c) [].
Proof. intros H. constructor; unfold lim, own_ok; simpl; try lia; try apply abs_init; try contradiction; auto; try (intros [|]; discriminate); discriminate. Qed.
Lemma step_log s l s' : step s l = Some s' -> pushes (log s) <= pushes (log s') /\ (push_first (log s') -> push_first (log s)).
Proof.
  intros E. destruct l as [c| | |u|u]; unfold Spmc.step in E.
  - destruct (own s); try discriminate. injection E as <-. simpl. auto.
  - destruct (own s); try discriminate. injection E as <-. simpl. split; [auto|tauto].
  - unfold own_step in E. destruct (own s); try discriminate E; repeat match type of E with context [if ?b then _ else _] => destruct b | context [match ?b with Some _ => _ | None => _ end] => destruct b end; injection E as <-; simpl; auto.
  - destruct (thief s u); try discriminate. injection E as <-. simpl. auto.
  - unfold thief_step in E. destruct (thief s u); try discriminate E; repeat match type of E with context [if ?b then _ else _] => destruct b | context [match ?b with Some _ => _ | None => _ end] => destruct b end; injection E as <-; simpl; auto.
Qed.
(** pop() on a queue nothing was pushed to: nothing is ever taken. *)
Record fresh (s : st) : Prop := {
  f_own : match own s with QBot b | QTop b => b = W - 1 | OCrashed => True | _ => False end;
  f_top : top s = 0;
  f_cell : forall a j, cell s a j = None;
  f_log : forall n, takes (log s) n = 0 /\ ~ pushed (log s) n;
  f_steal : forall u n, ~ In (ESteal u (Some n)) (log s);
  f_push : forall n c, ~ In (EPush n c) (log s);

  f_thief : forall u, match thief s u with SPin _ _ | SCas _ _ => False | _ => True end
}.
Lemma inv_nohand s Q : inv s Q -> next s = 0 -> forall n, takes (log s) n = 0 /\ ~ pushed (log s) n.
Proof. intros I N n. assert (P : ~ pushed (log s) n) by (intros X; apply (i_pn _ _ _ I) in X; lia). split; auto. destruct (a_once _ _ _ (i_abs _ _ _ I) n) as [_ T]. destruct (takes (log s) n); auto. exfalso. apply P, T. lia. Qed.
Ltac notin F := let X := fresh "X" in intros; intros X; simpl in X; repeat (destruct X as [X|X]; [discriminate|]); now apply F in X.
Lemma fresh_step s l s' : fresh s -> 0 < W -> step s l = Some s' -> fresh s'.
Proof.
  intros F HW E. pose proof (f_own _ F) as Fo. destruct l as [c| | |u|u]; unfold Spmc.step in E.
  - destruct (own s); try discriminate; contradiction.
  - destruct (own s); try discriminate; contradiction.
  - unfold own_step in E. destruct (own s) as [| | | | |b|b| | |] eqn:O; try discriminate; try contradiction.
    + injection E as <-. constructor; simpl; auto; apply F.
    + rewrite (f_top _ F), (f_cell _ F) in E. injection E as <-. destruct F. constructor; simpl; auto; try notin f_steal0; try notin f_push0. intros n. destruct (f_log0 n) as [A B]. split; auto. intros [X|X]; [discriminate|auto].
  - destruct (thief s u); try discriminate. injection E as <-. destruct F. constructor; simpl; auto. intros v. unfold upd. destruct (v =? u); auto. apply f_thief0.
  - unfold thief_step in E. pose proof (f_thief _ F u) as Ft. destruct F. destruct (thief s u) as [|t|t|t a|t n|t n|] eqn:Tu; try discriminate; try contradiction; rewrite ?f_cell0 in E.
    + destruct (t <? bottom s); injection E as <-; constructor; simpl; auto; try notin f_steal0; try notin f_push0; try (intros n; destruct (f_log0 n) as [A B]; split; auto; intros [X|X]; [discriminate|auto]; fail); intros v; unfold upd; destruct (v =? u); auto; apply f_thief0.
    + injection E as <-; constructor; simpl; auto. intros v; unfold upd; destruct (v =? u); auto; apply f_thief0.
    + injection E as <-; constructor; simpl; auto; try notin f_steal0; try notin f_push0; [intros n; destruct (f_log0 n) as [A B]; split; auto; intros [X|X]; [discriminate|auto]|]. intros v; unfold upd; destruct (v =? u); auto; apply f_thief0.
Qed.
Definition invs (s : st) : Prop := (push_first (log s) /\ exists Q, inv s Q) \/ fresh s.
Lemma pushes0 lg n c : pushes lg = 0 -> ~ In (EPush n c) lg.
Proof. induction lg as [|e lg IH]; simpl; auto. intros E. destruct e; try discriminate; intros [X|X]; try discriminate; now apply IH in X. Qed.
Lemma pf_step s l s' : push_first (log s) -> step s l = Some s' -> push_first (log s') \/ (l = Pop /\ pushes (log s) = 0).
Proof.
  intros H E. destruct l as [c| | |u|u]; unfold Spmc.step in E.
  - destruct (own s); try discriminate. injection E as <-. simpl. auto.
  - destruct (own s); try discriminate. injection E as <-. simpl. destruct (pushes (log s)); [auto|]. left. split; [lia|auto].
  - unfold own_step in E. destruct (own s); try discriminate E; repeat match type of E with context [if ?b then _ else _] => destruct b | context [match ?b with Some _ => _ | None => _ end] => destruct b end; injection E as <-; simpl; auto.
  - destruct (thief s u); try discriminate. injection E as <-. simpl. auto.
  - unfold thief_step in E. destruct (thief s u); try discriminate E; repeat match type of E with context [if ?b then _ else _] => destruct b | context [match ?b with Some _ => _ | None => _ end] => destruct b end; injection E as <-; simpl; auto.
Qed.
Lemma invs_step s l s' : invs s -> step s l = Some s' -> pushes (log s') < W -> invs s'.
Proof.
  intros [[PF [Q I]]|F] E HW; [|right; eapply fresh_step; eauto; lia]. destruct (pf_step _ _ _ PF E) as [PF'|[-> N]].
  - left. split; auto. eapply inv_step; eauto.
  - right. pose proof (proj2 (i_num _ _ _ I)) as Nx. rewrite N in Nx. unfold Spmc.step in E. destruct (own s) eqn:O; try discriminate. injection E as <-. pose proof (i_num _ _ _ I) as [Nm _]. pose proof (i_len _ _ _ I) as L. unfold lim in *. rewrite O in *. cbn [pushing] in Nm.
    pose proof (inv_nohand _ _ I Nx) as NH. constructor; cbn [own top cell log with_own thief app].
    + replace (bottom s) with 0 by lia. reflexivity.
    + lia.
    + intros a j. destruct (cell s a j) eqn:C; auto. apply (i_cells _ _ _ I) in C. lia.
    + intros n. destruct (NH n) as [A B]. split; auto. intros [X|X]; [discriminate|auto].
    + intros u n [X|X]; [discriminate|]. apply (i_stolen _ _ _ I) in X. lia.
    + intros n c [X|X]; [discriminate|]. now apply (pushes0 _ n c) in X.
    + intros u. pose proof (i_thief _ _ _ I u) as T. destruct (thief s u); simpl in T; auto; lia.
Qed.
Lemma invs_reach c s : 0 < c -> reachable step (init_state c) s -> pushes (log s) < W -> invs s.
Proof.
  intros Hc R. revert s R. apply (reachable_inv step (fun s => pushes (log s) < W -> invs s)).
  - intros _. left. split; simpl; auto. exists []. now apply inv_init.
  - intros s l s' IH E HW. destruct (step_log _ _ _ E) as [H1 _]. eapply invs_step; eauto. apply IH. lia.
Qed.
Lemma inv_reach c s : 0 < c -> reachable step (init_state c) s -> pushes (log s) < W -> push_first (log s) -> exists Q, inv s Q.
Proof.
  intros Hc R HW HF. revert s R HW HF. apply (reachable_inv step (fun s => pushes (log s) < W -> push_first (log s) -> exists Q, inv s Q)).
  - intros _ _. exists []. now apply inv_init.
  - intros s l s' IH E HW HF. destruct (step_log _ _ _ E) as [H1 H2]. destruct IH as [Q I]; auto; [lia|]. eapply inv_step; eauto.
Qed.
(** One undisturbed pop() of the owner takes the newest element. *)
Lemma pop_run s Q : inv s Q -> own s = OIdle -> Q <> [] -> push_first (log s) -> pushes (log s) < W ->
  exists ls s' m Q', owner_only ls /\ exec step s ls = Some s' /\ Q = Q' ++ [m] /\ inv s' Q' /\ own s' = OIdle /\ log s' = EPop (Some m) :: ECallPop :: log s.
Proof.
  intros I O NQ PF HW. destruct (exists_last NQ) as (Q' & m & EQ). pose proof (i_len _ _ _ I) as L. pose proof (i_num _ _ _ I) as [N N']. unfold lim in *. rewrite O in *. cbn [pushing] in N. rewrite EQ, app_length in L. simpl in L.
  assert (At : at_ s (top s + length Q') = Some m) by (apply (i_at _ _ _ I); rewrite EQ, nth_error_app2, Nat.sub_diag by auto; reflexivity).
  assert (Bs : exists b, bottom s = S b) by (destruct (bottom s); [lia|eauto]). destruct Bs as [b Eb]. replace (top s + length Q') with b in At by lia.
  assert (F : forall ls s', exec step s ls = Some s' -> own s' = OIdle -> log s' = EPop (Some m) :: ECallPop :: log s -> inv s' Q').
  { intros ls s' E O' Lg. assert (X : exists Q2, inv s' Q2).
    { assert (G : pushes (log s') < W /\ push_first (log s')) by (rewrite Lg; simpl; splits; auto; lia). clear - I E G. revert s Q I E. induction ls as [|l ls IH]; simpl; intros s Q I E; [injection E as <-; eauto|]. destruct (step s l) as [s1|] eqn:E1; [|discriminate].
      assert (M : pushes (log s1) <= pushes (log s') /\ (push_first (log s') -> push_first (log s1))). { clear - E. revert s1 E. induction ls as [|k ls IH]; simpl; intros s1 E; [injection E as <-; auto|]. destruct (step s1 k) as [s2|] eqn:E2; [|discriminate]. apply step_log in E2. apply IH in E. destruct E2, E. split; [lia|auto]. }
      destruct (inv_step _ _ _ _ I E1) as [Q2 I2]; [lia|tauto|]. eauto. }
    destruct X as [Q2 I2]. replace Q' with Q2; auto. pose proof (i_abs _ _ _ I) as A. pose proof (i_abs _ _ _ I2) as A2. rewrite O, O', Lg in *. cbn [hand] in *. rewrite EQ in A. apply (abs_neutral _ _ ECallPop) in A; [|simpl; auto]. apply abs_pop in A.
    clear - A A2. assert (Same : forall n, In n Q2 <-> In n Q'). { intros n. pose proof (a_in _ _ _ A n). pose proof (a_in _ _ _ A2 n). split; intros X; [apply or_introl with (B := @None nat = Some n) in X; apply H0, H in X|apply or_introl with (B := @None nat = Some n) in X; apply H, H0 in X]; destruct X; auto; discriminate. }
    apply a_sorted in A. apply a_sorted in A2. clear - A A2 Same. revert Q' A Same. induction Q2 as [|a l IH]; intros [|b k] A Same; auto.
    - destruct (proj2 (Same b)); now left. - destruct (proj1 (Same a)); now left.
    - inversion A as [|? ? A3 A4]; inversion A2 as [|? ? A5 A6]; subst. rewrite Forall_forall in A4, A6. assert (a = b). { destruct (proj1 (Same a)) as [X|X]; [now left|auto|]. destruct (proj2 (Same b)) as [Y|Y]; [now left|auto|]. apply A4 in X. apply A6 in Y. lia. } subst b. f_equal. apply IH; auto. intros n. specialize (Same n). simpl in Same. split; intros X.
      + destruct (proj1 Same) as [->|]; auto. apply A6 in X. lia.
      + destruct (proj2 Same) as [->|]; auto. apply A4 in X. lia. }
  set (ls1 := [Pop; Own; Own]). assert (E1 : exec step s ls1 = Some (if top s =? b then mkSt (top s) b (arr s) (cap s) (cell s) (QCas b m) (thief s) (next s) (ictx s) (ECallPop :: log s) else mkSt (top s) b (arr s) (cap s) (cell s) OIdle (thief s) (next s) (ictx s) (EPop (Some m) :: ECallPop :: log s))).
  { unfold ls1. cbn [exec]. unfold Spmc.step at 1. rewrite O, Eb. cbn [dec]. unfold Spmc.step at 1, own_step. cbn [with_own own]. unfold Spmc.step, own_step. cbn [own top arr cap cell with_own]. destruct (Nat.leb_spec (top s) b); [|lia]. unfold at_ in At. rewrite At. destruct (top s =? b); reflexivity. }
  destruct (Nat.eqb_spec (top s) b) as [D|D].
  - assert (E2 : exec step s (ls1 ++ [Own; Own]) = Some (mkSt (S b) (S b) (arr s) (cap s) (cell s) OIdle (thief s) (next s) (ictx s) (EPop (Some m) :: ECallPop :: log s))).
    { apply exec_app. eexists. split; [exact E1|]. cbn [exec]. unfold Spmc.step at 1, own_step. cbn [own top]. destruct (Nat.eqb_spec (top s) b); [|lia]. unfold Spmc.step, own_step. cbn [own]. rewrite inc_ok by lia. reflexivity. }
    eexists _, _, m, Q'. splits; [|exact E2|auto|eapply F; [exact E2| |]; reflexivity|reflexivity|reflexivity]. intros l Hl. simpl in Hl. intuition congruence.
  - eexists _, _, m, Q'. splits; [|exact E1|auto|eapply F; [exact E1| |]; reflexivity|reflexivity|reflexivity]. intros l Hl. simpl in Hl. intuition congruence.
Qed.
Lemma drain : forall k s Q n, length Q = k -> inv s Q -> own s = OIdle -> In n Q -> push_first (log s) -> pushes (log s) < W ->
  exists ls s', owner_only ls /\ exec step s ls = Some s' /\ takes (log s') n = 1.
Proof.
  induction k as [|k IH]; intros s Q n Lq I O Hn PF HW; [destruct Q; [destruct Hn|discriminate]|]. destruct (pop_run s Q I O) as (ls & s1 & m & Q' & H1 & H2 & H3 & H4 & H5 & H6); auto; [intros ->; destruct Hn|].
  subst Q. apply in_app_iff in Hn. destruct Hn as [Hn|[->|[]]].
  - assert (Gn : 0 < pushes (log s)). { rewrite <- (proj2 (i_num _ _ _ I)). assert (X : pushed (log s) n) by (apply (a_in _ _ _ (i_abs _ _ _ I) n); left; apply in_or_app; auto). apply (i_pn _ _ _ I) in X. lia. }
    destruct (IH s1 Q' n) as (ls2 & s2 & K1 & K2 & K3); auto; try (rewrite H6; simpl; auto); [rewrite app_length in Lq; simpl in Lq; lia|]. exists (ls ++ ls2), s2. splits; auto; [|apply exec_app; eauto]. intros l Hl. apply in_app_iff in Hl. destruct Hl; auto.
  - exists ls, s1. splits; auto. rewrite H6. simpl. rewrite Nat.eqb_refl. assert (X : pushed (log s) n /\ takes (log s) n = 0) by (apply (a_in _ _ _ (i_abs _ _ _ I) n); left; apply in_or_app; simpl; auto). lia.
Qed.
End Inv.
