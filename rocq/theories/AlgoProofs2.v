(** Search for a victim (C47) and set_algo (C57). *)
From Coq Require Import List Arith Bool Lia.
From Verif Require Import Base Algo AlgoSpec AlgoFacts AlgoProofs.
Import ListNotations.

Section Facts.
Variable pinned : nat -> bool.
Variable home : nat -> nat.
Variable kind : nat -> akind.
Variable sched : nat -> nat -> option nat.
Variable cfg : well_configured kind sched.
Notation step := (step pinned kind sched).
Notation inv := (inv pinned home kind).
Notation all := (all pinned home kind).

(** ** C47 *)
Lemma other_step s l s' t : all s -> step s l = Some s' -> thread l <> t -> pc s' t = pc s t /\ cur s' t = cur s t.
Proof. intros [[pl I] _ _ _] St N. destruct (step_effect pinned home kind sched s pl l s' I St). split; auto. Qed.
Lemma not_enabled s t l s' rem n k : step s l = Some s' -> thread l = t -> pc s t = Steal rem n k -> exists d, l = Draw t d.
Proof. intros St E P. destruct l; simpl in *; subst; rewrite P in St; try discriminate. eauto. Qed.

Lemma stuck_step s l s' t n k own loc remote : all s -> step s l = Some s' -> pc s t = Steal false n k -> kind (cur s t) = Stealing own loc remote -> (forall i, In i loc -> i = own) ->
  (exists n', pc s' t = Steal false n' k) /\ kind (cur s' t) = Stealing own loc remote /\ (forall o, In (EPick t o) (log s') -> In (EPick t o) (log s)).
Proof.
  intros A St P K H. destruct (a_inv _ _ _ _ A) as [pl I]. destruct (Nat.eq_dec (thread l) t) as [E|N].
  - destruct (not_enabled s t l s' false n k St E P) as [d ->]. simpl in St. rewrite P in St. unfold draw in St. rewrite K in St. destruct (nth_error loc d) as [i|] eqn:Ed.
    + rewrite (H i (nth_error_In _ _ Ed)), Nat.eqb_refl in St. injection St as <-. simpl. updt. splits; eauto.
    + destruct loc; [|discriminate]. destruct (cfg _ _ _ _ K) as [X _]. congruence.
  - destruct (other_step s l s' t A St N) as [-> ->]. splits; eauto. intros o Ho. destruct (step_rec pinned home kind sched s pl l s' I St) as [[El _]|(e & El & En)]; rewrite El in Ho; auto. destruct Ho as [->|]; auto. exfalso. destruct o; simpl in En; destruct En as [En _]; congruence.
Qed.
Lemma stuck_exec ls : forall s s' t n k own loc remote, all s -> exec step s ls = Some s' -> pc s t = Steal false n k -> kind (cur s t) = Stealing own loc remote -> (forall i, In i loc -> i = own) ->
  (exists n', pc s' t = Steal false n' k) /\ (forall o, In (EPick t o) (log s') -> In (EPick t o) (log s)).
Proof.
  induction ls as [|l ls IH]; simpl; intros s s' t n k own loc remote A E P K H.
  - injection E as <-. eauto.
  - destruct (step s l) as [s1|] eqn:St; [|discriminate]. destruct (stuck_step _ _ _ _ _ _ _ _ _ A St P K H) as ([n' P'] & K' & L). assert (A1 := all_step _ _ _ _ cfg _ _ _ A St).
    destruct (IH s1 s' t n' k own loc remote A1 E P' K' H) as [X Y]. split; auto.
Qed.

(** Rounds with another scheduler that are left at most. *)
Definition left (s : st) (t : nat) : nat :=
  match pc s t, kind (cur s t) with
  | Steal false n _, Stealing _ loc remote => Nat.max 1 (length loc - n) + length remote
  | Steal true n _, Stealing _ _ remote => Nat.max 1 (length remote - n)
  | _, _ => 0
  end.
Lemma finish_not s t k o : ~ searching (finish s t k o) t.
Proof. unfold searching. destruct k, o; simpl; updt; auto. Qed.
Lemma left_step s l s' t : all s -> step s l = Some s' -> searching s t -> ~ searching s' t \/ (left s' t + (if foreign kind s t l then 1 else 0) <= left s t).
Proof.
  intros A St Se. destruct (a_inv _ _ _ _ A) as [pl I]. destruct (Nat.eq_dec (thread l) t) as [E|N].
  - unfold searching in Se. destruct (pc s t) as [|rem n k| | | |] eqn:P; try easy. destruct (not_enabled s t l s' rem n k St E P) as [d ->]. unfold foreign. rewrite P, Nat.eqb_refl. simpl in St. rewrite P in St. unfold draw in St. unfold left at 2. rewrite P.
    destruct (i_steal _ _ _ _ _ _ I _ _ _ _ P) as (own & loc & remote & K & Rm). rewrite K in *. destruct (cfg _ _ _ _ K) as (Ln & Nr & _). cbn [andb].
    set (cpus := if rem then remote else loc) in *. destruct (nth_error cpus d) as [i|] eqn:Ed.
    + destruct (i =? own) eqn:Eo; cbn [negb].
      * apply Nat.eqb_eq in Eo. subst i. destruct rem; [apply nth_error_In in Ed; contradiction|]. injection St as <-. right. unfold left. cbn [pc cur with_pc]. updt. rewrite K. lia.
      * destruct (sched (cur s t) i) as [v|]; [|injection St as <-; left; unfold searching; simpl; updt; auto]. unfold steal in St.
        assert (Em : match (if S n <? length cpus then Some (with_pc s t (Steal rem (S n) k)) else if negb rem && negb (length remote =? 0) then Some (with_pc s t (Steal true 0 k)) else Some (finish s t k None)) with Some s' => ~ searching s' t \/ left s' t + 1 <= (if rem then Nat.max 1 (length remote - n) else Nat.max 1 (length loc - n) + length remote) | None => True end).
        { destruct (Nat.ltb_spec (S n) (length cpus)) as [Hl|Hl].
          - right. unfold left. cbn [pc cur with_pc]. updt. rewrite K. unfold cpus in Hl. destruct rem; lia.
          - destruct (negb rem && negb (length remote =? 0)) eqn:B; [|left; apply finish_not]. right. unfold left. cbn [pc cur with_pc]. updt. rewrite K. destruct rem; [discriminate|]. destruct (Nat.eqb_spec (length remote) 0); [discriminate|]. lia. }
        destruct (q s v) as [|c l] eqn:Eq; [rewrite St in Em; destruct rem; exact Em|]. destruct (pinned c) eqn:Pn; [rewrite St in Em; destruct rem; exact Em|]. rewrite Pn in St. injection St as <-.
        left. unfold attach_finish. match goal with |- context [if ?b then _ else _] => destruct b end; [apply finish_not|]. unfold searching. simpl. updt. auto.
    + destruct cpus; [|discriminate]. injection St as <-. left. unfold searching. simpl. updt. auto.
  - right. destruct (other_step s l s' t A St N) as [E1 E2]. assert (F : foreign kind s t l = false). { unfold foreign. destruct l; auto. destruct (Nat.eqb_spec t t0); auto. simpl in N. congruence. }
    rewrite F. unfold left. rewrite E1, E2. lia.
Qed.
Lemma searching_dec s t : {searching s t} + {~ searching s t}.
Proof. unfold searching. destruct (pc s t); auto. Qed.
Lemma left_exec ls : forall s s' t, all s -> exec step s ls = Some s' -> searching s t -> left s t < tries pinned kind sched s t ls + left s' t ->
  exists ls1 ls2 s1, ls = ls1 ++ ls2 /\ exec step s ls1 = Some s1 /\ ~ searching s1 t.
Proof.
  induction ls as [|l ls IH]; simpl; intros s s' t A E Se Hl.
  - injection E as <-. lia.
  - destruct (step s l) as [s1|] eqn:St; [|discriminate]. assert (A1 := all_step _ _ _ _ cfg _ _ _ A St). destruct (left_step s l s1 t A St Se) as [X|X].
    + exists [l], ls, s1. splits; auto. simpl. now rewrite St.
    + destruct (searching_dec s1 t) as [Y|Y]; [|exists [l], ls, s1; splits; auto; simpl; now rewrite St].
      destruct (IH s1 s' t A1 E Y) as (l1 & l2 & s2 & -> & E2 & F); [lia|]. exists (l :: l1), l2, s2. splits; auto. simpl. now rewrite St.
Qed.
Lemma left_pos s t : all s -> searching s t -> 1 <= left s t.
Proof.
  intros [[pl I] _ _ _] H. unfold searching in H. unfold left. destruct (pc s t) as [|rem n k| | | |] eqn:P; try easy. destruct (i_steal _ _ _ _ _ _ I _ _ _ _ P) as (own & loc & remote & K & _). rewrite K. destruct rem; lia.
Qed.
(** Another scheduler can be drawn in every state of the search. *)
Lemma can_draw s t : all s -> searching s t -> (forall own loc remote, kind (cur s t) = Stealing own loc remote -> exists i, In i loc /\ i <> own) ->
  exists d s', step s (Draw t d) = Some s' /\ foreign kind s t (Draw t d) = true.
Proof.
  intros [[pl I] _ _ _] H Hk. unfold searching in H. destruct (pc s t) as [|rem n k| | | |] eqn:P; try easy. destruct (i_steal _ _ _ _ _ _ I _ _ _ _ P) as (own & loc & remote & K & Rm). destruct (Hk _ _ _ K) as (i & Hi & Ni). destruct (cfg _ _ _ _ K) as (_ & Nr & _).
  assert (X : exists d j, nth_error (if rem then remote else loc) d = Some j /\ j <> own).
  { destruct rem; [destruct remote as [|j r]; [now destruct (Rm eq_refl)|]|].
    - exists 0, j. split; auto. intros ->. apply Nr. now left.
    - apply In_nth_error in Hi. destruct Hi as [d Hd]. eauto. }
  destruct X as (d & j & Ed & Nj). exists d. simpl. rewrite P. unfold draw. rewrite K, Ed, Nat.eqb_refl. destruct (Nat.eqb_spec j own); [contradiction|]. destruct (sched (cur s t) j) as [v|]; [|eauto]. destruct (steal pinned s v) as [s1 [c|]]; [eauto|]. destruct (S n <? _); [eauto|]. destruct (negb rem && _); eauto.
Qed.
Lemma can_return n : forall s t, all s -> searching s t -> left s t <= n -> (forall own loc remote, kind (cur s t) = Stealing own loc remote -> exists i, In i loc /\ i <> own) ->
  exists ds s', length ds <= n /\ exec step s (map (Draw t) ds) = Some s' /\ ~ searching s' t.
Proof.
  induction n as [|n IH]; intros s t A Se Hl Hk; [pose proof (left_pos s t A Se); lia|]. destruct (can_draw s t A Se Hk) as (d & s1 & St & F). assert (A1 := all_step _ _ _ _ cfg _ _ _ A St).
  destruct (left_step s _ s1 t A St Se) as [X|X]; [exists [d], s1; splits; [simpl; lia|cbn [map exec]; now rewrite St|auto]|]. rewrite F in X.
  destruct (searching_dec s1 t) as [Y|Y]; [|exists [d], s1; splits; [simpl; lia|cbn [map exec]; now rewrite St|auto]].
  assert (C : cur s1 t = cur s t). { destruct (a_inv _ _ _ _ A) as [pl I]. destruct (step_effect pinned home kind sched s pl _ s1 I St) as [_ _ _ _ _ Fo _]. destruct Fo as [Fo|(b & P & _)]; auto. unfold searching in Se. simpl in P. now rewrite P in Se. }
  destruct (IH s1 t A1 Y) as (ds & s' & L & E & N); [lia|rewrite C; auto|]. exists (d :: ds), s'. splits; [simpl; lia|cbn [map exec]; now rewrite St|auto].
Qed.
End Facts.
