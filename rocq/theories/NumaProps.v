(** Theorems about NUMA topologies (properties C54, C55, C66, C67). *)
From Coq Require Import NArith List Ascii String Bool Lia Permutation Sorted.
From Verif Require Import Base Numa NumaSpec.
Import ListNotations.
Open Scope N_scope.
Open Scope list_scope.
Notation length := List.length.

(** ** Sets *)
Lemma insert_in x l y : In y (insert x l) <-> y = x \/ In y l.
Proof.
  induction l as [|z l IH]; simpl; [intuition|]. destruct (N.ltb_spec x z); [simpl; intuition|]. destruct (N.eqb_spec x z) as [->|]; simpl; [intuition|]. rewrite IH. intuition.
Qed.
Lemma insert_sorted x l : StronglySorted N.lt l -> StronglySorted N.lt (insert x l).
Proof.
  induction 1 as [|z l S IH F]; simpl; [repeat constructor|]. destruct (N.ltb_spec x z).
  - constructor; [now constructor|]. constructor; auto. eapply Forall_impl; [|exact F]. intros; lia.
  - destruct (N.eqb_spec x z) as [->|N1]; [now constructor|]. constructor; auto. apply Forall_forall. intros y Hy. apply insert_in in Hy. destruct Hy as [->|Hy]; [lia|]. rewrite Forall_forall in F. auto.
Qed.
Lemma sorted_nodup l : StronglySorted N.lt l -> NoDup l.
Proof.
  induction 1 as [|z l S IH F]; constructor; auto. intros Hi. rewrite Forall_forall in F. apply F in Hi. lia.
Qed.
Lemma StronglySorted_unique l1 : forall l2, StronglySorted N.lt l1 -> StronglySorted N.lt l2 -> (forall x, In x l1 <-> In x l2) -> l1 = l2.
Proof.
  induction l1 as [|x l1 IH]; intros [|y l2] S1 S2 H; auto.
  - exfalso. apply (H y). now left.
  - exfalso. apply (H x). now left.
  - apply StronglySorted_inv in S1. apply StronglySorted_inv in S2. destruct S1 as [S1 H3], S2 as [S2 H6]. rewrite Forall_forall in *. assert (x = y).
    { destruct (proj1 (H x)) as [->|Hx]; [now left|auto|]. destruct (proj2 (H y)) as [->|Hy]; [now left|auto|]. apply H6 in Hx. apply H3 in Hy. lia. }
    subst y. f_equal. apply IH; auto. intros z. split; intros Hz.
    + destruct (proj1 (H z)) as [<-|]; [now right| |auto]. apply H3 in Hz. lia.
    + destruct (proj2 (H z)) as [<-|]; [now right| |auto]. apply H6 in Hz. lia.
Qed.
Lemma insert_perm x l : ~ In x l -> Permutation (insert x l) (x :: l).
Proof.
  induction l as [|z l IH]; simpl; intros H; auto. destruct (N.ltb_spec x z); auto. destruct (N.eqb_spec x z) as [->|]; [exfalso; auto|]. rewrite IH by auto. constructor.
Qed.

(** ** The range loop *)
Lemma u32_small n : n < 2 ^ 32 -> u32 n = n. Proof. apply N.mod_small. Qed.
Lemma loop_done k : forall i b ids fuel, b < 2 ^ 32 - 1 -> i <= b + 1 -> N.to_nat (b + 1 - i) = k -> (k < fuel)%nat -> StronglySorted N.lt ids ->
  exists ids', range_loop fuel i b ids = Some ids' /\ StronglySorted N.lt ids' /\ forall x, In x ids' <-> In x ids \/ i <= x <= b.
Proof.
  induction k as [|k IH]; intros i b ids [|fuel] Hb Hi Hk Hf Hs; try lia; simpl.
  - destruct (N.leb_spec i b); [lia|]. exists ids. splits; auto. intuition lia.
  - destruct (N.leb_spec i b); [|lia]. rewrite u32_small by lia. destruct (IH (i + 1) b (insert i ids) fuel) as (ids' & -> & S' & P); try lia; [now apply insert_sorted|]. exists ids'. splits; auto. intros x. rewrite P, insert_in. split; [intuition lia|]. intros [Hx|Hx]; auto. destruct (N.eq_dec x i); auto. right. lia.
Qed.
(** A range above the upper bound is empty at once. *)
Lemma loop_empty fuel i b ids : b < i -> range_loop (S fuel) i b ids = Some ids.
Proof. intros H. simpl. destruct (N.leb_spec i b); [lia|auto]. Qed.
Lemma loop_forever fuel : forall i ids, i < 2 ^ 32 -> range_loop fuel i (2 ^ 32 - 1) ids = None.
Proof.
  induction fuel as [|fuel IH]; intros i ids H; cbn [range_loop]; auto. destruct (N.leb_spec i (2 ^ 32 - 1)); [|lia]. apply IH. apply N.mod_lt. lia.
Qed.

(** ** The parser *)
Lemma dchar d : d < 10 -> digit (ascii_of_N (48 + d)) = Some d /\ is_space (ascii_of_N (48 + d)) = false /\ ascii_of_N (48 + d) <> "-"%char /\ ascii_of_N (48 + d) <> ","%char /\ ascii_of_N (48 + d) <> "+"%char.
Proof.
  intros H. assert (X : In d [0; 1; 2; 3; 4; 5; 6; 7; 8; 9]) by (simpl; lia). simpl in X. repeat (destruct X as [<-|X]; [vm_compute; splits; congruence|]). contradiction.
Qed.
Lemma digits_num ds : (forall d, In d ds -> d < 10) -> forall acc, digits acc (write_num ds) = acc * 10 ^ N.of_nat (length ds) + value ds.
Proof.
  induction ds as [|d ds IH]; intros H acc; [simpl; lia|]. cbn [write_num map digits value length]. destruct (dchar d) as (-> & _); [apply H; now left|]. fold (write_num ds). rewrite IH by (intros; apply H; now right). rewrite Nat2N.inj_succ, N.pow_succ_r'. lia.
Qed.
Lemma stoul_num ds : numeral ds -> stoul (write_num ds) = Done (value ds).
Proof.
  intros (Ne & D & V). unfold stoul. destruct ds as [|d ds]; [congruence|]. destruct (dchar d) as (Dg & Sp & _ & _ & Pl); [apply D; now left|]. cbn [write_num map drop_space]. rewrite Sp. destruct (Ascii.eqb_spec (ascii_of_N (48 + d)) "+"); [contradiction|]. rewrite Dg. fold (write_num ds). change (ascii_of_N (48 + d) :: write_num ds) with (write_num (d :: ds)). rewrite digits_num by auto. rewrite N.mul_0_l, N.add_0_l. destruct (N.ltb_spec (value (d :: ds)) (2 ^ 64)); auto. exfalso. assert (2 ^ 32 < 2 ^ 64) by (vm_compute; reflexivity). lia.
Qed.
Lemma split_none c t : ~ In c t -> split c t = [t].
Proof.
  induction t as [|x t IH]; simpl; intros H; auto. destruct (Ascii.eqb_spec x c) as [->|]; [exfalso; auto|]. rewrite IH by auto. reflexivity.
Qed.
Lemma split_app c t l : ~ In c t -> split c (t ++ c :: l) = t :: split c l.
Proof.
  induction t as [|x t IH]; simpl; intros H.
  - now rewrite Ascii.eqb_refl.
  - destruct (Ascii.eqb_spec x c) as [->|]; [exfalso; auto|]. rewrite IH by auto. reflexivity.
Qed.
Lemma num_chars ds x : numeral ds -> In x (write_num ds) -> is_space x = false /\ x <> "-"%char /\ x <> ","%char.
Proof.
  intros (_ & D & _) Hi. apply in_map_iff in Hi. destruct Hi as (d & <- & Hd). destruct (dchar d (D d Hd)) as (_ & S & M & C & _). auto.
Qed.
Lemma entry_chars e x : good e -> In x (write_entry e) -> is_space x = false /\ x <> ","%char.
Proof.
  destruct e as [a|a b]; simpl; intros G Hi.
  - destruct (num_chars _ _ G Hi) as (? & ? & ?). auto.
  - apply in_app_or in Hi. destruct G as [Ga Gb]. destruct Hi as [Hi|[<-|Hi]].
    + destruct (num_chars _ _ Ga Hi) as (? & ? & ?). auto.
    + split; [reflexivity|discriminate].
    + destruct (num_chars _ _ Gb Hi) as (? & ? & ?). auto.
Qed.
Lemma drop_spaces l t : forallb is_space l = true -> drop_space (l ++ t) = drop_space t.
Proof. induction l as [|x l IH]; simpl; auto. destruct (is_space x); simpl; auto. discriminate. Qed.
Lemma drop_none t : (forall x, In x t -> is_space x = false) -> forall r, t <> [] -> drop_space (t ++ r) = t ++ r.
Proof. intros H r N1. destruct t as [|x t]; [congruence|]. simpl. rewrite H by (now left). reflexivity. Qed.
Lemma forallb_rev {T} (f : T -> bool) l : forallb f (rev l) = forallb f l.
Proof. induction l as [|x l IH]; simpl; auto. rewrite forallb_app, IH. simpl. destruct (f x), (forallb f l); auto. Qed.
Lemma trim_padded e t : good e -> padded e t -> trim t = write_entry e.
Proof.
  intros G (l & r & -> & S). rewrite forallb_app in S. apply andb_prop in S. destruct S as [Sl Sr]. unfold trim.
  assert (Ne : write_entry e <> []). { destruct e as [a|a b]; simpl in *; [destruct G as (? & _); destruct a; simpl; congruence|]. now destruct (write_num a). }
  rewrite drop_spaces by auto. rewrite drop_none by (auto; intros x Hx; now destruct (entry_chars e x G Hx)). rewrite rev_app_distr, drop_spaces by now rewrite forallb_rev.
  rewrite <- (app_nil_r (rev (write_entry e))), drop_none.
  - now rewrite app_nil_r, rev_involutive.
  - intros x Hx. apply in_rev in Hx. now destruct (entry_chars e x G Hx).
  - intros X. apply Ne. rewrite <- (rev_involutive (write_entry e)), X. reflexivity.
Qed.
(** Is the end of a range the greatest id? *)
Definition to_max (e : entry) : Prop := match e with One _ => False | Range _ b => value b = 2 ^ 32 - 1 end.
Definition upto (e : entry) : nat := match e with One _ => 0%nat | Range _ b => N.to_nat (value b + 2) end.

Lemma entry_text e t fuel ids : good e -> padded e t -> entry_ids fuel t ids =
  match e with
  | One a => Done (insert (value a) ids)
  | Range a b => match range_loop fuel (value a) (value b) ids with Some r => Done r | None => OutOfFuel end
  end.
Proof.
  intros G P. unfold entry_ids. rewrite (trim_padded e t G P). destruct e as [a|a b]; cbn [write_entry].
  - rewrite split_none by (intros Hi; now destruct (num_chars _ _ G Hi)). rewrite (stoul_num a G), u32_small by apply G. reflexivity.
  - destruct G as [Ga Gb]. rewrite split_app by (intros Hi; now destruct (num_chars _ _ Ga Hi)). rewrite split_none by (intros Hi; now destruct (num_chars _ _ Gb Hi)). cbn [hd last]. rewrite (stoul_num a Ga), (stoul_num b Gb), !u32_small by (apply Ga || apply Gb). reflexivity.
Qed.
Lemma entry_done e t fuel ids : good e -> padded e t -> ~ to_max e -> (upto e <= fuel)%nat -> StronglySorted N.lt ids ->
  exists ids', entry_ids fuel t ids = Done ids' /\ StronglySorted N.lt ids' /\ forall x, In x ids' <-> In x ids \/ covers e x.
Proof.
  intros G P M F S. rewrite (entry_text e t fuel ids G P). destruct e as [a|a b]; simpl in *.
  - eexists. split; [reflexivity|]. split; [now apply insert_sorted|]. intros x. rewrite insert_in. intuition.
  - destruct G as [(_ & _ & Va) (_ & _ & Vb)]. destruct (N.le_gt_cases (value a) (value b + 1)) as [L|L].
    + destruct (loop_done (N.to_nat (value b + 1 - value a)) (value a) (value b) ids fuel) as (ids' & -> & S' & X); auto; try lia. exists ids'. auto.
    + destruct fuel as [|fuel]; [lia|]. rewrite loop_empty by lia. exists ids. splits; auto. intros x. intuition lia.
Qed.
Lemma entries_done es ts : Forall2 padded es ts -> forall fuel ids, Forall good es -> Forall (fun e => ~ to_max e) es -> (forall e, In e es -> (upto e <= fuel)%nat) -> StronglySorted N.lt ids ->
  exists ids', entries_ids fuel ts ids = Done ids' /\ StronglySorted N.lt ids' /\ forall x, In x ids' <-> In x ids \/ exists e, In e es /\ covers e x.
Proof.
  induction 1 as [|e t es ts P F IH]; intros fuel ids G M B S; simpl.
  - exists ids. splits; auto. intros x. split; auto. intros [H|(e & [] & _)]; auto.
  - inversion G; inversion M; subst. destruct (entry_done e t fuel ids) as (ids1 & -> & S1 & X1); auto; [apply B; now left|]. destruct (IH fuel ids1) as (ids' & -> & S' & X'); auto; [intros; apply B; now right|]. exists ids'. splits; auto. intros x. rewrite X', X1. split.
    + intros [[H|H]|(e' & Hi & H)]; auto; right; [exists e|exists e']; auto.
    + intros [H|(e' & [->|Hi] & H)]; auto. right. eauto.
Qed.
Lemma entries_forever es ts : Forall2 padded es ts -> forall fuel ids, Forall good es -> Exists to_max es -> entries_ids fuel ts ids = OutOfFuel.
Proof.
  induction 1 as [|e t es ts P F IH]; intros fuel ids G M; simpl; [inversion M|]. inversion G; subst. rewrite (entry_text e t fuel ids) by auto. inversion M; subst.
  - destruct e as [a|a b]; [contradiction|]. simpl in *. rewrite H0, loop_forever; auto. apply H1.
  - destruct e as [a|a b]; [apply IH; auto|]. destruct (range_loop fuel _ _ _); auto.
Qed.
Lemma split_join es ts : Forall2 padded es ts -> Forall good es -> es <> [] -> split "," (join ts) = ts.
Proof.
  induction 1 as [|e t es ts P F IH]; intros G Ne; [congruence|]. inversion G; subst.
  assert (Nc : ~ In ","%char t). { destruct P as (l & r & -> & S). intros Hi. rewrite forallb_forall in S. apply in_app_or in Hi. destruct Hi as [Hi|Hi]; [assert (X : In ","%char (l ++ r)) by (apply in_or_app; auto); apply S in X; discriminate|]. apply in_app_or in Hi. destruct Hi as [Hi|Hi]; [now destruct (entry_chars e _ H1 Hi)|]. assert (X : In ","%char (l ++ r)) by (apply in_or_app; auto). apply S in X. discriminate. }
  destruct ts as [|t2 ts].
  - simpl. now apply split_none.
  - cbn [join]. rewrite split_app by auto. f_equal. apply IH; auto. intros ->. inversion F.
Qed.

(** ** C55. For every list of ids and ranges over 32 bit ids none of whose ranges ends at 2^32 - 1 - with leading zeros and white space around the entries - ids_from_line terminates (with any number of rounds from some number on) and yields exactly the listed ids, in ascending order without repetition. *)
Theorem C55_ids_partial es line : writes es line -> Forall good es -> Forall (fun e => ~ to_max e) es ->
  exists k ids, (forall fuel, (k <= fuel)%nat -> ids_from_line fuel line = Done ids) /\ StronglySorted N.lt ids /\ forall x, In x ids <-> exists e, In e es /\ covers e x.
Proof.
  intros (ts & F & -> & Ne) G M. set (k := fold_right (fun e n => Nat.max (upto e) n) 0%nat es). assert (K : forall e, In e es -> (upto e <= k)%nat).
  { unfold k. clear. induction es as [|e es IH]; simpl; [intros ? []|]. intros e' [->|Hi]; [lia|]. apply IH in Hi. lia. }
  destruct (entries_done es ts F k []) as (ids & E & S & X); auto; [constructor|]. exists k, ids. splits; auto.
  - intros fuel Hf. unfold ids_from_line. rewrite (split_join es) by auto. destruct (entries_done es ts F fuel []) as (ids2 & E2 & S2 & X2); auto; [intros e Hi; apply K in Hi; lia|constructor|]. rewrite E2. f_equal.
    apply (StronglySorted_unique ids2 ids); auto. intros x. now rewrite X, X2.
  - intros x. rewrite X. simpl. intuition.
Qed.

(** As soon as one range of the list ends at the greatest id, 2^32 - 1, the loop never ends: i <= last holds for every i of type std::uint32_t. *)
Theorem C55_boundary es line : writes es line -> Forall good es -> Exists to_max es -> forall fuel, ids_from_line fuel line = OutOfFuel.
Proof.
  intros (ts & F & -> & Ne) G M fuel. unfold ids_from_line. rewrite (split_join es) by auto. apply (entries_forever es); auto.
Qed.
Definition txt (s : string) : text := list_ascii_of_string s.
Definition nmax : list N := [4; 2; 9; 4; 9; 6; 7; 2; 9; 5].
Theorem C55_refuted : exists es line, writes es line /\ Forall good es /\ line = txt "0-3,4294967295-4294967295" /\ forall fuel, ids_from_line fuel line = OutOfFuel.
Proof.
  exists [Range [0] [3]; Range nmax nmax], (txt "0-3,4294967295-4294967295"). assert (W : writes [Range [0] [3]; Range nmax nmax] (txt "0-3,4294967295-4294967295")).
  { exists [txt "0-3"; txt "4294967295-4294967295"]. splits; [|reflexivity|discriminate]. repeat constructor; exists [], []; split; reflexivity. }
  assert (G : Forall good [Range [0] [3]; Range nmax nmax]).
  { repeat constructor; try discriminate; simpl; intros; lia. }
  splits; auto. apply (C55_boundary _ _ W G). right. left. reflexivity.
Qed.

(** ** Topologies *)
Lemma add_cpu_ids m n c : StronglySorted N.lt (map id m) -> StronglySorted N.lt (map id (add_cpu m n c)) /\ forall x, In x (map id (add_cpu m n c)) <-> x = n \/ In x (map id m).
Proof.
  induction m as [|z m IH]; simpl; intros S.
  - split; [repeat constructor|]. intros. intuition.
  - apply StronglySorted_inv in S. destruct S as [S F]. destruct (N.ltb_spec n (id z)); simpl.
    + split; [|intuition]. constructor; [now constructor|]. constructor; auto. eapply Forall_impl; [|exact F]. intros; lia.
    + destruct (N.eqb_spec n (id z)) as [->|N1]; simpl; [split; [now constructor|intuition]|]. destruct (IH S) as [S' I']. split.
      * constructor; auto. apply Forall_forall. intros x Hx. apply I' in Hx. rewrite Forall_forall in F. destruct Hx as [->|Hx]; [lia|auto].
      * intros x. rewrite I'. intuition.
Qed.
Lemma add_cpu_perm m n c : ~ In c (cpus_of m) -> Permutation (cpus_of (add_cpu m n c)) (c :: cpus_of m).
Proof.
  induction m as [|z m IH]; simpl; intros H; auto. destruct (n <? id z); auto. destruct (n =? id z); simpl.
  - rewrite insert_perm by (intros Hi; apply H, in_or_app; auto). reflexivity.
  - rewrite IH by (intros Hi; apply H, in_or_app; auto). symmetry. apply Permutation_middle.
Qed.
Lemma add_cpu_in m n c i x : StronglySorted N.lt (map id m) -> ((exists z, In z (add_cpu m n c) /\ id z = i /\ In x (logical_cpus z)) <-> (i = n /\ x = c) \/ exists z, In z m /\ id z = i /\ In x (logical_cpus z)).
Proof.
  induction m as [|y m IH]; simpl; intros S.
  - split; [intros (z & [<-|[]] & <- & [<-|[]]); auto|]. intros [[-> ->]|(z & [] & _)]. exists (mkNode n [c]). simpl. auto.
  - apply StronglySorted_inv in S. destruct S as [S F]. specialize (IH S). destruct (N.ltb_spec n (id y)).
    + split.
      * intros (z & [<-|Hz] & <- & Hx); [simpl in *; destruct Hx as [<-|[]]; auto|]. right. exists z. simpl in Hz. auto.
      * intros [[-> ->]|(z & Hz & Hi & Hx)]; [exists (mkNode n [c]); simpl; auto|]. exists z. simpl. auto.
    + destruct (N.eqb_spec n (id y)) as [->|N1].
      * split.
        -- intros (z & [<-|Hz] & <- & Hx); simpl in *; [apply insert_in in Hx; destruct Hx as [->|Hx]; auto|]; right; [exists y|exists z]; auto.
        -- intros [[-> ->]|(z & [->|Hz] & <- & Hx)].
           ++ eexists. split; [left; reflexivity|]. simpl. split; auto. apply insert_in. auto.
           ++ eexists. split; [left; reflexivity|]. simpl. split; auto. apply insert_in. auto.
           ++ exists z. simpl. auto.
      * split.
        -- intros (z & [<-|Hz] & <- & Hx); simpl in *; [right; exists y; auto|]. destruct (proj1 IH) as [D|(z' & Hz' & E' & Hx')]; [exists z; auto|..].
           ++ auto.
           ++ right. exists z'. auto.
        -- intros [[-> ->]|(z & [->|Hz] & <- & Hx)].
           ++ destruct (proj2 IH) as (z & Hz & E & Hx); [left; auto|]. exists z. simpl. auto.
           ++ exists z. simpl. auto.
           ++ destruct (proj2 IH) as (z' & Hz' & E' & Hx'); [right; exists z; auto|]. exists z'. simpl. auto.
Qed.
Definition has_node (f : N -> option N) (c : N) : bool := match f c with Some _ => true | None => false end.
Lemma collect_spec f cpus : forall m, NoDup cpus -> (forall c, In c cpus -> ~ In c (cpus_of m)) -> StronglySorted N.lt (map id m) ->
  let m' := fold_left (fun m c => match f c with Some n => add_cpu m n c | None => m end) cpus m in
  StronglySorted N.lt (map id m') /\ Permutation (cpus_of m') (filter (has_node f) cpus ++ cpus_of m) /\
  forall i x, (exists z, In z m' /\ id z = i /\ In x (logical_cpus z)) <-> (In x cpus /\ f x = Some i) \/ exists z, In z m /\ id z = i /\ In x (logical_cpus z).
Proof.
  induction cpus as [|c cpus IH]; intros m Nd Fr S; simpl.
  - splits; auto. intros i x. split; auto. intros [[[] _]|]; auto.
  - inversion Nd as [|? ? N1 Nd']; subst. unfold has_node at 1. destruct (f c) as [n|] eqn:Fc.
    + destruct (add_cpu_ids m n c S) as [S1 _]. pose proof (add_cpu_perm m n c (Fr c (or_introl eq_refl))) as P1.
      destruct (IH (add_cpu m n c)) as (S' & P' & X'); auto.
      { intros y Hy Hi. rewrite P1 in Hi. destruct Hi as [<-|Hi]; [auto|]. apply (Fr y); simpl; auto. }
      splits; auto.
      * rewrite P', P1. simpl. symmetry. apply Permutation_middle.
      * intros i x. rewrite X', (add_cpu_in m n c i x S). split.
        -- intros [[Hx Fx]|[[-> ->]|H]]; auto.
        -- intros [[[<-|Hx] Fx]|H]; auto. rewrite Fc in Fx. injection Fx as ->. auto.
    + destruct (IH m) as (S' & P' & X'); auto. { intros y Hy. apply Fr. simpl. auto. } splits; auto. intros i x. rewrite X'. split.
      * intros [[Hx Fx]|H]; auto.
      * intros [[[<-|Hx] Fx]|H]; auto. congruence.
Qed.
Lemma cpus_of_in m x : In x (cpus_of m) <-> exists z, In z m /\ In x (logical_cpus z).
Proof. apply in_flat_map. Qed.
Lemma filter_all {T} (f : T -> bool) l : (forall x, In x l -> f x = true) -> filter f l = l.
Proof. induction l as [|x l IH]; simpl; intros H; auto. rewrite H by auto. f_equal. auto. Qed.

(** [topo] names every CPU once, in the node that [f] says. *)
Definition exact (f : N -> option N) (topo : list node) (online : N -> Prop) : Prop :=
  NoDup (map id topo) /\ NoDup (cpus_of topo) /\ forall c i, (exists z, In z topo /\ id z = i /\ In c (logical_cpus z)) <-> online c /\ f c = Some i.

Lemma collect_exact f cpus : NoDup cpus -> exact f (collect f cpus) (fun c => In c cpus) /\ (forall c, In c (cpus_of (collect f cpus)) <-> In c cpus /\ f c <> None).
Proof.
  intros Nd. destruct (collect_spec f cpus [] Nd) as (S & P & X); [intros ? ? []|constructor|]. fold (collect f cpus) in *. simpl in P. rewrite app_nil_r in P. split; [unfold exact; splits|].
  - now apply sorted_nodup.
  - rewrite P. now apply NoDup_filter.
  - intros c i. rewrite X. split; [intros [H|(z & [] & _)]; auto|auto].
  - intros c. rewrite P, filter_In. unfold has_node. destruct (f c); intuition congruence.
Qed.
Lemma all0_collect cpus : all_to_node_0 cpus = collect (fun _ => Some 0) cpus. Proof. reflexivity. Qed.

Lemma topology_shape k ids content f : ids_from_line k content = Done ids ->
  topology k content f = Done (match collect f ids with [] => all_to_node_0 ids | m => m end).
Proof. intros E. unfold topology. rewrite E. destruct ids; reflexivity. Qed.

(** Which list of online CPUs is read, which node the kernel says; the topology is known to hold only CPUs that are online, each in exactly one node. *)
Lemma topology_nodup fuel content f topo : topology fuel content f = Done topo -> forall ids, ids_from_line fuel content = Done ids -> NoDup ids -> NoDup (map id topo) /\ NoDup (cpus_of topo).
Proof.
  intros E ids E2 Nd. rewrite (topology_shape _ _ _ _ E2) in E. injection E as <-. destruct (collect_exact f ids Nd) as ((A & B & _) & _). destruct (collect_exact (fun _ => Some 0) ids Nd) as ((A0 & B0 & _) & _). rewrite all0_collect. destruct (collect f ids); auto.
Qed.
Lemma range_sorted fuel : forall i b ids r, range_loop fuel i b ids = Some r -> StronglySorted N.lt ids -> StronglySorted N.lt r.
Proof.
  induction fuel as [|fuel IH]; simpl; intros i b ids r E S; [discriminate|]. destruct (i <=? b); [|congruence]. eapply IH; eauto. now apply insert_sorted.
Qed.
Lemma ids_sorted fuel content ids : ids_from_line fuel content = Done ids -> StronglySorted N.lt ids.
Proof.
  unfold ids_from_line. assert (G : forall es acc, entries_ids fuel es acc = Done ids -> StronglySorted N.lt acc -> StronglySorted N.lt ids).
  { induction es as [|e es IH]; simpl; intros acc E S; [congruence|]. destruct (entry_ids fuel e acc) as [acc'| |] eqn:En; try discriminate. apply (IH acc' E). revert En. unfold entry_ids. clear E IH.
    assert (L : forall t1 t2, match stoul t1 with Done first => match stoul t2 with Done lst => match range_loop fuel (u32 first) (u32 lst) acc with Some r => Done r | None => OutOfFuel end | Throw e => Throw e | OutOfFuel => OutOfFuel end | Throw e => Throw e | OutOfFuel => OutOfFuel end = Done acc' -> StronglySorted N.lt acc').
    { intros t1 t2. destruct (stoul t1); try discriminate. destruct (stoul t2); try discriminate. destruct (range_loop fuel (u32 x) (u32 x0) acc) eqn:R; try discriminate. injection 1 as <-. eapply range_sorted; eauto. }
    destruct (split "-" (trim e)) as [|t [|t2 ts]]; [apply (L [] [])| |apply (L (hd [] (t :: t2 :: ts)) (last (t :: t2 :: ts) []))]. destruct (stoul t); try discriminate. injection 1 as <-. now apply insert_sorted. }
  intros E. apply (G _ _ E). constructor.
Qed.

(** ** C54. For every vector of nodes with different ids, and for every node id, the local and the remote CPUs together are the CPUs of the topology (with the same multiplicity), the local CPUs are those of the node, the remote ones those of the other nodes. *)
Lemma remote_from acc i topo : get_remote_cpus_from acc i topo = acc ++ get_remote_cpus i topo.
Proof.
  unfold get_remote_cpus. revert acc. induction topo as [|n topo IH]; intros acc; simpl; [now rewrite app_nil_r|]. rewrite IH. destruct (i =? id n); simpl; auto. rewrite (IH (logical_cpus n)). now rewrite app_assoc.
Qed.
Lemma remote_cons i n topo : get_remote_cpus i (n :: topo) = (if i =? id n then [] else logical_cpus n) ++ get_remote_cpus i topo.
Proof. unfold get_remote_cpus at 1. simpl. rewrite remote_from. now destruct (i =? id n). Qed.
Theorem C54_partition topo i : NoDup (map id topo) ->
  Permutation (get_local_cpus i topo ++ get_remote_cpus i topo) (cpus_of topo) /\
  (forall c, In c (get_local_cpus i topo) <-> exists n, In n topo /\ id n = i /\ In c (logical_cpus n)) /\
  (forall c, In c (get_remote_cpus i topo) <-> exists n, In n topo /\ id n <> i /\ In c (logical_cpus n)).
Proof.
  induction topo as [|n topo IH]; intros Nd.
  - simpl. splits; auto; intros c; (split; [intros []|intros (? & [] & _)]).
  - inversion Nd as [|? ? N1 Nd']; subst. destruct (IH Nd') as (P & L & R). rewrite remote_cons. cbn [get_local_cpus cpus_of flat_map]. destruct (N.eqb_spec i (id n)) as [->|Ne].
    + assert (Em : forall n', In n' topo -> id n' <> id n) by (intros n' Hn E; apply N1; rewrite <- E; now apply in_map).
      assert (L0 : get_local_cpus (id n) topo = []). { destruct (get_local_cpus (id n) topo) as [|c l] eqn:E; auto. exfalso. destruct (proj1 (L c)) as (n' & Hn & Ei & _); [now left|]. apply (Em n'); auto. }
      rewrite L0 in P. simpl in P |- *. splits.
      * now rewrite P.
      * intros c. split; [intros H; exists n; auto|]. intros (n' & [<-|Hn] & Ei & Hc); auto. exfalso. apply (Em n'); auto.
      * intros c. rewrite R. split; [intros (n' & Hn & H); exists n'; auto|]. intros (n' & [<-|Hn] & Ei & Hc); [congruence|]. exists n'. auto.
    + splits.
      * rewrite <- P. rewrite !app_assoc. apply Permutation_app_tail, Permutation_app_comm.
      * intros c. rewrite L. split; [intros (n' & Hn & H); exists n'; simpl; auto|]. intros (n' & [<-|Hn] & Ei & Hc); [congruence|]. exists n'. auto.
      * intros c. rewrite in_app_iff, R. split; [intros [H|(n' & Hn & H)]; [exists n|exists n']; simpl; auto|]. intros (n' & [<-|Hn] & Ei & Hc); auto. right. exists n'. auto.
Qed.
(** In particular for whatever topology() returns, and then no CPU is both local and remote. *)
Theorem C54_topology fuel content node_of topo i : topology fuel content node_of = Done topo ->
  (forall c, In c (get_local_cpus i topo) -> In c (get_remote_cpus i topo) -> False) /\ (forall c, In c (get_local_cpus i topo) \/ In c (get_remote_cpus i topo) <-> In c (cpus_of topo)) /\ NoDup (get_local_cpus i topo ++ get_remote_cpus i topo).
Proof.
  intros E. destruct (ids_from_line fuel content) as [ids| |] eqn:E2; try (unfold topology in E; rewrite E2 in E; discriminate). destruct (topology_nodup _ _ _ _ E ids E2 (sorted_nodup _ (ids_sorted _ _ _ E2))) as [N1 N2]. destruct (C54_partition topo i N1) as (P & _ & _). assert (N3 : NoDup (get_local_cpus i topo ++ get_remote_cpus i topo)) by (rewrite P; auto). splits; auto.
  - intros c H1 H2. apply in_split in H1. destruct H1 as (l1 & l2 & H1). rewrite H1, <- app_assoc in N3. simpl in N3. apply NoDup_remove_2 in N3. apply N3. rewrite !in_app_iff. auto.
  - intros c. rewrite <- in_app_iff, P. reflexivity.
Qed.

(** ** C66. If every online CPU has a node entry, topology() lists exactly the online CPUs, each once and in its node; if no one has, all are in node 0. The property without this hypothesis is refuted below. *)
Theorem C66_all_listed_partial es line node_of : writes es line -> Forall good es -> Forall (fun e => ~ to_max e) es ->
  let online c := exists e, In e es /\ covers e c in
  (exists c, online c) ->
  (forall c, online c -> node_of c <> None) \/ (forall c, online c -> node_of c = None) ->
  exists k topo, (forall fuel, (k <= fuel)%nat -> topology fuel line node_of = Done topo) /\
    exact (fun c => match node_of c with Some n => Some n | None => Some 0 end) topo online.
Proof.
  intros W G M online [c0 On] Al. destruct (C55_ids_partial es line W G M) as (k & ids & E & S & X). assert (Nd := sorted_nodup _ S). set (f := fun c => match node_of c with Some n => Some n | None => Some 0 end).
  assert (Key : match collect node_of ids with [] => all_to_node_0 ids | m => m end = collect f ids).
  { assert (Ext : forall g1 g2, (forall c, In c ids -> g1 c = g2 c) -> collect g1 ids = collect g2 ids). { intros g1 g2. unfold collect. generalize (@nil node). clear. induction ids as [|c ids IH]; intros m H; simpl; auto. rewrite <- H by now left. apply IH. intros; apply H; now right. }
    destruct (collect_exact node_of ids Nd) as (_ & B). destruct Al as [Al|Al].
    - rewrite (Ext f node_of) by (intros c Hc; apply X, Al in Hc; unfold f; destruct (node_of c); congruence). destruct (collect node_of ids) eqn:Ec; auto. exfalso. apply (proj2 (B c0)). split; [now apply X|apply Al; auto].
    - rewrite all0_collect, (Ext f (fun _ => Some 0)) by (intros c Hc; apply X, Al in Hc; unfold f; rewrite Hc; auto). destruct (collect node_of ids) as [|z m] eqn:Ec; auto. exfalso.  rewrite (Ext node_of (fun _ => None)) in Ec by (intros c Hc; apply X, Al in Hc; auto). assert (Em : forall l m0, fold_left (fun m (c : N) => match (fun _ : N => @None N) c with Some n => add_cpu m n c | None => m end) l m0 = m0) by (clear; induction l; simpl; auto). unfold collect in Ec. rewrite Em in Ec. discriminate. }
  exists k, (collect f ids). split.
  - intros fuel Hf. rewrite (topology_shape fuel ids) by auto. now rewrite Key.
  - destruct (collect_exact f ids Nd) as ((A & B & C) & _). unfold exact. splits; auto. intros c i. rewrite C, X. reflexivity.
Qed.
(** CPU 1 is online but its directory has no entry nodeN (CPU 0 has one): it is in no node of the topology. *)
Theorem C66_refuted : exists line node_of topo, line = txt "0-1" /\ (forall fuel, (10 <= fuel)%nat -> topology fuel line node_of = Done topo) /\ ids_from_line 10 line = Done [0; 1] /\ ~ In 1 (cpus_of topo).
Proof.
  exists (txt "0-1"), (fun c => if c =? 0 then Some 0 else None), [mkNode 0 [0]]. splits; [reflexivity| |reflexivity|simpl; intuition discriminate]. intros fuel H. do 10 (destruct fuel as [|fuel]; [lia|]). reflexivity.
Qed.

(** ** C67. If the list of online CPUs cannot be read, its first line is empty, and topology() ends with the exception std::invalid_argument of std::stoul; the branch that was meant for this ("parsing cpus failed", topology.cpp:151-154) is not taken. *)
Theorem C67_refuted : forall fuel node_of, topology fuel [] node_of = Throw InvalidArgument.
Proof. reflexivity. Qed.
(** What does reach that branch: a list that only has ranges that run backwards. *)
Theorem C67_empty_partial es line node_of : writes es line -> Forall good es -> (forall c, ~ exists e, In e es /\ covers e c) -> exists k, forall fuel, (k <= fuel)%nat -> topology fuel line node_of = Done [].
Proof.
  intros W G Em. assert (M : Forall (fun e => ~ to_max e) es).
  { apply Forall_forall. intros e Hi Mx. rewrite Forall_forall in G. specialize (G e Hi). destruct e as [a|a b]; simpl in *; auto. apply (Em (value b)). exists (Range a b). split; auto. simpl. rewrite Mx. destruct G as [(_ & _ & V) _]. lia. }
  destruct (C55_ids_partial es line W G M) as (k & ids & E & S & X). exists k. intros fuel Hf. unfold topology. rewrite E by auto. destruct ids as [|c ids]; auto. exfalso. apply (Em c). apply X. now left.
Qed.

(** ** Examples *)
Lemma ex_writes : writes [Range [0] [3]; One [0; 8]; Range [1; 0] [1; 1]] (txt "0-3, 08 ,10-11").
Proof. exists [txt "0-3"; txt " 08 "; txt "10-11"]. splits; [|reflexivity|discriminate]. repeat constructor; [exists [], []|exists [" "%char], [" "%char]|exists [], []]; split; reflexivity. Qed.
Lemma ex_good : Forall good [Range [0] [3]; One [0; 8]; Range [1; 0] [1; 1]].
Proof. repeat constructor; try discriminate; simpl; intros; lia. Qed.
Example C55_ex : writes [Range [0] [3]; One [0; 8]; Range [1; 0] [1; 1]] (txt "0-3, 08 ,10-11") /\ Forall good [Range [0] [3]; One [0; 8]; Range [1; 0] [1; 1]] /\ Forall (fun e => ~ to_max e) [Range [0] [3]; One [0; 8]; Range [1; 0] [1; 1]] /\ ids_from_line 10 (txt "0-3, 08 ,10-11") = Done [0; 1; 2; 3; 8; 10; 11].
Proof. splits; [apply ex_writes|apply ex_good| |reflexivity]. repeat constructor; simpl; lia. Qed.
Example C54_ex : exists topo, topology 10 (txt "0-3, 08 ,10-11") (fun c => Some (c mod 2)) = Done topo /\ NoDup (map id topo) /\ get_local_cpus 1 topo = [1; 3; 11] /\ get_remote_cpus 1 topo = [0; 2; 8; 10].
Proof. eexists. splits; [reflexivity| |reflexivity|reflexivity]. repeat constructor; simpl; intuition discriminate. Qed.
Example C66_ex : (exists c, exists e, In e [Range [0] [3]; One [0; 8]; Range [1; 0] [1; 1]] /\ covers e c) /\ topology 10 (txt "0-3, 08 ,10-11") (fun c => Some (c mod 2)) = Done [mkNode 0 [0; 2; 8; 10]; mkNode 1 [1; 3; 11]].
Proof. split; [exists 2, (Range [0] [3]); split; [now left|simpl; lia]|reflexivity]. Qed.
Example C67_ex : writes [Range [3] [1]] (txt "3-1") /\ topology 10 (txt "3-1") (fun c => Some 0) = Done [].
Proof. split; [|reflexivity]. exists [txt "3-1"]. splits; [|reflexivity|discriminate]. repeat constructor. exists [], []. split; reflexivity. Qed.

Print Assumptions C54_partition.
Print Assumptions C54_topology.
Print Assumptions C55_ids_partial.
Print Assumptions C55_boundary.
Print Assumptions C55_refuted.
Print Assumptions C66_all_listed_partial.
Print Assumptions C66_refuted.
Print Assumptions C67_refuted.
Print Assumptions C67_empty_partial.
