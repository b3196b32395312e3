(** C147, C148, C149: the clients of the publish/subscribe server. *)
From Coq Require Import List Arith NArith Bool Lia.
From Verif Require Import Base PubText PubTextProps PsClient.
Import ListNotations.

(** A line as it is typed: any bytes but zero and newline. *)
Definition line (l : list N) : Prop := ~ In 0%N l /\ ~ In 10%N l.
(** The standard input when the lines [ls] are typed. *)
Definition typed (ls : list (list N)) : list N := flat_map (fun l => l ++ [10%N]) ls.
(** Any contents of the uninitialised arrays. *)
Definition arrays (len : nat) (g : nat -> list N) : Prop := forall i, length (g i) = len.

Lemma take_fit : forall l k r, ~ In 10%N l -> length l <= k -> take_line k (l ++ 10%N :: r) = (l, r, Newline).
Proof.
  induction l as [|c l IH]; intros k r H L; [reflexivity|]; simpl. destruct (N.eqb_spec c 10) as [->|N]; [destruct H; simpl; auto|].
  destruct k; simpl in L; [lia|]. rewrite IH; auto; [|lia]. intros X. apply H. simpl. auto.
Qed.
Lemma take_end : forall l k, ~ In 10%N l -> length l <= k -> take_line k l = (l, [], Ended).
Proof.
  induction l as [|c l IH]; intros k H L; [reflexivity|]; simpl. destruct (N.eqb_spec c 10) as [->|N]; [destruct H; simpl; auto|].
  destruct k; simpl in L; [lia|]. rewrite IH; auto; [|lia]. intros X. apply H. simpl. auto.
Qed.
Lemma take_full : forall l k r, ~ In 10%N l -> k < length l -> take_line k (l ++ r) = (firstn k l, skipn k l ++ r, Full).
Proof.
  induction l as [|c l IH]; intros k r H L; simpl in *; [lia|]. destruct (N.eqb_spec c 10) as [->|N]; [destruct H; simpl; auto|].
  destruct k; auto. rewrite IH; auto; lia.
Qed.
Lemma relay_block : forall len b m r, length b = len -> b = m ++ 0%N :: r -> ~ In 0%N m -> relay len b = Some m.
Proof.
  intros len b m r L E H. destruct (C119_exact_partial len b L) as (m' & R & T); [subst b; apply in_or_app; simpl; auto|]. rewrite R. f_equal.
  assert (T' : text b = Some m) by (apply text_some; exists r; auto). apply text_some in T. congruence.
Qed.
Lemma block_len : forall (b m : list N), length m < length b -> length (m ++ 0%N :: skipn (S (length m)) b) = length b.
Proof. intros b m H. rewrite app_length. cbn [length]. rewrite skipn_length. lia. Qed.
Lemma getline_len : forall s b, b <> [] -> length (snd (getline s b)) = length b.
Proof.
  intros s b H. assert (0 < length b) by (destruct b; simpl; [congruence|lia]). unfold getline. destruct (good s).
  - destruct (take_line (length b - 1) (rest s)) as [[l r] w] eqn:T. simpl snd. apply block_len.
    assert (X : forall k i l r w, take_line k i = (l, r, w) -> length l <= k).
    { clear. intros k i; revert k. induction i as [|c i IH]; intros k l r w X; simpl in X; [injection X as <- _ _; simpl; lia|].
      destruct (N.eqb c 10); [injection X as <- _ _; simpl; lia|]. destruct k; [injection X as <- _ _; simpl; lia|].
      destruct (take_line k i) as [[l' r'] w'] eqn:T. injection X as <- _ _. apply IH in T. simpl. lia. }
    apply X in T. lia.
  - cbn [snd length]. rewrite skipn_length. lia.
Qed.
Lemma rounds_bad : forall len g, 0 < len -> arrays len g -> forall k i r, map (relay len) (rounds g k i (Stream false r)) = repeat (Some []) k.
Proof.
  intros len g Hl Hg. induction k as [|k IH]; intros i r; auto. change (rounds g (S k) i (Stream false r)) with ((0%N :: skipn 1 (g i)) :: rounds g k (S i) (Stream false r)). cbn [map repeat].
  rewrite IH. f_equal. apply relay_block with (r := skipn 1 (g i)); auto. cbn [length]. rewrite skipn_length, Hg. lia.
Qed.
Lemma rounds_line : forall len g, arrays len g -> forall l k i r, line l -> length l < len ->
  map (relay len) (rounds g (S k) i (Stream true (l ++ 10%N :: r))) = Some l :: map (relay len) (rounds g k (S i) (Stream true r)).
Proof.
  intros len g Hg l k i r [Hz Hn] L. simpl rounds. unfold getline. simpl good. cbv iota. simpl rest. rewrite Hg, take_fit by (auto; lia). simpl map. f_equal.
  apply relay_block with (r := skipn (S (length l)) (g i)); auto. pose proof (block_len (g i) l) as B. rewrite Hg in B. apply B. lia.
Qed.
Lemma rounds_lines : forall len g, arrays len g -> forall ls k i r, Forall line ls -> Forall (fun l => length l < len) ls ->
  map (relay len) (rounds g (length ls + k) i (Stream true (typed ls ++ r))) = map Some ls ++ map (relay len) (rounds g k (length ls + i) (Stream true r)).
Proof.
  intros len g Hg. induction ls as [|l ls IH]; intros k i r H L; auto. inversion H; subst. inversion L; subst.
  change (length (l :: ls) + k) with (S (length ls + k)). replace (typed (l :: ls) ++ r) with (l ++ 10%N :: (typed ls ++ r)) by (unfold typed; simpl flat_map; rewrite <- !app_assoc; reflexivity).
  rewrite (rounds_line len g) by auto. rewrite IH by auto. replace (length ls + S i) with (length (l :: ls) + i) by (simpl; lia). reflexivity.
Qed.

Lemma rounds_end : forall len g ls k, 0 < len -> arrays len g -> Forall line ls -> Forall (fun l => length l < len) ls ->
  map (relay len) (publisher g (length ls + k) (typed ls)) = map Some ls ++ repeat (Some []) k.
Proof.
  intros len g ls k P Hg H L. unfold publisher. pose proof (rounds_lines len g Hg ls k 0 [] H L) as X. rewrite app_nil_r in X. rewrite X. f_equal.
  destruct k; auto. generalize (length ls + 0). intros i. change (rounds g (S k) i (Stream true [])) with ((0%N :: skipn 1 (g i)) :: rounds g k (S i) (Stream false [])).
  cbn [map repeat]. rewrite (rounds_bad len g P Hg). f_equal. apply relay_block with (m := []) (r := skipn 1 (g i)); auto. cbn [length]. rewrite skipn_length, Hg. lia.
Qed.

(** C147 is false: after the end of its input the publisher goes on sending empty messages, as many as there is time for. *)
Theorem C147_refuted : exists ls, Forall line ls /\ Forall (fun l => length l < max_length) ls /\
  forall g, arrays max_length g -> forall k, map (relay max_length) (publisher g (length ls + k) (typed ls)) = map Some ls ++ repeat (Some []) k.
Proof.
  exists [[104; 105]%N]. assert (A : Forall line [[104; 105]%N]) by (repeat constructor; simpl; intuition congruence).
  assert (B : Forall (fun l => length l < max_length) [[104; 105]%N]) by (constructor; auto; apply Nat.ltb_lt; vm_compute; reflexivity).
  split; [exact A|]. split; [exact B|]. intros g Hg k. apply rounds_end; auto. apply Nat.ltb_lt. vm_compute. reflexivity.
Qed.
Print Assumptions C147_refuted.

(** C147 up to the end of the input: whatever the uninitialised array holds, each line shorter than the buffer is one message, in the order typed, and the server gives the subscribers exactly its text. *)
Theorem C147_lines_partial : forall len g ls, arrays len g -> Forall line ls -> Forall (fun l => length l < len) ls ->
  map (relay len) (publisher g (length ls) (typed ls)) = map Some ls.
Proof.
  intros len g ls Hg H L. unfold publisher. pose proof (rounds_lines len g Hg ls 0 0 [] H L) as X. rewrite (app_nil_r (typed ls)), (Nat.add_0_r (length ls)) in X. cbn [rounds map] in X. rewrite X. apply app_nil_r.
Qed.
Print Assumptions C147_lines_partial.

(** C147 where it fails: after the last line the messages are empty, for ever. *)
Theorem C147_end_partial : forall len g ls k, 0 < len -> arrays len g -> Forall line ls -> Forall (fun l => length l < len) ls ->
  map (relay len) (publisher g (length ls + k) (typed ls)) = map Some ls ++ repeat (Some []) k.
Proof. exact rounds_end. Qed.
Print Assumptions C147_end_partial.

(** C147 where it fails: of a line that does not fit only the first [len - 1] bytes are sent; neither the rest of it nor any later line [more] is ever sent, all later messages are empty. *)
Theorem C147_long_partial : forall len g ls l more k, 0 < len -> arrays len g -> Forall line ls -> Forall (fun l => length l < len) ls -> line l -> len <= length l ->
  map (relay len) (publisher g (length ls + S k) (typed ls ++ l ++ 10%N :: more)) = map Some ls ++ Some (firstn (len - 1) l) :: repeat (Some []) k.
Proof.
  intros len g ls l more k P Hg H L [Hz Hn] Hl. unfold publisher. rewrite (rounds_lines len g) by auto. f_equal. generalize (length ls + 0). intros i.
  simpl rounds. unfold getline. simpl good. cbv iota. simpl rest. rewrite Hg, take_full by (auto; lia). cbv beta iota zeta. simpl map. rewrite (rounds_bad len g P Hg). f_equal.
  assert (E : length (firstn (len - 1) l) = len - 1) by (rewrite firstn_length; lia).
  apply relay_block with (r := skipn (S (length (firstn (len - 1) l))) (g i)); auto.
  - pose proof (block_len (g i) (firstn (len - 1) l)) as B. rewrite Hg in B. apply B. lia.
  - intros X. apply Hz. rewrite <- (firstn_skipn (len - 1) l). apply in_or_app. auto.
Qed.
Print Assumptions C147_long_partial.

(** C147: every block the publisher writes is inside its array. *)
Theorem C147_block_partial : forall len g k inp, 0 < len -> arrays len g -> Forall (fun b => length b = len) (publisher g k inp).
Proof.
  intros len g k inp P Hg. unfold publisher. generalize 0 (Stream true inp). induction k as [|k IH]; intros i s; simpl; auto.
  pose proof (getline_len s (g i)) as X. destruct (getline s (g i)) as [s' b]. constructor; auto. simpl in X. rewrite X; auto. intros Y. specialize (Hg i). rewrite Y in Hg. simpl in Hg. lia.
Qed.
Print Assumptions C147_block_partial.

Example C147_case : let g := fun _ : nat => [9; 9; 9; 9]%N in
  arrays 4 g /\ Forall line [[1; 2; 3]; []; [7]]%N /\ map (relay 4) (publisher g 3 (typed [[1; 2; 3]; []; [7]]%N)) = [Some [1; 2; 3]; Some []; Some [7]]%N /\
  map (relay 4) (publisher g 4 ([1] ++ [10] ++ [1; 2; 3; 4; 5; 10; 8; 10])%N) = [Some [1]; Some [1; 2; 3]; Some []; Some []]%N.
Proof. cbv zeta. split; [intros i; reflexivity|]. split; [repeat constructor; simpl; intuition congruence|]. split; vm_compute; reflexivity. Qed.

(** C148 is false: a name of 1025 bytes is copied behind the buffer, and one of 1024 bytes leaves no room for the terminating zero, so that the server reads behind its buffer. *)
Theorem C148_refuted : (exists n, ~ In 0%N n /\ name_block max_length n = None) /\ (exists n b, ~ In 0%N n /\ name_block max_length n = Some b /\ text b = None).
Proof.
  split; [exists (repeat 65%N 1025)|exists (repeat 65%N 1024), (repeat 65%N 1024)]; splits; try (vm_compute; reflexivity); intros X; apply repeat_spec in X; discriminate.
Qed.
Print Assumptions C148_refuted.

(** C148 for names shorter than the buffer: the block has the length the server reads and the server takes from it exactly the name. *)
Theorem C148_partial : forall len n, ~ In 0%N n -> length n < len -> exists b, name_block len n = Some b /\ length b = len /\ text b = Some n.
Proof.
  intros len n H L. unfold name_block. rewrite (proj2 (Nat.leb_le _ _)) by lia. eexists. split; [reflexivity|].
  assert (E : skipn (length n) (repeat 0%N len) = 0%N :: repeat 0%N (len - length n - 1)).
  { replace len with (length n + S (len - length n - 1)) at 1 by lia. rewrite repeat_app, skipn_app, skipn_all2 by (rewrite repeat_length; lia). rewrite repeat_length, Nat.sub_diag. reflexivity. }
  rewrite E. split; [rewrite app_length; simpl; rewrite repeat_length; lia|]. apply text_some. eexists. split; [reflexivity|]. exact H.
Qed.
Print Assumptions C148_partial.

(** C148: a publisher and a subscriber meet in the same queue exactly if they were started with the same name. *)
Theorem C148_meet_partial : forall len n n' b b', ~ In 0%N n -> ~ In 0%N n' -> length n < len -> length n' < len -> name_block len n = Some b -> name_block len n' = Some b' ->
  (text b = text b' <-> n = n').
Proof.
  intros len n n' b b' H H' L L' E E'. destruct (C148_partial len n H L) as (c & X & _ & T). destruct (C148_partial len n' H' L') as (c' & X' & _ & T'). rewrite X in E. rewrite X' in E'. injection E as <-. injection E' as <-. rewrite T, T'. split; congruence.
Qed.
Print Assumptions C148_meet_partial.

(** C148 where it fails: exactly the names longer than the buffer are copied behind it. *)
Theorem C148_where_partial : forall len n, name_block len n = None <-> len < length n.
Proof. intros len n. unfold name_block. destruct (Nat.leb_spec (length n) len); split; intros; try discriminate; auto; lia. Qed.
Print Assumptions C148_where_partial.

Example C148_case : name_block 4 [65; 66]%N = Some [65; 66; 0; 0]%N /\ name_block 2 [65; 66; 67]%N = None.
Proof. vm_compute. auto. Qed.

(** C149 is false: two messages may be shown in one line, and one message in two. *)
Theorem C149_refuted : exists ms ns1 ns2, Forall (fun m => m <> []) ms /\ length ms = 2 /\
  (exists o, subscriber max_length ns1 (concat ms) = Some (o, []) /\ length o = 1) /\ (exists o, subscriber max_length ns2 (concat ms) = Some (o, []) /\ length o = 4).
Proof.
  exists [[97; 98]; [99; 100]]%N, [4], [1; 1; 1; 1]. splits; auto; [repeat constructor; discriminate|eexists; split; [vm_compute; reflexivity|reflexivity]..].
Qed.
Print Assumptions C149_refuted.

(** C149: however the bytes are split by the network, the subscriber shows all bytes it reads, in the order the server wrote them, none twice; no line is empty and none is longer than the buffer. *)
Theorem C149_partial : forall len ns a o r, subscriber len ns a = Some (o, r) -> concat o ++ r = a /\ map (@length N) o = ns /\ Forall (fun l => 1 <= length l <= len) o.
Proof.
  intros len. induction ns as [|n ns IH]; simpl; intros a o r H; [injection H as <- <-; auto|].
  unfold read_some in H. destruct ((1 <=? n) && (n <=? len) && (n <=? length a)) eqn:E; [|discriminate]. apply andb_prop in E as [E E3]. apply andb_prop in E as [E1 E2]. apply Nat.leb_le in E1, E2, E3.
  destruct (subscriber len ns (skipn n a)) as [[o' a']|] eqn:S; [|discriminate]. injection H as <- <-. destruct (IH _ _ _ S) as (C & M & F).
  assert (L : length (firstn n a) = n) by (rewrite firstn_length; lia). splits.
  - simpl. rewrite <- app_assoc, C. apply firstn_skipn.
  - simpl. rewrite L, M. reflexivity.
  - constructor; auto. rewrite L. lia.
Qed.
Print Assumptions C149_partial.

(** C149: if each read returns exactly the bytes of one message of the server, each line is one message. *)
Theorem C149_split_partial : forall len ms, Forall (fun m => 1 <= length m <= len) ms -> subscriber len (map (@length N) ms) (concat ms) = Some (ms, []).
Proof.
  intros len. induction ms as [|m ms IH]; intros H; auto. inversion H as [|? ? Hm Hr]; subst. simpl. unfold read_some.
  rewrite (proj2 (Nat.leb_le 1 _)), (proj2 (Nat.leb_le (length m) len)), (proj2 (Nat.leb_le (length m) _)) by (try rewrite app_length; lia). simpl andb. cbv iota.
  rewrite firstn_app, firstn_all, Nat.sub_diag, skipn_app, skipn_all, Nat.sub_diag. simpl. rewrite IH by auto. rewrite app_nil_r. reflexivity.
Qed.
Print Assumptions C149_split_partial.

Example C149_case : subscriber 4 [2; 3] [1; 2; 3; 4; 5; 6]%N = Some ([[1; 2]; [3; 4; 5]], [6])%N.
Proof. reflexivity. Qed.
