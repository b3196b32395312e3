(** C119: texts in the publish/subscribe server. *)
From Coq Require Import List Arith NArith Bool Lia.
From Verif Require Import Base PubText.
Import ListNotations.

(** The text of a zero-terminated string in a buffer. *)
Definition terminated (b m : list N) : Prop := exists r, b = m ++ 0%N :: r /\ ~ In 0%N m.

Lemma text_some : forall b m, text b = Some m <-> terminated b m.
Proof.
  induction b as [|c b IH]; simpl; intros m.
  - split; [discriminate|]. intros (r & E & _). destruct m; discriminate.
  - destruct (N.eqb_spec c 0) as [->|N].
    + split; [intros X; injection X as <-; exists b; split; auto|]. intros (r & E & H). destruct m as [|x m]; auto. injection E as <- _. destruct H. simpl. auto.
    + split.
      * destruct (text b) as [m'|] eqn:T; [|discriminate]. intros X. injection X as <-. destruct (proj1 (IH m') eq_refl) as (r & -> & H). exists r. split; auto. intros [X|X]; auto.
      * intros (r & E & H). destruct m as [|x m]; [injection E as -> _; congruence|]. injection E as -> E. assert (T : text b = Some m) by (apply IH; exists r; split; auto; intros X; apply H; simpl; auto). now rewrite T.
Qed.
Lemma text_none : forall b, text b = None <-> ~ In 0%N b.
Proof.
  induction b as [|c b IH]; simpl; [split; auto|]. destruct (N.eqb_spec c 0) as [->|N]; [split; [discriminate|intros X; destruct X; auto]|].
  destruct (text b); split; try discriminate; auto.
  - intros X. exfalso. assert (Y : Some l = None) by (apply IH; tauto). discriminate.
  - intros _ [X|X]; auto. now apply IH in X.
Qed.

(** C119 is false: a publisher that sends 1024 bytes none of which is zero makes the server read behind its buffer. *)
Theorem C119_refuted : exists b, length b = max_length /\ relay max_length b = None.
Proof. exists (repeat 65%N max_length). split; vm_compute; reflexivity. Qed.
Print Assumptions C119_refuted.

(** C119 for blocks that contain a zero: the client of the subscriber gets exactly the text before the first zero. *)
Theorem C119_exact_partial : forall len b, length b = len -> In 0%N b -> exists m, relay len b = Some m /\ terminated b m.
Proof.
  intros len b Hl H. unfold relay. destruct (text b) as [m|] eqn:T; [|apply text_none in T; tauto]. exists m. pose proof (proj1 (text_some b m) T) as Tm. split; auto. apply text_some.
  destruct Tm as (r & E & Hm). assert (L : length m < len) by (rewrite <- Hl, E, app_length; simpl; lia). unfold store. rewrite Nat.min_r by lia. rewrite firstn_all.
  exists (repeat 0%N (len - length m - 1)). split; auto. f_equal. replace (len - length m) with (S (len - length m - 1)) at 1 by lia. reflexivity.
Qed.
Print Assumptions C119_exact_partial.

(** C119: nothing is read behind the buffers exactly if the publisher sends a zero. *)
Theorem C119_where_partial : forall len b, length b = len -> (relay len b = None <-> ~ In 0%N b).
Proof.
  intros len b Hl. split; [|intros H; unfold relay; apply text_none in H; now rewrite H]. intros R H. destruct (C119_exact_partial len b Hl H) as (m & X & _). congruence.
Qed.
Print Assumptions C119_where_partial.

Example C119_case : relay 8 [104; 105; 0; 0; 1; 2; 3; 4]%N = Some [104; 105]%N /\ relay 4 [1; 2; 3; 4]%N = None.
Proof. vm_compute. auto. Qed.
