(** C84: lexemes and the algorithms on iterators do the same for every kind of iterator. *)
From Verif Require Import Prelude LexModel LexSpec LexProofs.
Close Scope N_scope.

(** The size of a range is the number of its units, for both kinds of iterators; a lexeme is
    empty exactly if it has no units. *)
Theorem C84_size : forall text b e, in_text text b e -> fits text ->
  (forall c, range_size text c b e = Ok (N.of_nat (length (part text b e)))) /\
  lex_size (Lex b e) = N.of_nat (length (part text b e)) /\
  (lex_empty (Lex b e) = true <-> part text b e = []).
Proof.
  intros text b e H1 H2. rewrite part_length by assumption. split; [intros c; now apply range_size_ok|]. split.
  - unfold lex_size. cbn [l_begin l_end]. now apply (distance_sub text).
  - unfold lex_empty. cbn [l_begin l_end]. rewrite Nat.eqb_eq. split; [now apply part_nil|].
    intros H. apply (f_equal (@length N)) in H. rewrite part_length in H by assumption. destruct H1. cbn in H. lia.
Qed.
Print Assumptions C84_size.

(** Indexing gives the units of the lexeme; every other index is caught by the assertion. *)
Theorem C84_index : forall text l idx, in_lex text l -> fits text ->
  lex_at text l idx = match nth_error (lex_of text l) (N.to_nat idx) with Some u => Ok u | None => Assertion end.
Proof.
  intros text l idx H1 H2. unfold lex_at, lex_size. rewrite (distance_sub text) by assumption.
  destruct (N.ltb_spec idx (N.of_nat (l_end l - l_begin l))) as [H|H].
  - unfold lex_of. rewrite <- part_nth by (assumption || lia). unfold deref.
    destruct H1 as [H1 H3]. destruct (nth_in text (l_begin l + N.to_nat idx)) as (u & ->); [lia|]. reflexivity.
  - replace (nth_error (lex_of text l) (N.to_nat idx)) with (@None N); [reflexivity|].
    symmetry. apply nth_error_None. unfold lex_of. rewrite part_length by assumption. lia.
Qed.
Print Assumptions C84_index.

(** lexeme(pos, n) is the n units from pos on.  Missing: for iterators without [-], the claim is
    false for 2^32 units or more, see the next theorem. *)
Theorem C84_made_partial : forall text c pos n, pos + N.to_nat n <= length text -> (c = FW -> (n < 2 ^ 32)%N) ->
  exists l, lex_make text c pos n = Ok l /\ l_begin l = pos /\ in_lex text l /\ lex_of text l = firstn (N.to_nat n) (skipn pos text).
Proof.
  intros text c pos n H1 H2. exists (Lex pos (pos + N.to_nat n)). unfold lex_make.
  replace (next text c pos n) with (@Ok nat (pos + N.to_nat n)).
  - split; [reflexivity|]. split; [reflexivity|]. split; [split; cbn; lia|].
    unfold lex_of, part. cbn [l_begin l_end]. now replace (pos + N.to_nat n - pos) with (N.to_nat n) by lia.
  - symmetry. destruct c; cbn [next]; [now apply plus_ok|]. specialize (H2 eq_refl).
    rewrite next_loop_small by lia. rewrite N.sub_0_r. unfold room.
    destruct (Nat.leb_spec (N.to_nat n) (length text - pos)); [reflexivity|lia].
Qed.
Print Assumptions C84_made_partial.

(** The loop counts in an unsigned with 32 bits: for a size of 2^32 or more it never gets there,
    and runs over the end of the text. *)
Theorem C84_made_refuted : exists text pos n, fits text /\ pos + N.to_nat n <= length text /\
  (exists l, lex_make text RA pos n = Ok l) /\ lex_make text FW pos n = Undefined.
Proof.
  assert (HK : exists k, N.of_nat k = (2 ^ 32)%N) by (exists (N.to_nat (2 ^ 32)); apply N2Nat.id).
  destruct HK as [k Hk]. exists (repeat 0%N k), 0, (2 ^ 32)%N. unfold fits. rewrite repeat_length, Hk.
  assert (HN : N.to_nat (2 ^ 32) = k) by (rewrite <- Hk; apply Nat2N.id).
  split; [reflexivity|]. rewrite HN. split; [lia|]. split.
  - eexists. unfold lex_make. cbn [next]. rewrite plus_ok; [reflexivity|]. rewrite HN, repeat_length. lia.
  - unfold lex_make. cbn [next]. now rewrite next_loop_large by lia.
Qed.
Print Assumptions C84_made_refuted.

(** Going on by n units, but not behind the end of a line or range.  Missing: iterators without
    [-], and 2^32 or more units that are there. *)
Theorem C84_clamped_partial : forall text c it n e, in_text text it e -> fits text ->
  (c = FW -> (n < 2 ^ 32)%N \/ e - it <= N.to_nat n) ->
  exists r, next_clamped text c it n e = Ok r /\ in_text text it r /\ r <= e /\
    part text it r = firstn (N.to_nat n) (part text it e).
Proof.
  intros text c it n e H1 H2 H3. exists (Nat.min (it + N.to_nat n) e). split; [|split; [|split]].
  - destruct c; [now apply clamped_ra|]. cbn [next_clamped]. destruct H1 as [H1 H4].
    destruct (N.lt_ge_cases n (2 ^ 32)) as [Hn|Hn].
    + rewrite clamped_small; [now rewrite N.sub_0_r|lia|exact Hn|exact H1|unfold room; lia].
    + destruct (H3 eq_refl) as [H|H]; [lia|]. rewrite clamped_large; [f_equal; lia|lia|exact Hn|exact H1|unfold room; lia].
  - destruct H1. split; lia.
  - lia.
  - unfold part. rewrite firstn_firstn. f_equal. destruct H1. lia.
Qed.
Print Assumptions C84_clamped_partial.
Theorem C84_clamped_refuted : exists text it n e, in_text text it e /\ fits text /\ it + N.to_nat n < e /\
  next_clamped text FW it n e = Ok e.
Proof.
  assert (HK : exists k, N.of_nat k = (2 ^ 32)%N) by (exists (N.to_nat (2 ^ 32)); apply N2Nat.id).
  destruct HK as [k Hk]. exists (repeat 0%N (S k)), 0, (2 ^ 32)%N, (S k). unfold fits, in_text.
  assert (HN : N.to_nat (2 ^ 32) = k) by (rewrite <- Hk; apply Nat2N.id).
  rewrite repeat_length. rewrite HN. split; [lia|]. split; [rewrite Nat2N.inj_succ, Hk; reflexivity|]. split; [lia|].
  cbn [next_clamped]. apply clamped_large; unfold room; rewrite ?repeat_length; lia.
Qed.
Print Assumptions C84_clamped_refuted.

(** The nearer and the farther of two ends, for both kinds of iterators. *)
Theorem C84_ends : forall text c b a e, in_text text b a -> in_text text b e ->
  min_range_end text c b a e = Ok (if a <=? e then a else e) /\ max_range_end text c b a e = Ok (if a <=? e then e else a).
Proof.
  intros text c b a e [H1 H2] [H3 H4]. destruct c; cbn [min_range_end max_range_end].
  - destruct (Nat.leb_spec b a); [|lia]. destruct (Nat.leb_spec b e); [|lia]. auto.
  - rewrite min_loop_ok, max_loop_ok by (unfold room; lia). destruct (Nat.leb_spec a e); split; f_equal; lia.
Qed.
Print Assumptions C84_ends.

(** Comparing lexemes compares their texts, wherever they are; nothing outside of them is read. *)
Theorem C84_equal : forall text c l r, in_lex text l -> in_lex text r -> fits text ->
  exists x, equal_lexemes text c l r = Ok x /\ (x = true <-> lex_of text l = lex_of text r).
Proof. exact equal_ok. Qed.
Print Assumptions C84_equal.

Definition sample : list N := [104; 105; 32; 104; 105; 33]%N.
Example C84_sample : fits sample /\ in_lex sample (Lex 0 2) /\ in_lex sample (Lex 3 6) /\
  lex_make sample FW 3 2 = Ok (Lex 3 5) /\ equal_lexemes sample FW (Lex 0 2) (Lex 3 5) = Ok true /\
  equal_lexemes sample FW (Lex 0 2) (Lex 3 6) = Ok false /\ equal_lexemes sample RA (Lex 0 2) (Lex 1 3) = Ok false /\
  next_clamped sample FW 3 9 6 = Ok 6 /\ next_clamped sample RA 3 2 6 = Ok 5 /\
  lex_at sample (Lex 3 6) 2 = Ok 33%N /\ lex_at sample (Lex 3 6) 3 = Assertion.
Proof. unfold in_lex, in_text, fits. cbn [l_begin l_end sample length]. repeat split; (lia || reflexivity). Qed.
