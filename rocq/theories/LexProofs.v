(** Proofs about lexemes and iterators; the theorems are in LexProps. *)
From Verif Require Import Prelude LexModel LexSpec.
Close Scope N_scope.

Lemma nth_firstn {A} (l : list A) : forall n i, i < n -> nth_error (firstn n l) i = nth_error l i.
Proof. induction l as [|x l IH]; intros [|n] [|i] H; cbn; auto; try lia. apply IH. lia. Qed.
Lemma nth_skipn {A} (l : list A) : forall n i, nth_error (skipn n l) i = nth_error l (n + i).
Proof. induction l as [|x l IH]; intros [|n] i; cbn; auto. now destruct i. Qed.

Section Proofs.
Variable text : list N.

Lemma distance_sub b e : in_text text b e -> fits text -> distance b e = N.of_nat (e - b).
Proof.
  unfold in_text, fits, distance. intros [H1 H2] H3. rewrite Z.mod_small; [lia|].
  change (2 ^ 63)%N with 9223372036854775808%N in H3. change (2 ^ 64)%Z with 18446744073709551616%Z. lia.
Qed.
Lemma part_length b e : in_text text b e -> length (part text b e) = e - b.
Proof. intros [H1 H2]. unfold part. rewrite firstn_length, skipn_length. lia. Qed.
Lemma plus_ok it n : it + N.to_nat n <= length text -> plus text it n = Ok (it + N.to_nat n).
Proof. intros H. unfold plus. destruct (N.leb_spec (N.of_nat it + n) (N.of_nat (length text))); [reflexivity|lia]. Qed.
Lemma plus_out it n : length text < it + N.to_nat n -> plus text it n = Undefined.
Proof. intros H. unfold plus. destruct (N.leb_spec (N.of_nat it + n) (N.of_nat (length text))); [lia|reflexivity]. Qed.

Lemma size_loop_ok r : forall cur e z, cur <= e -> e - cur <= r -> (z + N.of_nat (e - cur) < 2 ^ 64)%N ->
  size_loop r cur e z = Ok (z + N.of_nat (e - cur))%N.
Proof.
  induction r as [|r IH]; intros cur e z H1 H2 H3; cbn [size_loop]; destruct (Nat.eqb_spec cur e) as [->|Hn]; try lia.
  - rewrite Nat.sub_diag. f_equal. lia.
  - rewrite Nat.sub_diag. f_equal. lia.
  - unfold wrap64. rewrite N.mod_small by lia. rewrite IH by lia. f_equal. lia.
Qed.
Lemma range_size_ok c b e : in_text text b e -> fits text -> range_size text c b e = Ok (N.of_nat (e - b)).
Proof.
  intros H1 H2. destruct c; cbn [range_size]; [now rewrite distance_sub|].
  rewrite size_loop_ok; [reflexivity| | |]; unfold in_text, fits, room in *; try lia.
Qed.

(** The counter of next() is below 2^32, so that it never gets to a larger number. *)
Lemma next_loop_small r : forall it i n, (i <= n)%N -> (n < 2 ^ 32)%N ->
  next_loop r it i n = if N.to_nat (n - i) <=? r then Ok (it + N.to_nat (n - i)) else Undefined.
Proof.
  induction r as [|r IH]; intros it i n H1 H2; cbn [next_loop]; destruct (N.eqb_spec i n) as [->|Hn].
  - rewrite N.sub_diag. change (N.to_nat 0) with 0. cbn [Nat.leb]. now rewrite Nat.add_0_r.
  - destruct (Nat.leb_spec (N.to_nat (n - i)) 0); [lia|reflexivity].
  - rewrite N.sub_diag. change (N.to_nat 0) with 0. cbn [Nat.leb]. now rewrite Nat.add_0_r.
  - unfold wrap32. rewrite N.mod_small by lia. rewrite IH by lia.
    destruct (Nat.leb_spec (N.to_nat (n - (i + 1))) r); destruct (Nat.leb_spec (N.to_nat (n - i)) (S r)); try lia; [f_equal; lia|reflexivity].
Qed.
Lemma next_loop_large r : forall it i n, (i < 2 ^ 32)%N -> (2 ^ 32 <= n)%N -> next_loop r it i n = Undefined.
Proof.
  induction r as [|r IH]; intros it i n H1 H2; cbn [next_loop]; destruct (N.eqb_spec i n) as [->|Hn]; try lia; [reflexivity|].
  apply IH; [|exact H2]. unfold wrap32. apply N.mod_lt. lia.
Qed.
Lemma clamped_small r : forall it i n e, (i <= n)%N -> (n < 2 ^ 32)%N -> it <= e -> e - it <= r ->
  clamped_loop r it i n e = Ok (Nat.min (it + N.to_nat (n - i)) e).
Proof.
  induction r as [|r IH]; intros it i n e H1 H2 H3 H4; cbn [clamped_loop]; destruct (N.eqb_spec i n) as [->|Hn];
    try (f_equal; lia); destruct (Nat.eqb_spec it e) as [->|He]; try (f_equal; lia); try lia.
  unfold wrap32. rewrite N.mod_small by lia. rewrite IH by lia. f_equal. lia.
Qed.
Lemma clamped_large r : forall it i n e, (i < 2 ^ 32)%N -> (2 ^ 32 <= n)%N -> it <= e -> e - it <= r ->
  clamped_loop r it i n e = Ok e.
Proof.
  induction r as [|r IH]; intros it i n e H1 H2 H3 H4; cbn [clamped_loop]; destruct (N.eqb_spec i n) as [->|Hn]; try lia;
    destruct (Nat.eqb_spec it e) as [->|He]; try reflexivity; try lia.
  apply IH; try lia. unfold wrap32. apply N.mod_lt. lia.
Qed.
Lemma clamped_ra it n e : in_text text it e -> fits text ->
  next_clamped text RA it n e = Ok (Nat.min (it + N.to_nat n) e).
Proof.
  intros H1 H2. cbn [next_clamped]. rewrite distance_sub by assumption. destruct H1 as [H1 H3].
  destruct (N.ltb_spec (N.of_nat (e - it)) n); [f_equal; lia|]. rewrite plus_ok by lia. f_equal. lia.
Qed.

Lemma min_loop_ok r : forall cur a b, cur <= a -> cur <= b -> Nat.min a b - cur <= r -> min_loop r cur a b = Ok (Nat.min a b).
Proof.
  induction r as [|r IH]; intros cur a b H1 H2 H3; cbn [min_loop];
    destruct (Nat.eqb_spec cur a), (Nat.eqb_spec cur b); cbn [orb]; try (f_equal; lia); try lia.
  apply IH; lia.
Qed.
Lemma max_loop_ok r : forall cur a b, cur <= a -> cur <= b -> Nat.min a b - cur <= r -> max_loop r cur a b = Ok (Nat.max a b).
Proof.
  induction r as [|r IH]; intros cur a b H1 H2 H3; cbn [max_loop];
    destruct (Nat.eqb_spec cur a); try (f_equal; lia); destruct (Nat.eqb_spec cur b); try (f_equal; lia); try lia.
  apply IH; lia.
Qed.

Lemma part_nil b e : b = e -> part text b e = [].
Proof. intros ->. unfold part. now rewrite Nat.sub_diag. Qed.
Lemma skipn_next b u : nth_error text b = Some u -> skipn b text = u :: skipn (S b) text.
Proof.
  revert b. generalize text as l. induction l as [|x l IH]; intros [|b] H; cbn in *; try discriminate.
  - now injection H as ->.
  - now apply IH.
Qed.
Lemma part_cons b e u : b < e -> nth_error text b = Some u -> part text b e = u :: part text (S b) e.
Proof.
  intros H1 H2. unfold part. rewrite (skipn_next b u H2). replace (e - b) with (S (e - S b)) by lia. reflexivity.
Qed.
Lemma nth_in b : b < length text -> exists u, nth_error text b = Some u.
Proof. intros H. destruct (nth_error text b) eqn:E; [eauto|]. apply nth_error_None in E. lia. Qed.
Lemma equal_loop_ok r : forall lc le rc re, in_text text lc le -> in_text text rc re -> le - lc <= r ->
  exists x, equal_loop text r lc le rc re = Ok x /\ (x = true <-> part text lc le = part text rc re).
Proof.
  induction r as [|r IH]; intros lc le rc re H1 H2 H3; cbn [equal_loop].
  - assert (lc = le) as -> by (unfold in_text in *; lia). rewrite Nat.eqb_refl. cbn [orb andb]. eexists. split; [reflexivity|].
    rewrite part_nil by reflexivity. rewrite Nat.eqb_eq. split; [intros ->; now rewrite part_nil|].
    intros H. apply (f_equal (@length N)) in H. rewrite part_length in H by assumption. cbn in H. unfold in_text in *. lia.
  - destruct (Nat.eqb_spec lc le) as [->|Hl]; cbn [orb andb].
    { eexists. split; [reflexivity|]. rewrite part_nil by reflexivity. rewrite Nat.eqb_eq. split; [intros ->; now rewrite part_nil|].
      intros H. apply (f_equal (@length N)) in H. rewrite part_length in H by assumption. cbn in H. unfold in_text in *. lia. }
    destruct (Nat.eqb_spec rc re) as [->|Hr].
    { eexists. split; [reflexivity|]. split; [discriminate|]. rewrite (part_nil re re eq_refl).
      intros H. apply (f_equal (@length N)) in H. rewrite part_length in H by assumption. cbn in H. unfold in_text in *. lia. }
    assert (A1 : lc < length text) by (unfold in_text in *; lia). assert (A2 : rc < length text) by (unfold in_text in *; lia).
    destruct (nth_in lc A1) as (a & Ha). destruct (nth_in rc A2) as (b & Hb).
    unfold deref at 1. rewrite Ha. unfold deref at 1. rewrite Hb.
    rewrite (part_cons lc le a) by (unfold in_text in *; lia || assumption).
    rewrite (part_cons rc re b) by (unfold in_text in *; lia || assumption).
    destruct (N.eqb_spec a b) as [->|Hab].
    + destruct (IH (S lc) le (S rc) re) as (x & Hx & Hiff); [unfold in_text in *; lia..|].
      exists x. split; [exact Hx|]. rewrite Hiff. split; [intros ->; reflexivity|intros [= H]; exact H].
    + eexists. split; [reflexivity|]. split; [discriminate|]. intros [= H _]. contradiction.
Qed.
Lemma equal_ok c l r : in_lex text l -> in_lex text r -> fits text ->
  exists x, equal_lexemes text c l r = Ok x /\ (x = true <-> lex_of text l = lex_of text r).
Proof.
  intros H1 H2 H3.
  assert (HL : exists x, equal_loop text (room text (l_begin l)) (l_begin l) (l_end l) (l_begin r) (l_end r) = Ok x /\
    (x = true <-> lex_of text l = lex_of text r)).
  { apply equal_loop_ok; auto. unfold in_lex, in_text, room in *. lia. }
  destruct c; cbn [equal_lexemes]; [|exact HL].
  destruct (N.eqb_spec (lex_size l) (lex_size r)) as [Hs|Hs]; [exact HL|].
  exists false. split; [reflexivity|]. split; [discriminate|]. intros H. exfalso. apply Hs. unfold lex_size.
  rewrite !distance_sub by assumption. f_equal. apply (f_equal (@length N)) in H. unfold lex_of in H. now rewrite !part_length in H by assumption.
Qed.
Lemma part_nth b e i : in_text text b e -> i < e - b -> nth_error text (b + i) = nth_error (part text b e) i.
Proof.
  intros [H1 H2] H3. unfold part. rewrite nth_firstn by lia. now rewrite nth_skipn.
Qed.
End Proofs.
