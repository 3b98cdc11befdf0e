(** Proofs about [NttpModel]. *)
From Verif Require Import Prelude NttpModel.
Close Scope N_scope.

Lemma map_seq_add a n : forall b, map (fun i => a + i) (seq b n) = seq (a + b) n.
Proof. induction n as [|n IH]; intros b; cbn; [reflexivity|]. rewrite IH. now rewrite Nat.add_succ_r. Qed.
Lemma concat_seq_seq a b : concat_seq (seq 0 a) (seq 0 b) = seq 0 (a + b).
Proof. unfold concat_seq. rewrite seq_length, map_seq_add, Nat.add_0_r. now rewrite seq_app. Qed.
Lemma make_index_ok d : forall n, n <= 2 ^ d -> make_index d n = Some (seq 0 n).
Proof.
  induction d as [|d IH]; intros n Hn.
  - cbn in Hn. destruct n as [|[|n]]; [reflexivity|reflexivity|lia].
  - destruct n as [|[|n]]; [reflexivity|reflexivity|]. cbn [Nat.pow] in Hn.
    cbn [make_index]. set (m := S (S n)) in *.
    assert (Hm : m = 2 * (m / 2) + m mod 2) by (apply Nat.div_mod; lia).
    pose proof (Nat.mod_upper_bound m 2 ltac:(lia)) as Hb.
    rewrite !IH by lia. rewrite concat_seq_seq. f_equal. f_equal. lia.
Qed.
Lemma make_index_deep d : forall n, 2 ^ d < n -> make_index d n = None.
Proof.
  induction d as [|d IH]; intros n Hn.
  - cbn in Hn. destruct n as [|[|n]]; [lia|lia|reflexivity].
  - cbn [Nat.pow] in Hn. assert (Hp : 1 <= 2 ^ d) by (clear; induction d; cbn; lia).
    destruct n as [|[|n]]; [lia|lia|].
    cbn [make_index]. set (m := S (S n)) in *.
    assert (Hm : m = 2 * (m / 2) + m mod 2) by (apply Nat.div_mod; lia).
    pose proof (Nat.mod_upper_bound m 2 ltac:(lia)) as Hb.
    rewrite (IH (m - m / 2)) by lia. now destruct (make_index d (m / 2)).
Qed.

Lemma update_app a : forall c x b, update (length a) c (a ++ x :: b) = a ++ c :: b.
Proof. induction a as [|y a IH]; intros; cbn; [reflexivity|]. now rewrite IH. Qed.
Lemma array_at s i : i < length s -> at_ (array s) i = nth_error s i.
Proof. intros H. unfold at_, array. now apply nth_error_app1. Qed.
Lemma fill_ok s2 : forall s1 fuel, (N.of_nat (length (s1 ++ s2)) < 2 ^ 32)%N -> length s2 <= fuel ->
  fill fuel (N.of_nat (length (s1 ++ s2))) (N.of_nat (length s1)) (array (s1 ++ s2)) (s1 ++ repeat 0%N (length s2)) = Some (s1 ++ s2).
Proof.
  induction s2 as [|c s2 IH]; intros s1 fuel Hn Hf.
  - rewrite !app_nil_r. destruct fuel; cbn [fill]; rewrite N.eqb_refl; cbn [length repeat]; now rewrite ?app_nil_r.
  - destruct fuel as [|fuel]; [cbn in Hf; lia|]. cbn [fill]. rewrite app_length in *. cbn [length] in *.
    destruct (N.eqb_spec (N.of_nat (length s1)) (N.of_nat (length s1 + S (length s2)))) as [H|_]; [lia|].
    rewrite Nat2N.id, array_at by (rewrite app_length; cbn; lia). rewrite nth_error_app2, Nat.sub_diag by lia. cbn [nth_error].
    cbn [repeat]. rewrite update_app. rewrite N.mod_small by lia.
    specialize (IH (s1 ++ [c]) fuel). rewrite <- !app_assoc in IH. cbn [app] in IH. rewrite !app_length in IH. cbn [length] in IH.
    replace (N.of_nat (length s1) + 1)%N with (N.of_nat (length s1 + 1)) by lia.
    apply IH; lia.
Qed.
Lemma fill_forever fuel : forall n i str data, (2 ^ 32 <= n)%N -> (i < 2 ^ 32)%N -> fill fuel n i str data = None.
Proof.
  induction fuel as [|fuel IH]; intros n i str data Hn Hi; cbn [fill]; destruct (N.eqb_spec i n) as [H|_]; try lia; [reflexivity|].
  destruct (at_ str (N.to_nat i)); [|reflexivity]. apply IH; [exact Hn|]. now apply N.mod_upper_bound.
Qed.
Lemma fill_short fuel : forall n i str data, (n < 2 ^ 32)%N -> (i <= n)%N -> fuel < N.to_nat n - N.to_nat i -> fill fuel n i str data = None.
Proof.
  induction fuel as [|fuel IH]; intros n i str data Hn Hi Hf; cbn [fill]; destruct (N.eqb_spec i n) as [H|_]; try lia; [reflexivity|].
  destruct (at_ str (N.to_nat i)); [|reflexivity]. rewrite N.mod_small by lia. apply IH; lia.
Qed.
Lemma get_all_seq s2 : forall s1, get_all (s1 ++ s2) (seq (length s1) (length s2)) = Some s2.
Proof.
  induction s2 as [|c s2 IH]; intros s1; [reflexivity|]. cbn [length seq get_all]. unfold at_.
  rewrite nth_error_app2, Nat.sub_diag by lia. cbn [nth_error].
  specialize (IH (s1 ++ [c])). rewrite <- app_assoc, app_length in IH. cbn [app length] in IH. rewrite Nat.add_1_r in IH. now rewrite IH.
Qed.
Lemma array_length s : length (array s) - 1 = length s.
Proof. unfold array. rewrite app_length. cbn. lia. Qed.
Lemma class_ok s fuel indices : (N.of_nat (length s) < 2 ^ 32)%N -> length s <= fuel -> indices (length s) = Some (seq 0 (length s)) ->
  nttp_class fuel indices (array s) = Some s.
Proof.
  intros Hn Hf Hi. unfold nttp_class, string_literal. rewrite array_length.
  pose proof (fill_ok s [] fuel Hn Hf) as H. cbn [app length] in H. change (N.of_nat 0) with 0%N in H. rewrite H.
  unfold to_type_string. rewrite Hi. exact (get_all_seq s []).
Qed.

Lemma cut_cat (s : list N) i a b : firstn a (skipn i s) ++ firstn b (skipn (i + a) s) = firstn (a + b) (skipn i s).
Proof.
  revert i. induction a as [|a IH]; intros i; [now rewrite Nat.add_0_r|].
  destruct (skipn i s) as [|x l] eqn:Hs.
  - rewrite skipn_all2; [now rewrite !firstn_nil|]. apply (f_equal (@length N)) in Hs. rewrite skipn_length in Hs. cbn in Hs. lia.
  - cbn [plus firstn app]. f_equal. assert (Hl : skipn (S i) s = l).
    { clear IH. revert s Hs. induction i as [|i IH]; intros [|y s] Hs; cbn in *; try discriminate; [now injection Hs|now apply IH]. }
    rewrite <- Hl, <- IH. replace (S i + a) with (i + S a) by lia. reflexivity.
Qed.
Lemma string1_ok s i : string1 (array s) i = Some (firstn 1 (skipn i s)).
Proof.
  unfold string1, string_length. rewrite array_length.
  destruct (Nat.leb_spec (length s) i) as [H|H].
  - rewrite (proj2 (Nat.ltb_ge _ _) H). rewrite skipn_all2 by exact H. unfold at_, array. destruct s; reflexivity.
  - rewrite (proj2 (Nat.ltb_lt _ _) H). rewrite array_at by exact H. revert i H.
    induction s as [|c s IH]; intros [|i] H; cbn in *; try lia; [reflexivity|]. apply IH. lia.
Qed.
Lemma cat_ok (f : list N -> nat -> option (list N)) s a b g i : f (array s) i = Some (firstn a (skipn i s)) ->
  g (array s) (i + a) = Some (firstn b (skipn (i + a) s)) -> cat (f (array s) i) (g (array s) (i + a)) = Some (firstn (a + b) (skipn i s)).
Proof. intros H1 H2. rewrite H1, H2. cbn [cat]. f_equal. apply cut_cat. Qed.
Lemma string2_ok s i : string2 (array s) i = Some (firstn 2 (skipn i s)).
Proof. unfold string2. apply (cat_ok string1 s 1 1 string1); apply string1_ok. Qed.
Lemma string4_ok s i : string4 (array s) i = Some (firstn 4 (skipn i s)).
Proof. unfold string4. apply (cat_ok string2 s 2 2 string2); apply string2_ok. Qed.
Lemma string8_ok s i : string8 (array s) i = Some (firstn 8 (skipn i s)).
Proof. unfold string8. apply (cat_ok string4 s 4 4 string4); apply string4_ok. Qed.
Lemma string16_ok s i : string16 (array s) i = Some (firstn 16 (skipn i s)).
Proof. unfold string16. apply (cat_ok string8 s 8 8 string8); apply string8_ok. Qed.
Lemma string32_ok s i : string32 (array s) i = Some (firstn 32 (skipn i s)).
Proof. unfold string32. apply (cat_ok string16 s 16 16 string16); apply string16_ok. Qed.
Lemma macro_ok s : nttp_macro (array s) = if length s <=? 32 then Some s else None.
Proof.
  unfold nttp_macro, string_length. rewrite string32_ok, array_length. cbn [skipn].
  destruct (Nat.leb_spec (length s) 32) as [H|H]; [|reflexivity]. now rewrite firstn_all2.
Qed.
Lemma literal_ok s : nttp_literal (array s) = Some s.
Proof. unfold nttp_literal, array. now rewrite removelast_last. Qed.
