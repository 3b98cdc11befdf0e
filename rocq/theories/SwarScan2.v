(** Proofs about the scanning loops, part two: newline search, delimited content
    and literals. *)
From Verif Require Import Prelude SwarModel SwarSpec SwarLanes SwarProofs SwarScan.
Open Scope N_scope.

Lemma match_newline_spec l n : match_newline l = Some n <-> newline_at l n.
Proof.
  unfold newline_at. split.
  - unfold match_newline. intros H.
    destruct l as [|x l]; [discriminate|].
    destruct (N.eq_dec x 0x0A) as [->|Hx].
    + injection H as <-. left. split; [reflexivity|]. now exists l.
    + destruct (N.eq_dec x 0x0D) as [->|Hx2].
      * destruct l as [|y l]; [discriminate|].
        destruct (N.eq_dec y 0x0A) as [->|Hy].
        -- injection H as <-. right. split; [reflexivity|]. now exists l.
        -- exfalso. revert H. clear -Hy.
           destruct y as [|p]; [discriminate|].
           repeat (destruct p as [p|p|]; try discriminate). congruence.
      * exfalso. revert H. clear -Hx Hx2. destruct x as [|p]; [discriminate|].
        repeat (destruct p as [p|p|]; try discriminate; try congruence).
  - intros [[-> [l' ->]]|[-> [l' ->]]]; reflexivity.
Qed.

Lemma newline_head l n : newline_at l n ->
  exists c r, l = c :: r /\ (c = 0x0A \/ c = 0x0D) /\ (1 <= n <= length l)%nat.
Proof.
  intros [[-> [l' ->]]|[-> [l' ->]]]; eexists; eexists; (split; [reflexivity|]); cbn [length]; split; auto; lia.
Qed.

Lemma run_no_newline q l : (forall x, q x = true -> 0xF <= x) ->
  forall j m, (j < run q l)%nat -> ~ newline_at (skipn j l) m.
Proof.
  intros Hq. induction l as [|x l IH]; intros j m Hj; cbn [run] in Hj; [lia|].
  destruct (q x) eqn:Hx; [|lia]. apply Hq in Hx.
  destruct j as [|j].
  - cbn [skipn]. intros H. apply newline_head in H as (c & r & E & Hc & _).
    injection E as <- <-. lia.
  - cbn [skipn]. apply IH. lia.
Qed.

Lemma first_newline_shift l d k n :
  (forall j m, (j < d)%nat -> ~ newline_at (skipn j l) m) ->
  first_newline (skipn d l) k n -> first_newline l (d + k) n.
Proof.
  intros Hd [H1 H2]. rewrite skipn_skipn in H1. split; [exact H1|].
  intros j m Hj. destruct (Nat.lt_ge_cases j d) as [H|H]; [now apply Hd|].
  replace j with (d + (j - d))%nat by lia. rewrite <- skipn_skipn. apply H2. lia.
Qed.
Lemma no_newline_shift l d :
  (forall j m, (j < d)%nat -> ~ newline_at (skipn j l) m) ->
  no_newline (skipn d l) -> no_newline l.
Proof.
  intros Hd H2 j m. destruct (Nat.lt_ge_cases j d) as [H|H]; [now apply Hd|].
  replace j with (d + (j - d))%nat by lia. rewrite <- skipn_skipn. apply H2.
Qed.

(** ** Packing literals *)
Lemma pack_app w a b : pack w (a ++ b) = pack w a + 2 ^ (w * N.of_nat (length a)) * pack w b.
Proof.
  induction a as [|x a IH]; cbn [app pack length].
  - replace (w * N.of_nat 0) with 0 by lia. change (2 ^ 0) with 1. lia.
  - rewrite IH, pow_mul_succ. lia.
Qed.

Lemma pack_mod w n l : lanes w l -> pack w l mod 2 ^ (w * N.of_nat n) = pack w (firstn n l).
Proof.
  intros Hl. destruct (Nat.le_gt_cases (length l) n) as [H|H].
  - rewrite firstn_all2 by exact H. apply N.mod_small.
    eapply N.lt_le_trans; [now apply pack_bound|]. apply N.pow_le_mono_r; [lia|].
    apply N.mul_le_mono_l. lia.
  - rewrite <- (firstn_skipn n l) at 1. rewrite pack_app.
    rewrite firstn_length_le by lia. rewrite N.mul_comm, N.mod_add by apply N.pow_nonzero, N.neq_succ_0 with (n := 1).
    apply N.mod_small. replace n with (length (firstn n l)) at 2 by (rewrite firstn_length; lia).
    apply pack_bound. apply Forall_forall. intros x Hx.
    eapply Forall_forall in Hl; [exact Hl|]. rewrite <- (firstn_skipn n l). apply in_or_app. now left.
Qed.

Lemma lanes_firstn w n l : lanes w l -> lanes w (firstn n l).
Proof.
  intros H. apply Forall_forall. intros x Hx. eapply Forall_forall in H; [exact H|].
  rewrite <- (firstn_skipn n l). apply in_or_app. now left.
Qed.
Lemma lanes_skipn w n l : lanes w l -> lanes w (skipn n l).
Proof.
  intros H. apply Forall_forall. intros x Hx. eapply Forall_forall in H; [exact H|].
  rewrite <- (firstn_skipn n l). apply in_or_app. now right.
Qed.

Lemma pack_value_pos w : width_ok w -> forall cs i acc,
  lanes w cs -> (i <= swar_length w)%nat -> acc < 2 ^ (w * N.of_nat i) ->
  swar_pack_value w acc (Z.of_nat i * Z.of_N w) cs
  = acc + 2 ^ (w * N.of_nat i) * pack w (firstn (swar_length w - i) cs).
Proof.
  intros Hw. induction cs as [|h cs IH]; intros i acc Hl Hi Hacc; cbn [swar_pack_value].
  - rewrite firstn_nil. cbn [pack]. lia.
  - pose proof (width_len w Hw) as Hlen.
    assert (Hw0 : 8 <= w) by now apply w_ge.
    destruct (Z.eqb_spec (Z.of_nat i * Z.of_N w) 64) as [E|E].
    + replace (swar_length w - i)%nat with 0%nat.
      * cbn [firstn pack]. lia.
      * assert (Z.of_N w * Z.of_nat (swar_length w) = 64)%Z by lia.
        destruct Hw as [->|[->| ->]]; lia.
    + assert (Hlt : (i < swar_length w)%nat) by (destruct (Nat.eq_dec i (swar_length w)); [subst; lia|lia]).
      inversion Hl as [|? ? Hh Hl']; subst.
      destruct (Z.leb_spec 0 (Z.of_nat i * Z.of_N w)) as [_|Hneg]; [|lia].
      replace (Z.to_N (Z.of_nat i * Z.of_N w)) with (w * N.of_nat i) by lia.
      assert (Hsh : wshl h (w * N.of_nat i) = h * 2 ^ (w * N.of_nat i)).
      { unfold wshl. rewrite shiftl_mul. apply N.mod_small.
        apply N.lt_le_trans with (2 ^ w * 2 ^ (w * N.of_nat i)).
        - apply N.mul_lt_mono_pos_r; [apply pow_pos|exact Hh].
        - rewrite <- N.pow_add_r. rewrite <- (word_pow w Hw). apply N.pow_le_mono_r; [lia|].
          replace (w + w * N.of_nat i) with (w * N.of_nat (S i)) by lia.
          apply N.mul_le_mono_l. lia. }
      rewrite Hsh, N.lor_comm, lor_high_low by exact Hacc.
      replace (Z.of_nat i * Z.of_N w + Z.of_N w)%Z with (Z.of_nat (S i) * Z.of_N w)%Z by lia.
      rewrite IH; [|exact Hl'|lia|].
      * replace (swar_length w - i)%nat with (S (swar_length w - S i)) by lia.
        cbn [firstn pack]. rewrite pow_mul_succ. lia.
      * rewrite pow_mul_succ. nia.
Qed.

Lemma pack_value_neg w : width_ok w -> forall skip cs,
  lanes w cs ->
  swar_pack_value w 0 (- Z.of_nat skip * Z.of_N w) cs = pack w (firstn (swar_length w) (skipn skip cs)).
Proof.
  intros Hw. assert (Hw0 : 8 <= w) by now apply w_ge.
  induction skip as [|skip IH]; intros cs Hl.
  - replace (- Z.of_nat 0 * Z.of_N w)%Z with (Z.of_nat 0 * Z.of_N w)%Z by lia.
    rewrite pack_value_pos; [|exact Hw|exact Hl|lia|apply pow_pos].
    rewrite Nat.sub_0_r. replace (w * N.of_nat 0) with 0 by lia. change (2 ^ 0) with 1. cbn [skipn]. lia.
  - destruct cs as [|h cs]; [now rewrite skipn_nil, firstn_nil|].
    cbn [swar_pack_value skipn].
    destruct (Z.eqb_spec (- Z.of_nat (S skip) * Z.of_N w) 64) as [E|_]; [nia|].
    destruct (Z.leb_spec 0 (- Z.of_nat (S skip) * Z.of_N w)) as [E|_]; [nia|].
    replace (- Z.of_nat (S skip) * Z.of_N w + Z.of_N w)%Z with (- Z.of_nat skip * Z.of_N w)%Z by nia.
    apply IH. now inversion Hl.
Qed.

Lemma swar_pack_spec w skip cs : width_ok w -> lanes w cs -> (skip < length cs)%nat ->
  let n := Nat.min (swar_length w) (length cs - skip) in
  swar_pack w skip cs =
  PackResult (pack w (firstn n (skipn skip cs))) (2 ^ (w * N.of_nat n) - 1) n.
Proof.
  intros Hw Hl Hs n. unfold swar_pack. rewrite pack_value_neg by assumption.
  assert (Hf : firstn (swar_length w) (skipn skip cs) = firstn n (skipn skip cs)).
  { unfold n. destruct (Nat.le_gt_cases (swar_length w) (length cs - skip)) as [H|H].
    - now rewrite Nat.min_l.
    - rewrite Nat.min_r by lia. rewrite !firstn_all2; rewrite ?skipn_length; try lia. reflexivity. }
  rewrite Hf.
  destruct (Z.leb_spec (Z.of_nat (length cs) - Z.of_nat skip) 0); [lia|].
  destruct (Z.leb_spec (Z.of_nat (swar_length w)) (Z.of_nat (length cs) - Z.of_nat skip)) as [H1|H1].
  - assert (En : n = swar_length w) by (unfold n; lia). rewrite En, (word_pow w Hw). reflexivity.
  - assert (En : n = (length cs - skip)%nat) by (unfold n; lia).
    replace (Z.to_N (Z.of_nat (length cs) - Z.of_nat skip) * w) with (w * N.of_nat n) by lia.
    replace (Z.to_nat (Z.of_nat (length cs) - Z.of_nat skip)) with n by lia.
    f_equal. unfold wshl. rewrite shiftl_mul, N.mul_1_l, N.mod_small; [reflexivity|].
    rewrite <- (word_pow w Hw). apply N.pow_lt_mono_r; [lia|].
    apply N.mul_lt_mono_pos_l; [pose proof (w_ge w Hw); lia|lia].
Qed.

Lemma mask_ones k : 2 ^ k - 1 = N.ones k.
Proof. unfold N.ones. rewrite N.shiftl_mul_pow2. lia. Qed.

(** ** Prefix length *)
Lemma common_le cs : forall l, (common cs l <= length cs)%nat.
Proof.
  induction cs as [|c cs IH]; intros [|x l]; cbn [common length]; try lia.
  destruct (c =? x); [pose proof (IH l)|]; lia.
Qed.
Lemma common_le_r cs : forall l, (common cs l <= length l)%nat.
Proof.
  induction cs as [|c cs IH]; intros [|x l]; cbn [common length]; try lia.
  destruct (c =? x); [pose proof (IH l)|]; lia.
Qed.
Lemma common_pad cs eofc : forall l n, ~ In eofc cs -> common cs (l ++ repeat eofc n) = common cs l.
Proof.
  induction cs as [|c cs IH]; intros [|x l] n Hn; cbn [common app]; auto.
  - destruct n as [|n]; [reflexivity|]. cbn [repeat].
    destruct (N.eqb_spec c eofc); [exfalso; apply Hn; now left|reflexivity].
  - destruct (c =? x); [|reflexivity]. f_equal. apply IH. intros H; apply Hn; now right.
Qed.
Lemma common_split n : forall cs l, (n <= length cs)%nat -> (n <= length l)%nat ->
  common cs l = if list_eq_dec N.eq_dec (firstn n l) (firstn n cs)
                then (n + common (skipn n cs) (skipn n l))%nat
                else first_diff (firstn n l) (firstn n cs).
Proof.
  induction n as [|n IH]; intros cs l H1 H2.
  - cbn [firstn skipn]. destruct (list_eq_dec _ _ _); [reflexivity|congruence].
  - destruct cs as [|c cs]; [cbn in H1; lia|]. destruct l as [|x l]; [cbn in H2; lia|].
    cbn [length] in *. cbn [common firstn skipn first_diff].
    rewrite (IH cs l) by lia. rewrite (N.eqb_sym x c).
    destruct (N.eqb_spec c x) as [->|Hne].
    + destruct (list_eq_dec N.eq_dec (firstn n l) (firstn n cs)) as [E|E].
      * rewrite E. destruct (list_eq_dec _ _ _); [reflexivity|congruence].
      * destruct (list_eq_dec _ _ _) as [E2|_]; [congruence|reflexivity].
    + destruct (list_eq_dec _ _ _) as [E2|_]; [congruence|reflexivity].
Qed.

Section Scan.
Variables (w eofc : N) (pad : nat) (contents : list N).
Hypothesis Hok : mem_ok w eofc pad contents.
Let mem := mem_of eofc pad contents.

Lemma eof_big : 255 <= eofc.
Proof.
  destruct Hok as (Hw & He & _). pose proof (width_pow w Hw). lia.
Qed.

Lemma newline_mem p n : (p <= length contents)%nat ->
  newline_at (skipn p mem) n <-> newline_at (skipn p contents) n.
Proof.
  intros Hp. unfold mem. rewrite (mem_skip eofc pad contents p Hp).
  pose proof eof_big as He. destruct Hok as (_ & _ & Hpad & _).
  split.
  - intros [[-> [l' H]]|[-> [l' H]]].
    + left. split; [reflexivity|]. destruct (skipn p contents) as [|x r].
      * cbn [app] in H. destruct pad; [discriminate|]. injection H as H _. lia.
      * injection H as -> _. eauto.
    + right. split; [reflexivity|]. destruct (skipn p contents) as [|x r].
      * cbn [app] in H. destruct pad; [discriminate|]. injection H as H _. lia.
      * injection H as -> H. destruct r as [|y r].
        -- cbn [app] in H. destruct pad; [discriminate|]. injection H as H _. lia.
        -- injection H as -> _. eauto.
  - intros [[-> [l' H]]|[-> [l' H]]]; rewrite H; [left|right]; split; try reflexivity; eexists; reflexivity.
Qed.

Definition until_q (x : N) : bool := (0xF <=? x) && negb (x =? eofc).
Lemma until_filter_sound l : word_lanes w l ->
  until_swar_filter w eofc (pack w l) = true -> Forall (fun x => until_q x = true) l.
Proof.
  intros Hl H. pose proof Hok as (Hw & He & _). pose proof (width_pow w Hw) as H256.
  unfold until_swar_filter in H. apply negb_true_iff, orb_false_iff in H as [H1 H2].
  rewrite has_char_spec in H1; [|exact Hw|lia|exact Hl].
  rewrite has_less_spec in H2; [|exact Hw|destruct (msb_pow w Hw); lia|exact Hl].
  apply Forall_forall. intros x Hx. unfold until_q.
  assert (Hx1 : (x =? eofc) = false).
  { destruct (x =? eofc) eqn:E; [|reflexivity]. exfalso.
    assert (existsb (fun x => x =? eofc) l = true) by (apply existsb_exists; exists x; auto). congruence. }
  assert (Hx2 : (x <? 0xF) = false).
  { destruct (x <? 0xF) eqn:E; [|reflexivity]. exfalso.
    assert (existsb (fun x => x <? 0xF) l = true) by (apply existsb_exists; exists x; auto). congruence. }
  rewrite Hx1. apply N.ltb_ge in Hx2. apply andb_true_iff. split; [now apply N.leb_le|reflexivity].
Qed.

Lemma until_q_eof : until_q eofc = false.
Proof. unfold until_q. rewrite N.eqb_refl. apply andb_false_r. Qed.

Lemma until_skip fuel pos : (pos <= length contents)%nat -> (length contents - pos < fuel)%nat ->
  exists p, swar_skip fuel w (until_swar_filter w eofc) mem pos = At p /\
    (pos <= p <= length contents)%nat /\
    forall j m, (j < p - pos)%nat -> ~ newline_at (skipn j (skipn pos contents)) m.
Proof.
  intros Hp Hfu.
  destruct (swar_skip_spec w eofc pad contents Hok _ until_q until_q_eof until_filter_sound
              fuel pos Hp Hfu) as (p & E & H1 & H2).
  exists p. split; [exact E|]. pose proof (run_le until_q (skipn pos contents)) as Hr.
  rewrite skipn_length in Hr. split; [lia|].
  intros j m Hj. apply (run_no_newline until_q); [|lia].
  intros x Hx. unfold until_q in Hx. apply andb_true_iff in Hx as [Hx _]. now apply N.leb_le.
Qed.

Lemma head_not_eof p c r : skipn p contents = c :: r -> c <> eofc.
Proof.
  intros E Hc. destruct Hok as (_ & _ & _ & _ & Hn). apply Hn.
  rewrite <- (firstn_skipn p contents), E, Hc. apply in_or_app. right. now left.
Qed.

Lemma until_nl_spec : forall fuel pos,
  (pos <= length contents)%nat -> (length contents - pos < fuel)%nat ->
  (exists k n, first_newline (skipn pos contents) k n /\
     until_nl_swar fuel w eofc mem pos = Fin true (pos + k + n)) \/
  (no_newline (skipn pos contents) /\ until_nl_swar fuel w eofc mem pos = Fin false (length contents)).
Proof.
  induction fuel as [|fuel IH]; intros pos Hp Hfu; [lia|].
  cbn [until_nl_swar].
  destruct (until_skip (S fuel) pos Hp Hfu) as (p & E & Hpp & Hno). rewrite E.
  destruct (match_newline (skipn p mem)) as [n|] eqn:Em.
  - left. apply match_newline_spec in Em. apply newline_mem in Em; [|lia].
    exists (p - pos)%nat, n. split; [|f_equal; lia].
    split; [|exact Hno]. rewrite skipn_skipn. now replace (pos + (p - pos))%nat with p by lia.
  - assert (Hnp : forall m, ~ newline_at (skipn p contents) m).
    { intros m Hm. apply newline_mem in Hm; [|lia]. apply match_newline_spec in Hm. fold mem in Hm. congruence. }
    unfold mem at 1. unfold mem at 2. rewrite (mem_peek w eofc pad contents Hok) by lia. fold mem.
    destruct (skipn p contents) as [|c r] eqn:Er.
    + rewrite N.eqb_refl. right.
      assert (Hl : length (skipn p contents) = 0%nat) by now rewrite Er.
      rewrite skipn_length in Hl. split; [|f_equal; lia].
      apply no_newline_shift with (d := (p - pos)%nat); [exact Hno|].
      rewrite skipn_skipn. replace (pos + (p - pos))%nat with p by lia. rewrite Er.
      intros j m. rewrite skipn_nil. intros H. apply newline_head in H as (? & ? & ? & _). discriminate.
    + destruct (N.eqb_spec c eofc) as [Hc|_]; [exfalso; eapply head_not_eof; eauto|].
      assert (Hl : length (skipn p contents) = S (length r)) by now rewrite Er.
      rewrite skipn_length in Hl.
      assert (Hno2 : forall j m, (j < p + 1 - pos)%nat -> ~ newline_at (skipn j (skipn pos contents)) m).
      { intros j m Hj. destruct (Nat.eq_dec j (p - pos)) as [->|Hne]; [|apply Hno; lia].
        rewrite skipn_skipn. replace (pos + (p - pos))%nat with p by lia. rewrite Er. apply Hnp. }
      destruct (IH (p + 1)%nat ltac:(lia) ltac:(lia)) as [(k & n & Hf & He)|[Hn He]].
      * left. exists (p + 1 - pos + k)%nat, n. rewrite He. split; [|f_equal; lia].
        apply first_newline_shift; [exact Hno2|]. rewrite skipn_skipn.
        now replace (pos + (p + 1 - pos))%nat with (p + 1)%nat by lia.
      * right. rewrite He. split; [|reflexivity].
        apply no_newline_shift with (d := (p + 1 - pos)%nat); [exact Hno2|]. rewrite skipn_skipn.
        now replace (pos + (p + 1 - pos))%nat with (p + 1)%nat by lia.
Qed.

Lemma until_nl_eof_spec : forall fuel pos,
  (pos <= length contents)%nat -> (length contents - pos < fuel)%nat ->
  (exists k n, first_newline (skipn pos contents) k n /\
     until_nl_eof_swar fuel w eofc mem pos = At (pos + k + n)) \/
  (no_newline (skipn pos contents) /\ until_nl_eof_swar fuel w eofc mem pos = At (length contents)).
Proof.
  induction fuel as [|fuel IH]; intros pos Hp Hfu; [lia|].
  cbn [until_nl_eof_swar].
  destruct (until_skip (S fuel) pos Hp Hfu) as (p & E & Hpp & Hno). rewrite E. cbn [scan_bind].
  unfold mem at 1. unfold mem at 3. rewrite (mem_peek w eofc pad contents Hok) by lia. fold mem.
  destruct (skipn p contents) as [|c r] eqn:Er.
  - rewrite N.eqb_refl. right.
    assert (Hl : length (skipn p contents) = 0%nat) by now rewrite Er.
    rewrite skipn_length in Hl. split; [|f_equal; lia].
    apply no_newline_shift with (d := (p - pos)%nat); [exact Hno|].
    rewrite skipn_skipn. replace (pos + (p - pos))%nat with p by lia. rewrite Er.
    intros j m. rewrite skipn_nil. intros H. apply newline_head in H as (? & ? & ? & _). discriminate.
  - destruct (N.eqb_spec c eofc) as [Hc|_]; [exfalso; eapply head_not_eof; eauto|].
    destruct (match_newline (skipn p mem)) as [n|] eqn:Em.
    + left. apply match_newline_spec in Em. apply newline_mem in Em; [|lia].
      exists (p - pos)%nat, n. split; [|f_equal; lia].
      split; [|exact Hno]. rewrite skipn_skipn. now replace (pos + (p - pos))%nat with p by lia.
    + assert (Hnp : forall m, ~ newline_at (skipn p contents) m).
      { intros m Hm. apply newline_mem in Hm; [|lia]. apply match_newline_spec in Hm. fold mem in Hm. congruence. }
      assert (Hl : length (skipn p contents) = S (length r)) by now rewrite Er.
      rewrite skipn_length in Hl.
      assert (Hno2 : forall j m, (j < p + 1 - pos)%nat -> ~ newline_at (skipn j (skipn pos contents)) m).
      { intros j m Hj. destruct (Nat.eq_dec j (p - pos)) as [->|Hne]; [|apply Hno; lia].
        rewrite skipn_skipn. replace (pos + (p - pos))%nat with p by lia. apply Hnp. }
      destruct (IH (p + 1)%nat ltac:(lia) ltac:(lia)) as [(k & n & Hf & He)|[Hn He]].
      * left. exists (p + 1 - pos + k)%nat, n. rewrite He. split; [|f_equal; lia].
        apply first_newline_shift; [exact Hno2|]. rewrite skipn_skipn.
        now replace (pos + (p + 1 - pos))%nat with (p + 1)%nat by lia.
      * right. rewrite He. split; [|reflexivity].
        apply no_newline_shift with (d := (p + 1 - pos)%nat); [exact Hno2|]. rewrite skipn_skipn.
        now replace (pos + (p + 1 - pos))%nat with (p + 1)%nat by lia.
Qed.

(** ** Delimited content *)
Definition delim_q (close1 : N) (escs : list N) (k : ascii_class) (x : N) : bool :=
  class_table k x && negb (x =? close1) && negb (existsb (fun e => x =? e) escs) && negb (x =? eofc).

Lemma delimited_skip_spec close1 escs k fuel pos :
  filter_ok k w -> close1 < 2 ^ w -> Forall (fun e => e < 2 ^ w) escs ->
  (pos <= length contents)%nat -> (length contents - pos < fuel)%nat ->
  exists p, swar_skip fuel w (delimited_swar_filter w eofc close1 escs k) mem pos = At p /\
    (pos <= p)%nat /\ (p <= pos + run (delim_q close1 escs k) (skipn pos contents))%nat.
Proof.
  intros Hf Hc Hes Hp Hfu. pose proof Hok as (Hw & He & _). pose proof (width_pow w Hw) as H256.
  apply (swar_skip_spec w eofc pad contents Hok); [| |exact Hp|exact Hfu].
  - unfold delim_q. rewrite N.eqb_refl. apply andb_false_r.
  - intros l Hl H. unfold delimited_swar_filter in H.
    apply andb_true_iff in H as [H H3]. apply andb_true_iff in H as [H1 H2].
    apply negb_true_iff, orb_false_iff in H1 as [H1 H1'].
    rewrite has_char_spec in H1; [|exact Hw|lia|exact Hl].
    rewrite has_char_spec in H1'; [|exact Hw|lia|exact Hl].
    apply class_sound in H3; [|exact Hw|exact Hf|exact Hl].
    apply negb_true_iff in H2.
    apply Forall_forall. intros x Hx. eapply Forall_forall in H3; [|exact Hx].
    unfold delim_q. cbv beta in H3. rewrite H3. cbn [andb].
    assert (HE : forall c, existsb (fun x => x =? c) l = false -> (x =? c) = false).
    { intros c Hcc. destruct (x =? c) eqn:E; [|reflexivity]. exfalso.
      assert (existsb (fun x => x =? c) l = true) by (apply existsb_exists; exists x; auto). congruence. }
    rewrite (HE _ H1), (HE _ H1'). cbn [negb andb]. rewrite andb_true_r. apply negb_true_iff.
    clear -H2 Hes Hl Hw Hx. revert H2. induction Hes as [|e es He Hes IH]; [reflexivity|].
    cbn [existsb]. intros H. apply orb_false_iff in H as [Ha Hb].
    rewrite has_char_spec in Ha; [|exact Hw|lia|exact Hl].
    rewrite IH by exact Hb. rewrite orb_false_r.
    destruct (x =? e) eqn:E; [|reflexivity]. exfalso.
    assert (existsb (fun x => x =? e) l = true) by (apply existsb_exists; exists x; auto). congruence.
Qed.

(** ** Literals *)
Definition lit_result (cs : list N) (pos : nat) : scan2 :=
  let n := common cs (skipn pos contents) in
  Fin (n =? length cs)%nat (pos + n).

Lemma lit_units_spec : forall cs pos, ~ In eofc cs -> (pos <= length contents)%nat ->
  match_literal_units cs mem pos = lit_result cs pos.
Proof.
  induction cs as [|c cs IH]; intros pos Hn Hp; unfold lit_result; cbn [match_literal_units common length].
  - f_equal; lia.
  - unfold mem at 1. rewrite (mem_peek w eofc pad contents Hok) by lia.
    destruct (skipn pos contents) as [|x r] eqn:Er.
    + destruct (N.eqb_spec eofc c) as [E|_]; [exfalso; apply Hn; now left|]. cbn [Nat.eqb]. f_equal; lia.
    + rewrite (N.eqb_sym x c). destruct (c =? x).
      * assert (Hl : length (skipn pos contents) = S (length r)) by now rewrite Er.
        rewrite skipn_length in Hl. rewrite IH; [|intros H; apply Hn; now right|lia].
        unfold lit_result. rewrite <- (skipn_skipn contents 1 pos), Er. cbn [skipn].
        cbn [Nat.eqb]. f_equal; lia.
      * cbn [Nat.eqb]. f_equal; lia.
Qed.

Lemma lit_swar_spec cs : lanes w cs -> ~ In eofc cs -> forall fuel cur pos,
  (cur <= length cs)%nat -> (length cs - cur < fuel)%nat -> (pos <= length contents)%nat ->
  match_literal_swar fuel w w cs cur mem pos = lit_result (skipn cur cs) pos.
Proof.
  intros Hl Hn. pose proof Hok as (Hw & He & Hpad & _). pose proof (w_ge w Hw) as Hw8.
  assert (HL : (swar_length w >= 1)%nat) by (destruct Hw as [->|[->| ->]]; vm_compute; lia).
  induction fuel as [|fuel IH]; intros cur pos Hc Hfu Hp; [lia|].
  cbn [match_literal_swar]. destruct (Nat.leb_spec (length cs) cur) as [H|H].
  - rewrite skipn_all2 by lia. unfold lit_result. cbn [common length Nat.eqb]. f_equal; lia.
  - rewrite swar_pack_spec by assumption. set (n := Nat.min (swar_length w) (length cs - cur)).
    cbn [pk_mask pk_value pk_count].
    destruct (peek_swar w mem pos) as [v|] eqn:Hpk.
    2:{ exfalso. unfold peek_swar in Hpk.
        destruct (Nat.leb_spec (pos + swar_length w) (length mem)) as [Hle|Hlt]; [discriminate|].
        unfold mem in Hlt. rewrite (mem_length eofc pad contents) in Hlt. lia. }
    destruct (peek_swar_some w mem pos v (mem_lanes w eofc pad contents Hok) Hpk) as (l & Hll & -> & El).
    rewrite mask_ones, land_ones_mod, pack_mod by apply Hll.
    assert (Efl : firstn n l = firstn n (skipn pos mem)).
    { subst l. rewrite firstn_firstn. f_equal. unfold n. lia. }
    rewrite Efl. clear El Efl.
    assert (Hlm : lanes w (firstn n (skipn pos mem))).
    { apply lanes_firstn, lanes_skipn, (mem_lanes w eofc pad contents Hok). }
    assert (Hlc : lanes w (firstn n (skipn cur cs))) by now apply lanes_firstn, lanes_skipn.
    assert (Hlenm : (n <= length (skipn pos mem))%nat).
    { rewrite skipn_length. unfold mem. rewrite (mem_length eofc pad contents). unfold n. lia. }
    assert (Hlen : length (firstn n (skipn pos mem)) = length (firstn n (skipn cur cs))).
    { rewrite !firstn_length_le; [reflexivity| |exact Hlenm]. rewrite skipn_length. unfold n. lia. }
    assert (Hcm : common (skipn cur cs) (skipn pos mem) = common (skipn cur cs) (skipn pos contents)).
    { unfold mem. rewrite (mem_skip eofc pad contents pos Hp). apply common_pad.
      intros Hin. apply Hn. rewrite <- (firstn_skipn cur cs). apply in_or_app. now right. }
    pose proof (common_split n (skipn cur cs) (skipn pos mem)) as Hsp.
    specialize (Hsp ltac:(rewrite skipn_length; unfold n; lia) Hlenm). rewrite Hcm in Hsp.
    destruct (N.eqb_spec (pack w (firstn n (skipn pos mem))) (pack w (firstn n (skipn cur cs)))) as [E|E].
    + apply pack_inj in E; [|exact Hlm|exact Hlc|exact Hlen].
      destruct (list_eq_dec _ _ _) as [_|E2]; [|congruence].
      pose proof (common_le_r (skipn cur cs) (skipn pos contents)) as Hcr. rewrite skipn_length in Hcr.
      rewrite IH; [|unfold n; lia|unfold n; lia|lia].
      unfold lit_result. rewrite Hsp. rewrite !skipn_skipn in *.
      rewrite !skipn_length.
      assert (Hcm2 : common (skipn (cur + n) cs) (skipn (pos + n) mem) = common (skipn (cur + n) cs) (skipn (pos + n) contents)).
      { unfold mem. rewrite (mem_skip eofc pad contents (pos + n)) by lia. apply common_pad.
        intros Hin. apply Hn. rewrite <- (firstn_skipn (cur + n) cs). apply in_or_app. now right. }
      rewrite Hcm2. f_equal; [|lia].
      destruct (Nat.eqb_spec (common (skipn (cur + n) cs) (skipn (pos + n) contents)) (length cs - (cur + n)));
        destruct (Nat.eqb_spec (n + common (skipn (cur + n) cs) (skipn (pos + n) contents)) (length cs - cur)); lia.
    + destruct (list_eq_dec _ _ _) as [E2|E2]; [congruence|].
      unfold lit_result. rewrite Hsp.
      unfold swar_find_difference. destruct (N.eqb_spec (pack w (firstn n (skipn pos mem))) (pack w (firstn n (skipn cur cs)))) as [|_]; [congruence|].
      rewrite pack_lxor by assumption. rewrite find_diff_lanes; [|lia|assumption|assumption|assumption|assumption].
      f_equal. symmetry. apply Nat.eqb_neq. intros Heq.
      rewrite <- Hsp in Heq.
      (* full match would make the chunks equal *)
      assert (Hdiff : forall a b, length a = length b -> a <> b -> (first_diff a b < length b)%nat).
      { clear. induction a as [|x a IH]; intros [|y b] Hab Hne; cbn [length first_diff] in *; try lia; try congruence.
        destruct (N.eqb_spec x y) as [->|]; [|lia].
        assert (first_diff a b < length b)%nat by (apply IH; [lia|congruence]). lia. }
      pose proof (Hdiff _ _ Hlen E2) as Hd. rewrite firstn_length in Hd. rewrite <- Hsp in Hd. lia.
Qed.

Lemma literal_spec cs pos : lanes w cs -> ~ In eofc cs -> (pos <= length contents)%nat ->
  match_literal w w cs mem pos = lit_result cs pos.
Proof.
  intros Hl Hn Hp. unfold match_literal. destruct (_ && _)%bool.
  - rewrite lit_swar_spec by (assumption || lia). reflexivity.
  - now apply lit_units_spec.
Qed.
End Scan.

(** ** Assembly of the property statements *)
From Verif Require Import BufferModel BufferReads.

Lemma swar_equals_units : forall w contents pos fuel,
  width_ok w -> Forall (fun x => x < 2 ^ w) contents -> ~ In (2 ^ w - 1) contents ->
  (pos <= length contents)%nat -> (length contents - pos < fuel)%nat ->
  let mem := buffer_mem (2 ^ w - 1) contents in
  let rest := skipn pos contents in
  any_swar fuel w (2 ^ w - 1) mem pos = At (length contents) /\
  (forall k, filter_ok k w ->
     digits_swar fuel w k mem pos = At (pos + run (class_table k) rest) /\
     identifier_trailing_swar fuel w k mem pos = At (pos + run (class_table k) rest)) /\
  (forall k, class_table k 0x20 = true ->
     whitespace_swar fuel w k mem pos = At (pos + run (class_table k) rest)) /\
  ((exists k n, first_newline rest k n /\
      until_nl_swar fuel w (2 ^ w - 1) mem pos = Fin true (pos + k + n) /\
      until_nl_eof_swar fuel w (2 ^ w - 1) mem pos = At (pos + k + n)) \/
   (no_newline rest /\
      until_nl_swar fuel w (2 ^ w - 1) mem pos = Fin false (length contents) /\
      until_nl_eof_swar fuel w (2 ^ w - 1) mem pos = At (length contents))) /\
  (forall cs, Forall (fun x => x < 2 ^ w) cs -> ~ In (2 ^ w - 1) cs ->
     match_literal w w cs mem pos
     = Fin (common cs rest =? length cs)%nat (pos + common cs rest)) /\
  (forall close1 escs k, filter_ok k w -> close1 < 2 ^ w -> Forall (fun e => e < 2 ^ w) escs ->
     exists p, swar_skip fuel w (delimited_swar_filter w (2 ^ w - 1) close1 escs k) mem pos = At p /\
       (pos <= p)%nat /\
       (p <= pos + run (fun x => (class_table k x && negb (x =? close1)
                                  && negb (existsb (fun e => x =? e) escs)
                                  && negb (x =? 2 ^ w - 1))%N) rest)%nat) /\
  (forall k sep, filter_ok k w -> sep_ok (2 ^ w - 1) k sep ->
     exists ok m, digits_sep_swar fuel w k sep mem pos = Fin ok (pos + m) /\
       (pos + m <= length contents)%nat /\
       (digits_sep_units (S (length contents)) k sep rest = Some (ok, m) \/
        ok = true /\ stopped_early w contents k sep (pos + m))).
Proof.
  intros w contents pos fuel Hw Hl Hn Hp Hfu mem rest.
  pose proof (buffer_mem_ok w contents Hw Hl Hn) as Hok.
  unfold mem, buffer_mem. fold (mem_of (2 ^ w - 1) (alloc_size true (length contents) - length contents) contents).
  repeat match goal with |- _ /\ _ => split end.
  - now apply any_spec.
  - intros k Hk. split; [now apply digits_spec|now apply identifier_spec].
  - intros k Hk. now apply whitespace_spec.
  - destruct (until_nl_spec w _ _ _ Hok fuel pos Hp Hfu) as [(k & n & F & E)|[F E]];
      destruct (until_nl_eof_spec w _ _ _ Hok fuel pos Hp Hfu) as [(k' & n' & F' & E')|[F' E']].
    + left. exists k, n. split; [exact F|]. split; [exact E|]. rewrite E'. f_equal.
      destruct F as [F1 F2], F' as [F1' F2'].
      assert (k' = k).
      { destruct (Nat.lt_trichotomy k k') as [H|[H|H]]; [|auto|]; exfalso; [eapply F2'|eapply F2]; eauto. }
      subst k'. apply match_newline_spec in F1. apply match_newline_spec in F1'. rewrite F1 in F1'.
      injection F1' as ->. reflexivity.
    + exfalso. destruct F as [F1 _]. eapply F'. exact F1.
    + exfalso. destruct F' as [F1 _]. eapply F. exact F1.
    + right. auto.
  - intros cs Hcs Hin. now apply literal_spec.
  - intros close1 escs k Hk Hc He. now apply delimited_skip_spec.
  - intros k sep Hk Hs. now apply digits_sep_spec.
Qed.

Lemma existsb_In l c : existsb (fun x => x =? c) l = true <-> In c l.
Proof.
  rewrite existsb_exists. split.
  - intros (x & H & E). apply N.eqb_eq in E. now subst.
  - intros H. exists c. split; [exact H|apply N.eqb_refl].
Qed.

Lemma first_diff_at a : forall b, length a = length b -> a <> b ->
  firstn (first_diff a b) a = firstn (first_diff a b) b /\
  exists x y, nth_error a (first_diff a b) = Some x /\ nth_error b (first_diff a b) = Some y /\ x <> y.
Proof.
  induction a as [|x a IH]; intros [|y b] Hl Hne; try discriminate; [congruence|].
  cbn [first_diff]. destruct (N.eqb_spec x y) as [->|Hxy].
  - destruct (IH b) as [E1 E2]; [cbn in Hl; lia|congruence|]. cbn [firstn nth_error]. split; [congruence|exact E2].
  - cbn. split; [reflexivity|]. exists x, y. auto.
Qed.

Lemma word_predicates_exact : forall w a b c n,
  width_ok w -> word_lanes w a -> word_lanes w b -> c < 2 ^ w -> n <= 2 ^ (w - 1) ->
  (swar_has_zero w (pack w a) = true <-> In 0 a) /\
  (swar_has_char w c (pack w a) = true <-> In c a) /\
  (swar_has_char_less w n (pack w a) = true <-> exists x, In x a /\ x < n) /\
  swar_fill w c = pack w (repeat c (swar_length w)) /\
  (a <> b -> let k := swar_find_difference w (pack w a) (pack w b) in
     firstn k a = firstn k b /\ (exists x y, nth_error a k = Some x /\ nth_error b k = Some y /\ x <> y)) /\
  swar_find_difference w (pack w a) (pack w a) = swar_length w /\
  (forall cs skip, Forall (fun x => x < 2 ^ w) cs -> (skip < length cs)%nat ->
     let k := Nat.min (swar_length w) (length cs - skip) in
     pk_count (swar_pack w skip cs) = k /\
     pk_value (swar_pack w skip cs) = pack w (firstn k (skipn skip cs)) /\
     N.land (pack w a) (pk_mask (swar_pack w skip cs)) = pack w (firstn k a)).
Proof.
  intros w a b c n Hw Ha Hb Hc Hn. repeat match goal with |- _ /\ _ => split end.
  - rewrite has_zero_spec by assumption. apply existsb_In.
  - rewrite has_char_spec by assumption. apply existsb_In.
  - rewrite has_less_spec by assumption. rewrite existsb_exists.
    split; intros (x & H & E); exists x; split; auto; lia.
  - now apply fill_pack.
  - intros Hne k. unfold k. rewrite find_difference_spec by assumption.
    apply first_diff_at; [|exact Hne]. destruct Ha as [_ ->], Hb as [_ ->]. reflexivity.
  - unfold swar_find_difference. now rewrite N.eqb_refl.
  - intros cs skip Hcs Hs k. rewrite swar_pack_spec by assumption. cbn [pk_count pk_value pk_mask].
    split; [reflexivity|]. split; [reflexivity|].
    rewrite mask_ones, land_ones_mod. apply pack_mod. apply Ha.
Qed.

Lemma every_lanes w : forall n v, v < 2 ^ (w * N.of_nat n) ->
  exists l, lanes w l /\ length l = n /\ v = pack w l.
Proof.
  induction n as [|n IH]; intros v Hv.
  - exists []. replace (w * N.of_nat 0) with 0 in Hv by lia. change (2 ^ 0) with 1 in Hv.
    split; [constructor|]. split; [reflexivity|]. cbn. lia.
  - rewrite pow_mul_succ in Hv. pose proof (pow_pos w) as Hp.
    destruct (IH (v / 2 ^ w)) as (l & Hl & Hn & E).
    + apply N.div_lt_upper_bound; lia.
    + exists (v mod 2 ^ w :: l). split; [constructor; [apply N.mod_lt; lia|exact Hl]|].
      split; [cbn; lia|]. cbn [pack]. rewrite <- E. pose proof (N.div_mod v (2 ^ w) ltac:(lia)). lia.
Qed.

Lemma every_word : forall w v, width_ok w -> v < 2 ^ 64 -> exists l, word_lanes w l /\ v = pack w l.
Proof.
  intros w v Hw Hv. destruct (every_lanes w (swar_length w) v) as (l & Hl & Hn & E).
  - now rewrite width_len.
  - exists l. repeat split; auto.
Qed.

Lemma graph_print_refuted :
  (exists l, word_lanes 32 l /\ class_swar Cgraph 32 (pack 32 l) = true /\
             class_swar Cprint 32 (pack 32 l) = true /\
             exists x, In x l /\ class_table Cgraph x = false /\ class_table Cprint x = false) /\
  (exists l, word_lanes 16 l /\ class_swar Cgraph 16 (pack 16 l) = true /\
             class_swar Cprint 16 (pack 16 l) = true /\
             exists x, In x l /\ class_table Cgraph x = false /\ class_table Cprint x = false).
Proof.
  split.
  - exists [0x61; 0xFFFFFFFF]. split; [split; [repeat constructor|reflexivity]|].
    split; [vm_compute; reflexivity|]. split; [vm_compute; reflexivity|].
    exists 0xFFFFFFFF. split; [right; now left|]. split; vm_compute; reflexivity.
  - exists [0x61; 0x62; 0x63; 0xFFFF]. split; [split; [repeat constructor|reflexivity]|].
    split; [vm_compute; reflexivity|]. split; [vm_compute; reflexivity|].
    exists 0xFFFF. split; [do 3 right; now left|]. split; vm_compute; reflexivity.
Qed.

Lemma underscore_sep_ok :
  sep_ok 0xFF Cdecimal (fun l => match l with 0x5F :: _ => Some 1%nat | _ => None end).
Proof.
  split; [|split].
  - intros [|x rest] n Hn; [|reflexivity]. destruct n; [lia|]. reflexivity.
  - intros [|x rest] n H; [discriminate|].
    destruct (N.eq_dec x 0x5F) as [->|Hx]; [injection H as <-; cbn; lia|].
    exfalso. revert H. destruct x as [|p]; [discriminate|].
    repeat (destruct p as [p|p|]; try discriminate). congruence.
  - intros c rest Hc. assert (Hr : 0x30 <= c <= 0x39) by (unfold class_table, in_range in Hc; lia).
    destruct c as [|p]; [reflexivity|].
    repeat (destruct p as [p|p|]; try reflexivity). lia.
Qed.
