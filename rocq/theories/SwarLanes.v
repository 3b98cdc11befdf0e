(** Lane decomposition of 64-bit words: every SWAR operation acts on the list of
    lanes, with carries and borrows made explicit.  Supporting lemmas. *)
From Verif Require Import Prelude SwarModel.
Open Scope N_scope.

Definition width_ok (w : N) : Prop := w = 8 \/ w = 16 \/ w = 32.
Definition lanes (w : N) (l : list N) : Prop := Forall (fun x => x < 2 ^ w) l.
Definition word_lanes (w : N) (l : list N) : Prop := lanes w l /\ length l = swar_length w.

Lemma pow_pos k : 0 < 2 ^ k.
Proof. apply N.neq_0_lt_0, N.pow_nonzero. discriminate. Qed.

Lemma width_pow w : width_ok w -> 256 <= 2 ^ w.
Proof.
  intros H. change 256 with (2 ^ 8). apply N.pow_le_mono_r; [lia|].
  destruct H as [->|[->| ->]]; lia.
Qed.

(** A word made from a low lane and the rest. *)
Lemma testbit_cons w a A i :
  a < 2 ^ w -> N.testbit (a + 2 ^ w * A) i = if i <? w then N.testbit a i else N.testbit A (i - w).
Proof.
  intros Ha.
  assert (Hm : (a + 2 ^ w * A) mod 2 ^ w = a).
  { pose proof (pow_pos w). rewrite N.mul_comm, N.mod_add by lia. apply N.mod_small, Ha. }
  assert (Hd : (a + 2 ^ w * A) / 2 ^ w = A).
  { pose proof (pow_pos w). rewrite N.mul_comm, N.div_add by lia.
    rewrite N.div_small by exact Ha. lia. }
  destruct (N.ltb_spec i w) as [Hi|Hi].
  - rewrite <- Hm at 2. rewrite N.mod_pow2_bits_low by exact Hi. reflexivity.
  - rewrite <- Hd at 2. rewrite N.div_pow2_bits. f_equal. lia.
Qed.

Lemma lt_pow2_testbit a w i : a < 2 ^ w -> w <= i -> N.testbit a i = false.
Proof.
  intros Ha Hi. rewrite <- (N.mod_small a (2 ^ w)) by exact Ha.
  apply N.mod_pow2_bits_high, Hi.
Qed.

Lemma bits_lt a w : (forall i, w <= i -> N.testbit a i = false) -> a < 2 ^ w.
Proof.
  intros H. assert (E : a = a mod 2 ^ w).
  { apply N.bits_inj. intros i. destruct (N.lt_ge_cases i w) as [Hi|Hi].
    - now rewrite N.mod_pow2_bits_low.
    - rewrite N.mod_pow2_bits_high by exact Hi. now apply H. }
  rewrite E. apply N.mod_upper_bound. pose proof (pow_pos w); lia.
Qed.

Lemma land_lt a b w : a < 2 ^ w -> N.land a b < 2 ^ w.
Proof.
  intros Ha. apply bits_lt. intros i Hi. rewrite N.land_spec.
  rewrite (lt_pow2_testbit a w i) by assumption. reflexivity.
Qed.
Lemma lxor_lt a b w : a < 2 ^ w -> b < 2 ^ w -> N.lxor a b < 2 ^ w.
Proof.
  intros Ha Hb. apply bits_lt. intros i Hi. rewrite N.lxor_spec.
  rewrite (lt_pow2_testbit a w i), (lt_pow2_testbit b w i) by assumption. reflexivity.
Qed.
Lemma ldiff_lt a b w : a < 2 ^ w -> N.ldiff a b < 2 ^ w.
Proof.
  intros Ha. apply bits_lt. intros i Hi. rewrite N.ldiff_spec.
  rewrite (lt_pow2_testbit a w i) by assumption. reflexivity.
Qed.

Lemma land_cons w a A b B :
  a < 2 ^ w -> b < 2 ^ w ->
  N.land (a + 2 ^ w * A) (b + 2 ^ w * B) = N.land a b + 2 ^ w * N.land A B.
Proof.
  intros Ha Hb. apply N.bits_inj. intros i.
  rewrite N.land_spec, !testbit_cons by (assumption || now apply land_lt).
  rewrite !N.land_spec. now destruct (i <? w).
Qed.
Lemma lxor_cons w a A b B :
  a < 2 ^ w -> b < 2 ^ w ->
  N.lxor (a + 2 ^ w * A) (b + 2 ^ w * B) = N.lxor a b + 2 ^ w * N.lxor A B.
Proof.
  intros Ha Hb. apply N.bits_inj. intros i.
  rewrite N.lxor_spec, !testbit_cons by (assumption || now apply lxor_lt).
  rewrite !N.lxor_spec. now destruct (i <? w).
Qed.
Lemma ldiff_cons w a A b B :
  a < 2 ^ w -> b < 2 ^ w ->
  N.ldiff (a + 2 ^ w * A) (b + 2 ^ w * B) = N.ldiff a b + 2 ^ w * N.ldiff A B.
Proof.
  intros Ha Hb. apply N.bits_inj. intros i.
  rewrite N.ldiff_spec, !testbit_cons by (assumption || now apply ldiff_lt).
  rewrite !N.ldiff_spec. now destruct (i <? w).
Qed.

(** Lane-wise binary operation. *)
Fixpoint map2 (f : N -> N -> N) (a b : list N) : list N :=
  match a, b with
  | x :: a', y :: b' => f x y :: map2 f a' b'
  | _, _ => []
  end.

Lemma map2_length f a b : length a = length b -> length (map2 f a b) = length a.
Proof.
  revert b; induction a as [|x a IH]; intros [|y b] H; simpl in *; try lia.
  f_equal. apply IH. lia.
Qed.

Lemma map2_repeat f a c : map2 f a (repeat c (length a)) = map (fun x => f x c) a.
Proof. induction a as [|x a IH]; simpl; [reflexivity|]. now rewrite IH. Qed.

Lemma pack_land w a b :
  lanes w a -> lanes w b -> length a = length b ->
  N.land (pack w a) (pack w b) = pack w (map2 N.land a b).
Proof.
  revert b; induction a as [|x a IH]; intros [|y b] Ha Hb Hl; simpl in *; try lia; [reflexivity|].
  inversion Ha; inversion Hb; subst. rewrite land_cons by assumption.
  rewrite IH by (assumption || lia). reflexivity.
Qed.
Lemma pack_lxor w a b :
  lanes w a -> lanes w b -> length a = length b ->
  N.lxor (pack w a) (pack w b) = pack w (map2 N.lxor a b).
Proof.
  revert b; induction a as [|x a IH]; intros [|y b] Ha Hb Hl; simpl in *; try lia; [reflexivity|].
  inversion Ha; inversion Hb; subst. rewrite lxor_cons by assumption.
  rewrite IH by (assumption || lia). reflexivity.
Qed.
Lemma pack_ldiff w a b :
  lanes w a -> lanes w b -> length a = length b ->
  N.ldiff (pack w a) (pack w b) = pack w (map2 N.ldiff a b).
Proof.
  revert b; induction a as [|x a IH]; intros [|y b] Ha Hb Hl; simpl in *; try lia; [reflexivity|].
  inversion Ha; inversion Hb; subst. rewrite ldiff_cons by assumption.
  rewrite IH by (assumption || lia). reflexivity.
Qed.

Lemma pow_mul_succ w n : 2 ^ (w * N.of_nat (S n)) = 2 ^ w * 2 ^ (w * N.of_nat n).
Proof. rewrite <- N.pow_add_r. f_equal. lia. Qed.

Lemma pack_bound w l : lanes w l -> pack w l < 2 ^ (w * N.of_nat (length l)).
Proof.
  induction 1 as [|x l Hx Hl IH]; cbn [pack length].
  - rewrite N.mul_0_r. reflexivity.
  - rewrite pow_mul_succ. remember (2 ^ (w * N.of_nat (length l))) as P.
    remember (2 ^ w) as M. assert (M * (pack w l + 1) <= M * P) by (apply N.mul_le_mono_l; lia).
    rewrite N.mul_add_distr_l in *. lia.
Qed.

Lemma word_pow w : width_ok w -> 2 ^ (w * N.of_nat (swar_length w)) = wmod.
Proof. intros [->|[->| ->]]; vm_compute; reflexivity. Qed.

Lemma word_bound w l : width_ok w -> word_lanes w l -> pack w l < wmod.
Proof.
  intros Hw [Hl Hn]. rewrite <- (word_pow w Hw), <- Hn. now apply pack_bound.
Qed.

Lemma pack_inj w a b :
  lanes w a -> lanes w b -> length a = length b -> pack w a = pack w b -> a = b.
Proof.
  revert b; induction a as [|x a IH]; intros [|y b] Ha Hb Hl He; simpl in *; try lia; [reflexivity|].
  inversion Ha; inversion Hb; subst.
  assert (Hxy : x = y).
  { pose proof (pow_pos w).
    rewrite <- (N.mod_small x (2 ^ w)), <- (N.mod_small y (2 ^ w)) by assumption.
    rewrite <- (N.mod_add x (pack w a) (2 ^ w)), <- (N.mod_add y (pack w b) (2 ^ w)) by lia.
    rewrite !(N.mul_comm (pack w _) (2 ^ w)). now rewrite He. }
  subst y. f_equal. apply IH; try assumption; [lia|].
  assert (2 ^ w * pack w a = 2 ^ w * pack w b) by lia.
  apply N.mul_cancel_l in H; [exact H|]. pose proof (pow_pos w); lia.
Qed.

Lemma lanes_repeat w c n : c < 2 ^ w -> lanes w (repeat c n).
Proof. intros H. apply Forall_forall. intros x Hx. apply repeat_spec in Hx. now subst. Qed.

(** [swar_fill] is the word with the same lane everywhere. *)
Lemma fill_loop n w c m :
  c < 2 ^ w -> w * N.of_nat (m + n) <= 64 ->
  swar_fill_loop n w c (pack w (repeat c m)) = pack w (repeat c (m + n)).
Proof.
  intros Hc. revert m; induction n as [|n IH]; intros m Hb; cbn [swar_fill_loop].
  - now rewrite Nat.add_0_r.
  - assert (E : N.lor (wshl (pack w (repeat c m)) w) c = pack w (repeat c (S m))).
    { unfold wshl. rewrite N.shiftl_mul_pow2. rewrite N.mod_small.
      - rewrite lor_high_low by exact Hc. cbn [repeat pack]. lia.
      - pose proof (pack_bound w (repeat c m) (lanes_repeat w c m Hc)) as Hp.
        rewrite repeat_length in Hp.
        apply N.lt_le_trans with (2 ^ (w * N.of_nat m) * 2 ^ w).
        + apply N.mul_lt_mono_pos_r; [apply pow_pos|exact Hp].
        + rewrite <- N.pow_add_r. apply N.pow_le_mono_r; [lia|].
          assert (w * N.of_nat (S m) <= w * N.of_nat (m + S n)) by (apply N.mul_le_mono_l; lia).
          lia. }
    rewrite E, IH.
    + f_equal. f_equal. lia.
    + replace (S m + n)%nat with (m + S n)%nat by lia. exact Hb.
Qed.

Lemma width_len w : width_ok w -> w * N.of_nat (swar_length w) = 64.
Proof. intros [->|[->| ->]]; vm_compute; reflexivity. Qed.

Lemma fill_pack w c : width_ok w -> c < 2 ^ w -> swar_fill w c = pack w (repeat c (swar_length w)).
Proof.
  intros Hw Hc. unfold swar_fill. apply (fill_loop (swar_length w) w c 0 Hc).
  pose proof (width_len w Hw). cbn [Nat.add]. lia.
Qed.

Lemma ldiff_ones_low w c : c < 2 ^ w -> N.ldiff (N.ones w) c = 2 ^ w - 1 - c.
Proof.
  intros Hc.
  assert (E : N.ldiff (N.ones w) c + c = N.ones w).
  { rewrite N.add_nocarry_lxor.
    - apply N.bits_inj. intros i. rewrite N.lxor_spec, N.ldiff_spec.
      destruct (N.lt_ge_cases i w) as [Hi|Hi].
      + rewrite N.ones_spec_low by exact Hi. now destruct (N.testbit c i).
      + rewrite N.ones_spec_high by exact Hi. now rewrite (lt_pow2_testbit c w i).
    - apply N.bits_inj. intros i. rewrite N.land_spec, N.ldiff_spec, N.bits_0.
      destruct (N.testbit c i); now rewrite ?andb_false_r. }
  rewrite N.ones_equiv in E |- *. pose proof (pow_pos w). lia.
Qed.

Lemma fill_compl_pack w c :
  width_ok w -> c < 2 ^ w ->
  swar_fill_compl w c = pack w (repeat (2 ^ w - 1 - c) (swar_length w)).
Proof.
  intros Hw Hc. unfold swar_fill_compl. rewrite ldiff_ones_low by exact Hc.
  apply (fill_pack w); [exact Hw|]. pose proof (pow_pos w); lia.
Qed.

(** The complement of a word. *)
Lemma wnot_pack w l :
  width_ok w -> word_lanes w l -> wnot (pack w l) = pack w (map (fun x => 2 ^ w - 1 - x) l).
Proof.
  intros Hw [Hl Hn]. unfold wnot.
  assert (E : N.ones 64 = pack w (repeat (2 ^ w - 1) (length l))).
  { rewrite Hn. destruct Hw as [->|[->| ->]]; vm_compute; reflexivity. }
  rewrite E, pack_ldiff.
  - f_equal. clear E Hn. induction Hl as [|x l Hx Hl IH]; cbn [length repeat map2 map]; [reflexivity|].
    rewrite IH. f_equal. rewrite N.sub_1_r, <- N.ones_equiv, N.ones_equiv, <- N.sub_1_r.
    rewrite <- (ldiff_ones_low w x Hx), N.ones_equiv. f_equal. lia.
  - apply lanes_repeat. pose proof (pow_pos w); lia.
  - exact Hl.
  - apply repeat_length.
Qed.

(** Subtraction and addition with explicit borrow and carry. *)
Fixpoint sub_lanes (w bor : N) (a b : list N) : list N :=
  match a, b with
  | x :: a', y :: b' =>
    (x + 2 ^ w - y - bor) mod 2 ^ w :: sub_lanes w (if x <? y + bor then 1 else 0) a' b'
  | _, _ => []
  end.
Fixpoint add_lanes (w car : N) (a b : list N) : list N :=
  match a, b with
  | x :: a', y :: b' =>
    (x + y + car) mod 2 ^ w :: add_lanes w (if 2 ^ w <=? x + y + car then 1 else 0) a' b'
  | _, _ => []
  end.

Lemma sub_lanes_eq w a : forall b bor,
  lanes w a -> lanes w b -> length a = length b -> bor <= 1 ->
  exists bout, bout <= 1 /\
    pack w a + bout * 2 ^ (w * N.of_nat (length a)) = pack w b + bor + pack w (sub_lanes w bor a b).
Proof.
  induction a as [|x a IH]; intros [|y b] bor Ha Hb Hl Hbor; cbn [length pack sub_lanes] in *; try lia.
  - exists bor. rewrite N.mul_0_r. change (2 ^ 0) with 1. lia.
  - inversion Ha as [|? ? Hx Ha']; inversion Hb as [|? ? Hy Hb']; subst.
    assert (Hb1 : (if x <? y + bor then 1 else 0) <= 1) by (destruct (x <? y + bor); lia).
    destruct (IH b (if x <? y + bor then 1 else 0) Ha' Hb' ltac:(lia) Hb1) as (bout & Hbo & E).
    exists bout. split; [exact Hbo|]. rewrite pow_mul_succ.
    remember (2 ^ (w * N.of_nat (length a))) as P. pose proof (pow_pos w) as HM.
    remember (2 ^ w) as M. remember (sub_lanes w (if x <? y + bor then 1 else 0) a b) as R.
    assert (E1 : x + (if x <? y + bor then 1 else 0) * M = y + bor + (x + M - y - bor) mod M).
    { destruct (N.ltb_spec x (y + bor)).
      - rewrite N.mod_small by lia. lia.
      - replace (x + M - y - bor) with (x - y - bor + 1 * M) by lia.
        rewrite N.mod_add by lia. rewrite N.mod_small by lia. lia. }
    remember (if x <? y + bor then 1 else 0) as b1.
    assert (E2 : M * (pack w a + bout * P) = M * (pack w b + b1 + pack w R)) by (f_equal; exact E).
    rewrite !N.mul_add_distr_l in E2.
    replace (bout * (M * P)) with (M * (bout * P)) by lia. lia.
Qed.

Lemma add_lanes_eq w a : forall b car,
  lanes w a -> lanes w b -> length a = length b -> car <= 1 ->
  exists cout, cout <= 1 /\
    pack w a + pack w b + car = pack w (add_lanes w car a b) + cout * 2 ^ (w * N.of_nat (length a)).
Proof.
  induction a as [|x a IH]; intros [|y b] car Ha Hb Hl Hcar; cbn [length pack add_lanes] in *; try lia.
  - exists car. rewrite N.mul_0_r. change (2 ^ 0) with 1. lia.
  - inversion Ha as [|? ? Hx Ha']; inversion Hb as [|? ? Hy Hb']; subst.
    assert (Hb1 : (if 2 ^ w <=? x + y + car then 1 else 0) <= 1)
      by (destruct (2 ^ w <=? x + y + car); lia).
    destruct (IH b (if 2 ^ w <=? x + y + car then 1 else 0) Ha' Hb' ltac:(lia) Hb1)
      as (cout & Hco & E).
    exists cout. split; [exact Hco|]. rewrite pow_mul_succ.
    remember (2 ^ (w * N.of_nat (length a))) as P. pose proof (pow_pos w) as HM.
    remember (2 ^ w) as M.
    remember (add_lanes w (if M <=? x + y + car then 1 else 0) a b) as R.
    assert (E1 : x + y + car = (x + y + car) mod M + (if M <=? x + y + car then 1 else 0) * M).
    { destruct (N.leb_spec M (x + y + car)).
      - replace (x + y + car) with (x + y + car - M + 1 * M) at 2 by lia.
        rewrite N.mod_add by lia. rewrite N.mod_small by lia. lia.
      - rewrite N.mod_small by lia. lia. }
    remember (if M <=? x + y + car then 1 else 0) as b1.
    assert (E2 : M * (pack w a + pack w b + b1) = M * (pack w R + cout * P)) by (f_equal; exact E).
    rewrite !N.mul_add_distr_l in E2.
    replace (cout * (M * P)) with (M * (cout * P)) by lia. lia.
Qed.

Lemma sub_lanes_lanes w a : forall b bor, lanes w (sub_lanes w bor a b).
Proof.
  induction a as [|x a IH]; intros [|y b] bor; cbn [sub_lanes]; constructor.
  - apply N.mod_upper_bound. pose proof (pow_pos w); lia.
  - apply IH.
Qed.
Lemma add_lanes_lanes w a : forall b bor, lanes w (add_lanes w bor a b).
Proof.
  induction a as [|x a IH]; intros [|y b] bor; cbn [add_lanes]; constructor.
  - apply N.mod_upper_bound. pose proof (pow_pos w); lia.
  - apply IH.
Qed.
Lemma sub_lanes_length w a : forall b bor, length a = length b -> length (sub_lanes w bor a b) = length a.
Proof.
  induction a as [|x a IH]; intros [|y b] bor H; cbn [sub_lanes length] in *; try lia.
  f_equal. apply IH. lia.
Qed.
Lemma add_lanes_length w a : forall b bor, length a = length b -> length (add_lanes w bor a b) = length a.
Proof.
  induction a as [|x a IH]; intros [|y b] bor H; cbn [add_lanes length] in *; try lia.
  f_equal. apply IH. lia.
Qed.

Lemma wsub_pack w a b :
  width_ok w -> word_lanes w a -> word_lanes w b ->
  wsub (pack w a) (pack w b) = pack w (sub_lanes w 0 a b).
Proof.
  intros Hw Ha Hb. pose proof (word_bound w a Hw Ha) as Ba. pose proof (word_bound w b Hw Hb) as Bb.
  destruct Ha as [Ha Na]; destruct Hb as [Hb Nb].
  destruct (sub_lanes_eq w a b 0 Ha Hb ltac:(congruence) ltac:(lia)) as (bout & Hbo & E).
  rewrite Na, (word_pow w Hw) in E.
  assert (Br : pack w (sub_lanes w 0 a b) < wmod).
  { rewrite <- (word_pow w Hw), <- Na, <- (sub_lanes_length w a b 0) by congruence.
    apply pack_bound, sub_lanes_lanes. }
  unfold wsub. symmetry.
  assert (C : bout = 0 \/ bout = 1) by lia. destruct C as [-> | ->].
  - replace (pack w a + wmod - pack w b) with (pack w (sub_lanes w 0 a b) + 1 * wmod) by lia.
    rewrite N.mod_add by (unfold wmod; lia). symmetry. now apply N.mod_small.
  - replace (pack w a + wmod - pack w b) with (pack w (sub_lanes w 0 a b)) by lia.
    symmetry. now apply N.mod_small.
Qed.

Lemma wadd_pack w a b :
  width_ok w -> word_lanes w a -> word_lanes w b ->
  wadd (pack w a) (pack w b) = pack w (add_lanes w 0 a b).
Proof.
  intros Hw Ha Hb.
  destruct Ha as [Ha Na]; destruct Hb as [Hb Nb].
  destruct (add_lanes_eq w a b 0 Ha Hb ltac:(congruence) ltac:(lia)) as (cout & Hco & E).
  rewrite Na, (word_pow w Hw) in E.
  assert (Br : pack w (add_lanes w 0 a b) < wmod).
  { rewrite <- (word_pow w Hw), <- Na, <- (add_lanes_length w a b 0) by congruence.
    apply pack_bound, add_lanes_lanes. }
  unfold wadd. rewrite N.add_0_r in E. rewrite E, N.mod_add by (unfold wmod; lia).
  now apply N.mod_small.
Qed.

(** Masking with the complement of [2^j - 1] rounds down to a multiple of [2^j]. *)
Lemma land_compl w j x :
  j <= w -> x < 2 ^ w -> N.land x (2 ^ w - 1 - (2 ^ j - 1)) = x / 2 ^ j * 2 ^ j.
Proof.
  intros Hj Hx.
  assert (Hc : 2 ^ j - 1 < 2 ^ w).
  { pose proof (pow_pos j). assert (2 ^ j <= 2 ^ w) by (apply N.pow_le_mono_r; lia). lia. }
  rewrite <- (ldiff_ones_low w _ Hc).
  replace (2 ^ j - 1) with (N.ones j) by (rewrite N.ones_equiv; lia).
  rewrite <- ldiff_ones_div.
  apply N.bits_inj. intros i. rewrite N.land_spec, !N.ldiff_spec.
  destruct (N.lt_ge_cases i w) as [Hi|Hi].
  - now rewrite N.ones_spec_low with (n := w) by exact Hi.
  - rewrite (lt_pow2_testbit x w i) by assumption. reflexivity.
Qed.

(** Splitting memory into lanes. *)
Lemma peek_swar_some w mem pos v :
  lanes w mem -> peek_swar w mem pos = Some v ->
  exists l, word_lanes w l /\ v = pack w l /\ l = firstn (swar_length w) (skipn pos mem).
Proof.
  unfold peek_swar. intros Hm H.
  destruct (Nat.leb_spec (pos + swar_length w) (length mem)) as [Hle|Hlt]; [|discriminate].
  injection H as <-. eexists. repeat split.
  - apply Forall_forall. intros x Hx.
    eapply Forall_forall in Hm; [exact Hm|].
    rewrite <- (firstn_skipn pos mem). apply in_or_app. right.
    rewrite <- (firstn_skipn (swar_length w) (skipn pos mem)). apply in_or_app. now left.
  - rewrite firstn_length, skipn_length. lia.
Qed.
