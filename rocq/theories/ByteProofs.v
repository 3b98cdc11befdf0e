(** Proofs about bytes, binary integers and bit patterns. *)
From Coq Require Import Sorted.
From Verif Require Import Prelude ByteModel ByteSpec.
Open Scope N_scope.

Lemma pred_iff p b : pred_ok p b = true <-> satisfies p b.
Proof.
  destruct p; cbn; try tauto; try lia.
  rewrite existsb_exists. split.
  - intros (x & Hx & Hb). apply N.eqb_eq in Hb. now subst.
  - intros H. exists b. split; [exact H|apply N.eqb_refl].
Qed.

(** The token of [n] bytes. *)
Lemma bytes_spec n p : forall rest,
  exists ok e, bytes_try n p rest = (ok, e) /\
    (e <= n)%nat /\ (e <= length rest)%nat /\ Forall (satisfies p) (firstn e rest) /\
    (ok = true <-> e = n) /\
    (ok = false -> forall b, nth_error rest e = Some b -> ~ satisfies p b).
Proof.
  induction n as [|n IH]; intros rest; cbn [bytes_try].
  - exists true, 0%nat. split; [reflexivity|]. split; [lia|]. split; [lia|]. split; [constructor|]. split; [tauto|discriminate].
  - destruct rest as [|b rest].
    + exists false, 0%nat. split; [reflexivity|]. split; [lia|]. split; [cbn; lia|]. split; [constructor|]. split; [split; [discriminate|lia]|]. intros _ b H. discriminate.
    + destruct (pred_ok p b) eqn:Hp.
      * destruct (IH rest) as (ok & e & -> & H1 & H2 & H3 & H4 & H5). exists ok, (S e).
        split; [reflexivity|]. split; [lia|]. split; [cbn; lia|]. split; [|split].
        -- cbn. constructor; [now apply pred_iff|exact H3].
        -- rewrite H4. lia.
        -- intros Hok x Hx. cbn in Hx. now apply (H5 Hok).
      * exists false, 0%nat. split; [reflexivity|]. split; [lia|]. split; [lia|]. split; [constructor|]. split.
        -- split; [discriminate|lia].
        -- intros _ x [= <-] Hs. apply pred_iff in Hs. congruence.
Qed.

Lemma bytes_exact n p rest :
  (forall e, bytes_try n p rest = (true, e) <->
     e = n /\ (n <= length rest)%nat /\ Forall (satisfies p) (firstn n rest)) /\
  (forall e, bytes_try n p rest = (false, e) <->
     (e < n)%nat /\ (e <= length rest)%nat /\ Forall (satisfies p) (firstn e rest) /\
     (forall b, nth_error rest e = Some b -> ~ satisfies p b)).
Proof.
  destruct (bytes_spec n p rest) as (ok & e & -> & H1 & H2 & H3 & H4 & H5).
  assert (Hin : forall k (l : list N), (k < length l)%nat -> exists b, nth_error l k = Some b).
  { intros k l Hk. destruct (nth_error l k) eqn:Hn; [eauto|]. apply nth_error_None in Hn. lia. }
  assert (Hf : forall j k (b : N), (j < k)%nat -> nth_error rest j = Some b -> Forall (satisfies p) (firstn k rest) -> satisfies p b).
  { intros j k b Hj Hb Ha. rewrite Forall_forall in Ha. apply Ha. apply nth_error_In with j.
    rewrite <- (firstn_skipn k rest) in Hb. rewrite nth_error_app1 in Hb; [exact Hb|].
    rewrite firstn_length. assert (j < length rest)%nat by (apply nth_error_Some; rewrite firstn_skipn in Hb; congruence). lia. }
  split; intros e'; split.
  - intros [= -> <-]. rewrite (proj1 H4 eq_refl) in *. auto.
  - intros (-> & Hl & Ha). destruct ok; [f_equal; now apply H4|]. exfalso.
    assert (He : e <> n) by (intros Heq; apply H4 in Heq; discriminate).
    destruct (Hin e rest ltac:(lia)) as (b & Hb). apply (H5 eq_refl b Hb). apply (Hf e n b); auto. lia.
  - intros [= -> <-]. assert (He : e <> n) by (intros Heq; apply H4 in Heq; discriminate).
    split; [lia|]. split; [exact H2|]. split; [exact H3|]. now apply H5.
  - intros (Hlt & Hle & Ha & Hno). destruct (Nat.lt_trichotomy e e') as [He|[He|He]].
    + exfalso. destruct ok; [assert (e = n) by (now apply H4); lia|].
      destruct (Hin e rest ltac:(lia)) as (b & Hb). apply (H5 eq_refl b Hb). now apply (Hf e e' b).
    + subst e'. destruct ok; [assert (e = n) by (now apply H4); lia|reflexivity].
    + exfalso. destruct (Hin e' rest ltac:(lia)) as (b & Hb). apply (Hno b Hb). now apply (Hf e' e b).
Qed.

(** Padding. *)
Lemma validate_in v l : forall pos p, In p (validate v pos l) <-> exists b, (pos <= p)%nat /\ nth_error l (p - pos) = Some b /\ b <> v.
Proof.
  induction l as [|b l IH]; intros pos p; cbn [validate].
  - split; [easy|]. intros (b & _ & H & _). now destruct (p - pos)%nat.
  - assert (Htail : In p (validate v (S pos) l) <-> exists b', (pos < p)%nat /\ nth_error (b :: l) (p - pos) = Some b' /\ b' <> v).
    { rewrite IH. split; intros (b' & H1 & H2 & H3).
      - exists b'. split; [lia|]. replace (p - pos)%nat with (S (p - S pos)) by lia. auto.
      - exists b'. split; [lia|]. replace (p - pos)%nat with (S (p - S pos)) in H2 by lia. auto. }
    destruct (N.eqb_spec b v) as [->|Hb].
    + rewrite Htail. split; intros (b' & H1 & H2 & H3); exists b'; split; auto; try lia.
      destruct (Nat.eq_dec p pos) as [->|]; [|lia]. rewrite Nat.sub_diag in H2. cbn in H2. congruence.
    + cbn [In]. rewrite Htail. split.
      * intros [<-|(b' & H1 & H2 & H3)]; [exists b; rewrite Nat.sub_diag; auto|exists b'; split; [lia|auto]].
      * intros (b' & H1 & H2 & H3). destruct (Nat.eq_dec pos p) as [->|]; [now left|]. right. exists b'. split; [lia|auto].
Qed.
Lemma validate_sorted v l : forall pos, StronglySorted lt (validate v pos l) /\ Forall (fun p => (pos <= p)%nat) (validate v pos l).
Proof.
  induction l as [|b l IH]; intros pos; cbn [validate]; [split; constructor|].
  destruct (IH (S pos)) as (H1 & H2).
  assert (H3 : Forall (fun p => (pos < p)%nat) (validate v (S pos) l)) by (eapply Forall_impl; [|exact H2]; cbn; intros; lia).
  destruct (b =? v); split; try assumption; try (constructor; assumption).
  - eapply Forall_impl; [|exact H3]. cbn; intros; lia.
  - constructor; [lia|]. eapply Forall_impl; [|exact H3]. cbn; intros; lia.
Qed.

Lemma any_bytes n rest : bytes_try n AnyByte rest = (true, n) <-> (n <= length rest)%nat.
Proof.
  rewrite (proj1 (bytes_exact n AnyByte rest) n). split; [tauto|]. intros H. split; [reflexivity|]. split; [exact H|].
  apply Forall_forall. intros; exact I.
Qed.
Lemma any_bytes_short n rest e : bytes_try n AnyByte rest = (false, e) <-> (length rest < n)%nat /\ e = length rest.
Proof.
  rewrite (proj2 (bytes_exact n AnyByte rest) e). split.
  - intros (H1 & H2 & _ & H3). destruct (nth_error rest e) as [b|] eqn:Hb.
    + exfalso. now apply (H3 b eq_refl).
    + apply nth_error_None in Hb. lia.
  - intros (H1 & ->). split; [exact H1|]. split; [lia|]. split; [apply Forall_forall; intros; exact I|].
    intros b Hb. exfalso. assert (nth_error rest (length rest) <> None) by congruence. apply nth_error_Some in H. lia.
Qed.

Lemma padding_exact n v rest :
  (forall k errs, padding_parse n v rest = Some (k, errs) ->
     k = n /\ (n <= length rest)%nat /\ StronglySorted lt errs /\
     forall p, In p errs <-> (p < n)%nat /\ nth_error rest p <> Some v) /\
  (padding_parse n v rest = None <-> (length rest < n)%nat).
Proof.
  unfold padding_parse. destruct (bytes_try n AnyByte rest) as ([|] & e) eqn:Ht.
  - assert (e = n) as -> by (apply (proj1 (bytes_exact n AnyByte rest) e) in Ht; tauto).
    apply any_bytes in Ht. split; [|split; [discriminate|lia]].
    intros k errs [= <- <-]. split; [reflexivity|]. split; [exact Ht|].
    split; [apply validate_sorted|]. intros p. rewrite validate_in, Nat.sub_0_r.
    assert (Hnth : (p < n)%nat -> nth_error (firstn n rest) p = nth_error rest p).
    { intros Hp. rewrite <- (firstn_skipn n rest) at 2. rewrite nth_error_app1; [reflexivity|].
      rewrite firstn_length. lia. }
    split.
    + intros (b & _ & Hb & Hne).
      assert (Hp : (p < n)%nat).
      { assert (H : nth_error (firstn n rest) p <> None) by congruence. apply nth_error_Some in H. rewrite firstn_length in H. lia. }
      split; [exact Hp|]. rewrite Hnth in Hb by exact Hp. congruence.
    + intros (Hp & Hne). rewrite Hnth by exact Hp. destruct (nth_error rest p) as [b|] eqn:Hb.
      * exists b. split; [lia|]. split; [reflexivity|congruence].
      * apply nth_error_None in Hb. lia.
  - apply any_bytes_short in Ht as (Ht & _). split; [discriminate|]. now split.
Qed.

(** ** Binary integers *)

Lemma lor_shift x k a : a < 2 ^ k -> N.lor (x * 2 ^ k) a = x * 2 ^ k + a.
Proof.
  intros Ha. rewrite <- N.shiftl_mul_pow2.
  assert (Hd : N.land (N.shiftl x k) a = 0).
  { apply N.bits_inj. intros i. rewrite N.land_spec, N.bits_0.
    destruct (N.ltb_spec i k) as [Hi|Hi].
    - now rewrite N.shiftl_spec_low.
    - rewrite <- (N.mod_small a (2 ^ k) Ha), N.mod_pow2_bits_high by exact Hi. apply andb_false_r. }
  rewrite <- N.lxor_lor by exact Hd. symmetry. now apply N.add_nocarry_lxor.
Qed.

Lemma to_bint_small n x : x < 256 ^ N.of_nat n -> to_bint n x = x.
Proof. intros H. unfold to_bint. rewrite N.pow_mul_r. apply N.mod_small. exact H. Qed.

Lemma pow256_S k : 256 ^ N.of_nat (S k) = 256 * 256 ^ N.of_nat k.
Proof. rewrite Nat2N.inj_succ, N.pow_succ_r'. reflexivity. Qed.

Lemma big_bound l : Forall (fun b => b < 256) l -> big_endian l < 256 ^ N.of_nat (length l).
Proof.
  induction 1 as [|b l Hb Hl IH]; cbn [big_endian length]; [cbn; lia|]. rewrite pow256_S. nia.
Qed.

Lemma shift_in_loop n : forall l r k, Forall (fun b => b < 256) l -> r < 256 ^ N.of_nat k -> (k + length l <= n)%nat ->
  fold_left (shift_in n) l r = r * 256 ^ N.of_nat (length l) + big_endian l.
Proof.
  induction l as [|b l IH]; intros r k Hl Hr Hk; cbn [fold_left big_endian length] in *.
  - cbn. lia.
  - inversion Hl as [|x y Hb Hl']; subst.
    assert (Hpow : 256 * 256 ^ N.of_nat k <= 256 ^ N.of_nat n).
    { rewrite <- pow256_S. apply N.pow_le_mono_r; lia. }
    assert (Hs : shift_in n r b = r * 256 + b).
    { unfold shift_in. rewrite N.shiftl_mul_pow2. change (2 ^ 8) with 256.
      rewrite (to_bint_small n (r * 256)) by nia. change 256 with (2 ^ 8) at 1. rewrite lor_shift by exact Hb.
      change (2 ^ 8) with 256. apply to_bint_small. nia. }
    rewrite Hs, (IH (r * 256 + b) (S k)); [|exact Hl'|rewrite pow256_S; nia|lia].
    rewrite pow256_S. nia.
Qed.

Lemma big_app l l' : big_endian (l ++ l') = big_endian l * 256 ^ N.of_nat (length l') + big_endian l'.
Proof.
  induction l as [|b l IH]; cbn [app big_endian]; [lia|]. rewrite IH, app_length, Nat2N.inj_add, N.pow_add_r. nia.
Qed.
Lemma little_rev l : big_endian (rev l) = little_endian l.
Proof.
  induction l as [|b l IH]; cbn [rev little_endian]; [reflexivity|]. rewrite big_app, IH. cbn [length big_endian].
  change (256 ^ N.of_nat 1) with 256. change (256 ^ N.of_nat 0) with 1. lia.
Qed.

Lemma number_bound e l : Forall (fun b => b < 256) l -> number e l < 256 ^ N.of_nat (length l).
Proof.
  intros H. destruct e; cbn [number]; [|now apply big_bound].
  rewrite <- little_rev, <- rev_length. apply big_bound. now apply Forall_rev.
Qed.

Lemma bint_value_spec n e l : Forall (fun b => b < 256) l -> length l = n -> bint_value n e l = number e l.
Proof.
  intros Hl Hn. assert (Hgen : forall l', Forall (fun b => b < 256) l' -> length l' = n -> fold_left (shift_in n) l' 0 = big_endian l').
  { intros l' Hl' Hn'. rewrite (shift_in_loop n l' 0 0 Hl'); [lia|cbn; lia|lia]. }
  unfold bint_value. destruct n as [|[|n]].
  - destruct l; [|discriminate]. now destruct e.
  - destruct l as [|b [|]]; try discriminate. destruct e; cbn; lia.
  - destruct e; cbn [number].
    + rewrite Hgen; [apply little_rev|now apply Forall_rev|now rewrite rev_length].
    + now apply Hgen.
Qed.

(** Every number of the size has exactly one representation. *)
Lemma little_inj : forall l l', Forall (fun b => b < 256) l -> Forall (fun b => b < 256) l' -> length l = length l' ->
  little_endian l = little_endian l' -> l = l'.
Proof.
  induction l as [|b l IH]; intros [|b' l'] H H' Hlen He; cbn in Hlen; try discriminate; [reflexivity|].
  inversion H; inversion H'; subst. cbn [little_endian] in He.
  assert (b = b' /\ little_endian l = little_endian l') as (-> & Hr) by lia.
  f_equal. apply IH; auto.
Qed.
Lemma number_inj e l l' : Forall (fun b => b < 256) l -> Forall (fun b => b < 256) l' -> length l = length l' ->
  number e l = number e l' -> l = l'.
Proof.
  intros H H' Hlen He. destruct e; cbn [number] in He; [now apply little_inj|].
  rewrite <- (rev_involutive l), <- (rev_involutive l') in He |- *. rewrite !little_rev in He. f_equal.
  apply little_inj; try now apply Forall_rev. - now rewrite !rev_length. - exact He.
Qed.
Lemma little_surj : forall n v, v < 256 ^ N.of_nat n -> exists l, length l = n /\ Forall (fun b => b < 256) l /\ little_endian l = v.
Proof.
  induction n as [|n IH]; intros v Hv.
  - exists []. split; [reflexivity|]. split; [constructor|]. cbn in *. lia.
  - rewrite pow256_S in Hv. destruct (IH (v / 256)) as (l & H1 & H2 & H3); [apply N.div_lt_upper_bound; lia|].
    exists (v mod 256 :: l). split; [cbn; lia|]. split; [constructor; [apply N.mod_lt; lia|exact H2]|].
    cbn [little_endian]. rewrite H3. lia.
Qed.
Lemma number_surj e n v : v < 256 ^ N.of_nat n -> exists l, length l = n /\ Forall (fun b => b < 256) l /\ number e l = v.
Proof.
  intros Hv. destruct (little_surj n v Hv) as (l & H1 & H2 & H3). destruct e; [eauto|].
  exists (rev l). rewrite rev_length. split; [exact H1|]. split; [now apply Forall_rev|]. cbn [number]. now rewrite little_rev.
Qed.

Lemma units_firstn (P : N -> Prop) l k : Forall P l -> Forall P (firstn k l).
Proof. intros H. rewrite <- (firstn_skipn k l) in H. now apply Forall_app in H. Qed.

Lemma bint_exact n e rest : Forall (fun b => b < 256) rest ->
  (forall k v, bint n e rest = BintValue k v <->
     k = n /\ (n <= length rest)%nat /\ v = number e (firstn n rest)) /\
  (forall k, bint n e rest = BintToken k <-> (length rest < n)%nat /\ k = length rest) /\
  (forall b k, bint n e rest <> BintMismatch b k).
Proof.
  intros Hu. unfold bint, bint_parse. destruct (bytes_try n AnyByte rest) as ([|] & k) eqn:Ht.
  - assert (k = n) as -> by (apply (proj1 (bytes_exact n AnyByte rest) k) in Ht; tauto).
    apply any_bytes in Ht. rewrite Nat.eqb_refl, bint_value_spec; [|now apply units_firstn|rewrite firstn_length; lia].
    split; [|split].
    + intros k v. split; [intros [= <- <-]; auto|]. intros (-> & _ & ->). reflexivity.
    + intros k. split; [discriminate|lia].
    + discriminate.
  - apply any_bytes_short in Ht as (Ht & ->). split; [|split].
    + intros k v. split; [discriminate|lia].
    + intros k. split; [intros [= <-]; auto|]. now intros (_ & ->).
    + discriminate.
Qed.

Lemma bint_token_exact n e token rest :
  Forall (fun b => b < 256) rest -> (forall k, token rest = (true, k) -> (k <= length rest)%nat) ->
  (forall k v, bint_parse n e token rest = BintValue k v <->
     k = n /\ token rest = (true, n) /\ v = number e (firstn n rest)) /\
  (forall b k, bint_parse n e token rest = BintMismatch b k <-> b = 0%nat /\ token rest = (true, k) /\ k <> n) /\
  (forall k, bint_parse n e token rest = BintToken k <-> token rest = (false, k)).
Proof.
  intros Hu Ht. unfold bint_parse. destruct (token rest) as ([|] & k) eqn:Hk.
  - specialize (Ht k eq_refl). destruct (Nat.eqb_spec k n) as [->|Hne].
    + rewrite bint_value_spec; [|now apply units_firstn|rewrite firstn_length; lia]. split; [|split].
      * intros k v. split; [intros [= <- <-]; auto|]. intros (-> & _ & ->). reflexivity.
      * intros b k. split; [discriminate|]. intros (_ & [= <-] & H). congruence.
      * split; discriminate.
    + split; [|split].
      * intros k' v. split; [discriminate|]. intros (-> & [= ->] & _). congruence.
      * intros b k'. split; [intros [= <- <-]; auto|]. now intros (-> & [= ->] & _).
      * split; discriminate.
  - split; [|split].
    + intros k' v. split; [discriminate|]. intros (_ & H & _). discriminate.
    + intros b k'. split; [discriminate|]. intros (_ & H & _). discriminate.
    + intros k'. split; [intros [= ->]; reflexivity|]. now intros [= ->].
Qed.

(** ** Bit patterns *)
Lemma testbit_shift x k a i : a < 2 ^ k -> N.testbit (x * 2 ^ k + a) i =
  if i <? k then N.testbit a i else N.testbit x (i - k).
Proof.
  intros Ha. rewrite <- lor_shift by exact Ha. rewrite N.lor_spec, <- N.shiftl_mul_pow2.
  destruct (N.ltb_spec i k) as [Hi|Hi].
  - now rewrite N.shiftl_spec_low.
  - rewrite N.shiftl_spec_high' by exact Hi. rewrite <- (N.mod_small a (2 ^ k) Ha), N.mod_pow2_bits_high by exact Hi.
    apply orb_false_r.
Qed.
Lemma land_shift p m k a b : a < 2 ^ k -> b < 2 ^ k ->
  N.land (p * 2 ^ k + a) (m * 2 ^ k + b) = N.land p m * 2 ^ k + N.land a b.
Proof.
  intros Ha Hb.
  assert (Hab : N.land a b < 2 ^ k).
  { destruct (N.eq_dec (N.land a b) 0) as [->|Hz]; [apply N.neq_0_lt_0, N.pow_nonzero; lia|].
    apply N.log2_lt_pow2; [lia|]. eapply N.le_lt_trans; [apply N.log2_land|].
    assert (a <> 0) by (intros ->; apply Hz; reflexivity).
    eapply N.le_lt_trans; [apply N.le_min_l|]. apply N.log2_lt_pow2; lia. }
  apply N.bits_inj. intros i. rewrite N.land_spec, !testbit_shift by assumption.
  destruct (i <? k); now rewrite N.land_spec.
Qed.

Lemma shl_small x n k : x < 2 ^ k -> k + N.of_nat n <= 32 -> shl x n = x * 2 ^ N.of_nat n.
Proof.
  intros Hx Hk. unfold shl. rewrite N.shiftl_mul_pow2. apply N.mod_small.
  apply N.lt_le_trans with (2 ^ (k + N.of_nat n)).
  - rewrite N.pow_add_r. apply N.mul_lt_mono_pos_r; [|exact Hx]. apply N.neq_0_lt_0, N.pow_nonzero. lia.
  - apply N.pow_le_mono_r; lia.
Qed.

(** One rule: mask and value of its bits. *)
Definition rule_bits (r : bit_rule) : N * N :=
  match r with
  | Bit0 => (1, 0) | Bit1 => (1, 1) | Nibble v => (15, v) | AnyBits _ => (0, 0)
  end.
Lemma rule_bits_small r : bit_ok r = true ->
  fst (rule_bits r) < 2 ^ N.of_nat (bit_size r) /\ snd (rule_bits r) < 2 ^ N.of_nat (bit_size r).
Proof.
  destruct r; cbn [bit_ok rule_bits fst snd bit_size]; intros H; try (cbn; lia).
Qed.
Lemma apply_spec mask value r k : bit_ok r = true -> mask < 2 ^ k -> value < 2 ^ k ->
  k + N.of_nat (bit_size r) <= 32 ->
  bit_apply (mask, value) r = (mask * 2 ^ N.of_nat (bit_size r) + fst (rule_bits r),
                               value * 2 ^ N.of_nat (bit_size r) + snd (rule_bits r)).
Proof.
  intros Hr Hm Hv Hk. destruct (rule_bits_small r Hr) as (H1 & H2).
  destruct r; cbn [bit_apply bit_size rule_bits fst snd] in *;
    rewrite ?(shl_small mask _ k), ?(shl_small value _ k) by assumption;
    rewrite ?lor_shift by assumption; try reflexivity; f_equal; lia.
Qed.

(** The bits of the rule at the front of [l]. *)
Definition rule_holds (r : bit_rule) (l : list bool) : Prop :=
  match r with
  | Bit0 => l = [false] | Bit1 => l = [true] | Nibble v => l = binary 4 v | AnyBits n => length l = n
  end.
Lemma rule_holds_length r l : rule_holds r l -> length l = bit_size r.
Proof. destruct r; cbn; intros H; subst; reflexivity || assumption. Qed.

Lemma binary_length n b : length (binary n b) = n.
Proof. induction n; cbn; auto. Qed.

Lemma binary_shift x a : forall n k, a < 2 ^ N.of_nat k ->
  binary (n + k) (x * 2 ^ N.of_nat k + a) = binary n x ++ binary k a.
Proof.
  intros n k Ha. induction n as [|n IH].
  - cbn [Nat.add app]. assert (Hk : forall j, (j <= k)%nat -> binary j (x * 2 ^ N.of_nat k + a) = binary j a).
    { induction j as [|j IHj]; intros Hj; cbn [binary]; [reflexivity|]. rewrite IHj by lia.
      rewrite testbit_shift by exact Ha. destruct (N.ltb_spec (N.of_nat j) (N.of_nat k)); [reflexivity|lia]. }
    now apply Hk.
  - cbn [Nat.add binary app]. rewrite IH. f_equal. rewrite testbit_shift by exact Ha.
    destruct (N.ltb_spec (N.of_nat (n + k)) (N.of_nat k)); [lia|]. f_equal. lia.
Qed.

Lemma binary_inj n : forall a b, a < 2 ^ N.of_nat n -> b < 2 ^ N.of_nat n -> binary n a = binary n b -> a = b.
Proof.
  intros a b Ha Hb H.
  assert (Hbits : forall j, (j < n)%nat -> N.testbit a (N.of_nat j) = N.testbit b (N.of_nat j)).
  { clear Ha Hb. induction n as [|n IH]; intros j Hj; [lia|]. cbn [binary] in H. injection H as H1 H2.
    destruct (Nat.eq_dec j n) as [->|]; [exact H1|]. apply IH; [exact H2|lia]. }
  apply N.bits_inj. intros i. destruct (N.ltb_spec i (N.of_nat n)) as [Hi|Hi].
  - rewrite <- (N2Nat.id i). apply Hbits. lia.
  - rewrite <- (N.mod_small a _ Ha), <- (N.mod_small b _ Hb). now rewrite !N.mod_pow2_bits_high.
Qed.

Lemma rule_test r q : bit_ok r = true -> q < 2 ^ N.of_nat (bit_size r) ->
  (N.land q (fst (rule_bits r)) = snd (rule_bits r) <-> rule_holds r (binary (bit_size r) q)).
Proof.
  intros Hr Hq. destruct r; cbn [bit_size rule_bits fst snd rule_holds bit_ok] in *.
  - change (2 ^ N.of_nat 1) with 2 in Hq. assert (q = 0 \/ q = 1) as [->| ->] by lia; vm_compute; split; intros; congruence.
  - change (2 ^ N.of_nat 1) with 2 in Hq. assert (q = 0 \/ q = 1) as [->| ->] by lia; vm_compute; split; intros; congruence.
  - change 15 with (N.ones 4). rewrite N.land_ones. rewrite N.mod_small by exact Hq. split; [now intros ->|].
    intros H. apply (binary_inj 4); try assumption. change (2 ^ N.of_nat 4) with 16. lia.
  - rewrite N.land_0_r, binary_length. tauto.
Qed.

Lemma pattern_loop : forall rs mask value k,
  forallb bit_ok rs = true -> mask < 2 ^ k -> value < 2 ^ k ->
  k + N.of_nat (list_sum (map bit_size rs)) <= 32 ->
  exists m v, fold_left bit_apply rs (mask, value)
    = (mask * 2 ^ N.of_nat (list_sum (map bit_size rs)) + m, value * 2 ^ N.of_nat (list_sum (map bit_size rs)) + v) /\
    m < 2 ^ N.of_nat (list_sum (map bit_size rs)) /\ v < 2 ^ N.of_nat (list_sum (map bit_size rs)) /\
    forall q, q < 2 ^ N.of_nat (list_sum (map bit_size rs)) ->
      (N.land q m = v <-> bits_match rs (binary (list_sum (map bit_size rs)) q)).
Proof.
  induction rs as [|r rs IH]; intros mask value k Hok Hm Hv Hk.
  - cbn [fold_left map list_sum fold_right] in *. exists 0, 0. change (2 ^ N.of_nat 0) with 1.
    split; [f_equal; lia|]. split; [lia|]. split; [lia|]. intros q Hq. cbn [binary]. rewrite N.land_0_r.
    split; [intros _; constructor|reflexivity].
  - cbn [fold_left map] in *. change (list_sum (bit_size r :: map bit_size rs)) with (bit_size r + list_sum (map bit_size rs))%nat in *.
    set (w := bit_size r) in *. set (s := list_sum (map bit_size rs)) in *.
    apply andb_true_iff in Hok as (Hr & Hrs).
    rewrite (apply_spec mask value r k Hr Hm Hv) by lia. fold w.
    destruct (rule_bits_small r Hr) as (Hb1 & Hb2). fold w in Hb1, Hb2.
    destruct (IH (mask * 2 ^ N.of_nat w + fst (rule_bits r)) (value * 2 ^ N.of_nat w + snd (rule_bits r)) (k + N.of_nat w) Hrs)
      as (m & v & -> & Hms & Hvs & Hq); try (rewrite N.pow_add_r; nia); try (fold s; lia).
    fold s in Hms, Hvs, Hq |- *.
    assert (Hpow : 2 ^ N.of_nat (w + s) = 2 ^ N.of_nat w * 2 ^ N.of_nat s) by (rewrite Nat2N.inj_add, N.pow_add_r; reflexivity).
    exists (fst (rule_bits r) * 2 ^ N.of_nat s + m), (snd (rule_bits r) * 2 ^ N.of_nat s + v).
    split; [f_equal; rewrite Hpow; nia|]. split; [rewrite Hpow; nia|]. split; [rewrite Hpow; nia|].
    intros q Hqb.
    assert (Hs0 : 2 ^ N.of_nat s <> 0) by (apply N.pow_nonzero; lia).
    set (q1 := q / 2 ^ N.of_nat s). set (q2 := q mod 2 ^ N.of_nat s).
    assert (Hq12 : q = q1 * 2 ^ N.of_nat s + q2) by (unfold q1, q2; rewrite N.mul_comm; apply N.div_mod; exact Hs0).
    assert (Hq2 : q2 < 2 ^ N.of_nat s) by (apply N.mod_lt; exact Hs0).
    assert (Hq1 : q1 < 2 ^ N.of_nat w) by (apply N.div_lt_upper_bound; [exact Hs0|rewrite Hpow in Hqb; lia]).
    rewrite Hq12, land_shift, binary_shift by assumption.
    assert (Hl2 : N.land q2 m < 2 ^ N.of_nat s).
    { pose proof (land_shift 0 0 (N.of_nat s) q2 m Hq2 Hms) as Hl. rewrite N.land_0_l, !N.mul_0_l, !N.add_0_l in Hl.
      clear - Hq2 Hms. destruct (N.eq_dec (N.land q2 m) 0) as [->|Hz]; [apply N.neq_0_lt_0, N.pow_nonzero; lia|].
      apply N.log2_lt_pow2; [lia|]. eapply N.le_lt_trans; [apply N.log2_land|].
      assert (q2 <> 0) by (intros Hq0; rewrite Hq0 in Hz; apply Hz; reflexivity).
      eapply N.le_lt_trans; [apply N.le_min_l|]. apply N.log2_lt_pow2; lia. }
    pose proof (rule_test r q1 Hr Hq1) as Hrt. fold w in Hrt. specialize (Hq q2 Hq2).
    assert (Hsplit : N.land q1 (fst (rule_bits r)) * 2 ^ N.of_nat s + N.land q2 m = snd (rule_bits r) * 2 ^ N.of_nat s + v
              <-> N.land q1 (fst (rule_bits r)) = snd (rule_bits r) /\ N.land q2 m = v).
    { split; [|now intros (-> & ->)]. intros H.
      assert (N.land q1 (fst (rule_bits r)) = snd (rule_bits r)).
      { assert (Hd : (N.land q1 (fst (rule_bits r)) * 2 ^ N.of_nat s + N.land q2 m) / 2 ^ N.of_nat s
                     = (snd (rule_bits r) * 2 ^ N.of_nat s + v) / 2 ^ N.of_nat s) by now rewrite H.
        rewrite !N.div_add_l, !N.div_small, !N.add_0_r in Hd by assumption. exact Hd. }
      split; [assumption|]. rewrite H0 in H. lia. }
    rewrite Hsplit, Hrt, Hq. clear - w s.
    assert (Hlen : length (binary w q1) = bit_size r) by apply binary_length.
    split.
    + intros (H1 & H2). destruct r; cbn [rule_holds] in H1; try rewrite H1; try (constructor; exact H2).
      now apply match_any.
    + intros H. remember (binary w q1 ++ binary s q2) as bs eqn:Hbs. remember (r :: rs) as rr eqn:Hrr.
      assert (Hsplit : forall a l, bs = a ++ l -> length a = bit_size r -> a = binary w q1 /\ l = binary s q2).
      { intros a l Ha Hl. rewrite Hbs in Ha. rewrite <- Hlen in Hl. symmetry in Hl. clear - Ha Hl.
        revert a Ha Hl. generalize (binary w q1). intros x. induction x as [|y x IH]; intros [|z a] Ha Hl; try discriminate.
        - auto.
        - cbn in Ha, Hl. injection Ha as -> Ha. destruct (IH a Ha ltac:(lia)) as (-> & ->). auto. }
      destruct H as [|rs' l H|rs' l H|v' rs' l H|n rs' any l Hn H]; try discriminate; injection Hrr as <- ->; cbn [rule_holds].
      * destruct (Hsplit [false] l eq_refl eq_refl) as (<- & <-). auto.
      * destruct (Hsplit [true] l eq_refl eq_refl) as (<- & <-). auto.
      * destruct (Hsplit (binary 4 v') l eq_refl eq_refl) as (<- & <-). auto.
      * destruct (Hsplit any l eq_refl Hn) as (<- & <-). auto.
Qed.

Lemma bits_exact rs p rest : bits_pattern rs = Some p -> Forall (fun b => b < 256) rest ->
  (bits_try p rest = (true, 1%nat) <-> exists b r, rest = b :: r /\ bits_match rs (binary 8 b)) /\
  (bits_try p rest = (false, 0%nat) <-> ~ exists b r, rest = b :: r /\ bits_match rs (binary 8 b)).
Proof.
  unfold bits_pattern. destruct (forallb bit_ok rs) eqn:Hok; cbn [andb]; [|discriminate].
  destruct (Nat.eqb_spec (list_sum (map bit_size rs)) 8) as [Hs|]; [|discriminate]. intros [= <-] Hu.
  destruct (pattern_loop rs 0 0 0 Hok) as (m & v & Hp & _ & _ & Hq); try (cbn; lia); try (rewrite Hs; cbn; lia).
  rewrite Hp, Hs in *. unfold bits_try. destruct rest as [|b r].
  - split; split; try discriminate; try reflexivity; [intros (b & r & H & _); discriminate|].
    intros _ (b & r & H & _). discriminate.
  - inversion Hu; subst. cbn [fst snd]. rewrite !N.mul_0_l, !N.add_0_l.
    specialize (Hq b ltac:(assumption)).
    assert (Hex : (exists b' r', b :: r = b' :: r' /\ bits_match rs (binary 8 b')) <-> bits_match rs (binary 8 b)).
    { split; [intros (b' & r' & [= <- <-] & H); exact H|eauto]. }
    rewrite Hex. destruct (N.eqb_spec (N.land b m) v) as [He|He].
    + pose proof (proj1 Hq He) as Hm. split; split; auto; try discriminate. now intros H.
    + assert (Hm : ~ bits_match rs (binary 8 b)) by (intros H; apply He, Hq; exact H).
      split; split; auto; try discriminate. now intros H.
Qed.
