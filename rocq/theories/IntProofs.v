(** Proofs about digit tokens and integer conversion. *)
From Verif Require Import Prelude SwarModel IntModel IntSpec.
Open Scope N_scope.

(** ** Digits *)
Lemma radix_bounds b : 2 <= radix b <= 16.
Proof. destruct b; cbn; lia. Qed.

Lemma class_digit b c : class_table (base_class b) c = true <-> is_digit b c.
Proof.
  unfold is_digit, digit_of. cbv zeta. destruct b; cbn [base_class class_table]; unfold in_range.
  all: repeat match goal with |- context [if ?x then _ else _] => match type of x with bool => destruct x eqn:? end end.
  all: split; [intros H | intros (d & H)]; first [eexists; reflexivity | discriminate | lia | exfalso; lia].
Qed.
Lemma class_digit_false b c : class_table (base_class b) c = false <-> ~ is_digit b c.
Proof. rewrite <- class_digit. now rewrite not_true_iff_false. Qed.

Lemma digit_of_lt b c d : digit_of b c = Some d -> d < radix b.
Proof.
  unfold digit_of. cbv zeta. destruct b; cbn [radix].
  all: repeat match goal with |- context [if ?x then _ else _] => match type of x with bool => destruct x eqn:? end end.
  all: intros [= <-]; lia.
Qed.

(** [digit_value] agrees with the digit values and is at least the radix elsewhere. *)
Lemma digit_value_spec b c : c < 2 ^ 32 ->
  match digit_of b c with
  | Some d => digit_value b c = d
  | None => radix b <= digit_value b c
  end.
Proof.
  intros Hc. unfold digit_of, digit_value, usub. cbv zeta. change (2 ^ 32) with 4294967296 in *.
  destruct b; cbn [radix].
  all: repeat match goal with |- context [if ?x then _ else _] => match type of x with bool => destruct x eqn:? end end; lia.
Qed.

Lemma digit_value_neg_spec b c : 0x80 <= c < 0x100 -> radix b <= digit_value_neg c.
Proof.
  intros Hc. unfold digit_value_neg. change (2 ^ 32) with 4294967296 in *.
  destruct b; cbn [radix]; lia.
Qed.

(** ** Numbers *)
Definition number_from (rdx v : N) (ds : list N) : N := fold_left (fun a d => a * rdx + d) ds v.

Lemma number_from_ge rdx ds : 1 <= rdx -> forall v, v * rdx ^ N.of_nat (length ds) <= number_from rdx v ds.
Proof.
  intros Hr. induction ds as [|d ds IH]; intros v; cbn [number_from fold_left length].
  - change (N.of_nat 0) with 0. rewrite N.pow_0_r. lia.
  - rewrite Nat2N.inj_succ, N.pow_succ_r by lia.
    specialize (IH (v * rdx + d)). unfold number_from in IH.
    etransitivity; [|exact IH]. rewrite N.mul_assoc. apply N.mul_le_mono_r. lia.
Qed.
Lemma number_from_mono rdx ds v : 1 <= rdx -> v <= number_from rdx v ds.
Proof.
  intros Hr. etransitivity; [|apply number_from_ge; exact Hr].
  rewrite <- (N.mul_1_r v) at 1. apply N.mul_le_mono_l.
  pose proof (N.pow_nonzero rdx (N.of_nat (length ds)) ltac:(lia)). lia.
Qed.

(** ** [_digit_count] *)
Lemma digit_count_loop_spec rdx : 2 <= rdx -> forall fuel v,
  0 < v -> v < 2 ^ N.of_nat fuel ->
  let n := digit_count_loop fuel rdx v in
  (1 <= n)%nat /\ rdx ^ N.of_nat (n - 1) <= v /\ v < rdx ^ N.of_nat n.
Proof.
  intros Hr. induction fuel as [|fuel IH]; intros v Hv Hf; cbn [digit_count_loop].
  - change (2 ^ N.of_nat 0) with 1 in Hf. lia.
  - replace (v =? 0) with false by lia. cbn zeta.
    rewrite Nat2N.inj_succ, N.pow_succ_r in Hf by lia.
    destruct (N.eq_dec (v / rdx) 0) as [Hz|Hz].
    + assert (Hlt : v < rdx) by (apply N.div_small_iff in Hz; lia).
      rewrite Hz. destruct fuel; cbn [digit_count_loop]; rewrite ?N.eqb_refl;
        change (N.of_nat (1 - 1)) with 0; change (N.of_nat 1) with 1; rewrite N.pow_0_r, N.pow_1_r; lia.
    + assert (Hr0 : rdx <> 0) by (clear - Hr; lia).
      assert (Hlt : v / rdx < 2 ^ N.of_nat fuel).
      { apply N.div_lt_upper_bound; [exact Hr0|].
        apply N.lt_le_trans with (2 * 2 ^ N.of_nat fuel); [exact Hf|]. apply N.mul_le_mono_r. exact Hr. }
      pose proof (N.mul_div_le v rdx Hr0) as Hq1.
      assert (Hq2 : v < rdx * (v / rdx + 1)).
      { rewrite N.mul_add_distr_l, N.mul_1_r.
        pose proof (N.div_mod v rdx Hr0) as Hdm. pose proof (N.mod_lt v rdx Hr0) as Hml.
        set (q := rdx * (v / rdx)) in *. clearbody q. set (m := v mod rdx) in *. clearbody m.
        clear - Hdm Hml. lia. }
      set (q := v / rdx) in *. clearbody q.
      specialize (IH q ltac:(lia) Hlt). cbn zeta in IH.
      destruct IH as (H1 & H2 & H3). set (n := digit_count_loop fuel rdx q) in *.
      split; [lia|]. split.
      * replace (N.of_nat (S n - 1)) with (N.succ (N.of_nat (n - 1))) by lia.
        rewrite N.pow_succ_r by lia.
        etransitivity; [apply N.mul_le_mono_l; exact H2|]. exact Hq1.
      * rewrite Nat2N.inj_succ, N.pow_succ_r by lia.
        assert (q + 1 <= rdx ^ N.of_nat n) by lia.
        apply N.lt_le_trans with (rdx * (q + 1)); [exact Hq2|].
        apply N.mul_le_mono_l. exact H.
Qed.

Lemma digit_count_spec rdx v : 2 <= rdx -> rdx <= v -> v < 2 ^ 129 ->
  let n := digit_count rdx v in
  (2 <= n)%nat /\ rdx ^ N.of_nat (n - 1) <= v /\ v < rdx ^ N.of_nat n.
Proof.
  intros Hr Hv Hlt. unfold digit_count. replace (v =? 0) with false by lia.
  destruct (digit_count_loop_spec rdx Hr 129 v ltac:(lia)) as (H1 & H2 & H3).
  { change (N.of_nat 129) with 129. exact Hlt. }
  set (n := digit_count_loop 129 rdx v) in *. cbn zeta. split; [|auto].
  destruct (Nat.eq_dec n 1) as [E|E]; [|lia].
  rewrite E in H3. change (N.of_nat 1) with 1 in H3. rewrite N.pow_1_r in H3. lia.
Qed.

(** ** The checked and unchecked additions *)
Definition type_max (t : ity) : N :=
  match t with Int w sgn | Bounded w sgn _ => int_max w sgn | CodePoint => int_max 32 false end.

Lemma ity_max_le t b : ity_ok t b -> ity_max t <= type_max t.
Proof. destruct t; cbn; [lia| |intros (_ & _ & H); exact H]. intros _. vm_compute. discriminate. Qed.
Lemma type_max_lt t b : ity_ok t b -> type_max t < 2 ^ 128 /\ radix b <= type_max t.
Proof.
  intros H. split.
  - assert (Hw : forall w sgn, In w [8; 16; 32; 64; 128] -> int_max w sgn < 2 ^ 128).
    { intros w sgn Hw. cbn [In] in Hw.
      decompose [or] Hw; subst; try contradiction; destruct sgn; vm_compute; reflexivity. }
    destruct t; unfold ity_ok in H; cbn [type_max]; [|vm_compute; reflexivity|]; apply Hw; apply H.
  - pose proof (ity_max_le t b H). destruct H. lia.
Qed.

Lemma add_unchecked_ok t b v d : ity_ok t b -> v * radix b + d <= ity_max t ->
  add_unchecked t (radix b) v d = Some (v * radix b + d).
Proof.
  intros Hok Hle. pose proof (ity_max_le t b Hok) as Hm.
  assert (Hi : forall w sgn, 1 <= w -> v * radix b + d <= int_max w sgn ->
                int_add_unchecked w sgn (radix b) v d = Some (v * radix b + d)).
  { intros w sgn Hw H. unfold int_add_unchecked. destruct sgn.
    - replace (v * radix b + d <=? int_max w true) with true by lia. reflexivity.
    - unfold int_max in H. f_equal. apply N.mod_small.
      assert (0 < 2 ^ w) by (apply N.neq_0_lt_0, N.pow_nonzero; lia). lia. }
  assert (Hw : forall w, In w [8; 16; 32; 64; 128] -> 1 <= w) by (cbn [In]; lia).
  destruct t; unfold ity_ok in Hok; cbn [add_unchecked ity_max type_max] in *; apply Hi; try lia.
  - apply Hw. apply Hok.
  - apply Hw. apply Hok.
Qed.

Lemma int_add_general_spec max rdx v d : 0 < rdx -> d < rdx -> rdx <= max ->
  let x := v * rdx + d in
  fst (int_add_general max rdx v d) = (x <=? max) /\
  (x <= max -> snd (int_add_general max rdx v d) = x).
Proof.
  intros Hr Hd Hm. unfold int_add_general. cbn zeta.
  destruct (max / rdx <? v) eqn:E1.
  - cbn. assert (max / rdx + 1 <= v) by lia.
    assert (max < rdx * (max / rdx + 1)).
    { rewrite N.mul_add_distr_l, N.mul_1_r.
      pose proof (N.div_mod max rdx ltac:(lia)). pose proof (N.mod_lt max rdx ltac:(lia)). lia. }
    assert (rdx * (max / rdx + 1) <= v * rdx) by (rewrite (N.mul_comm v); apply N.mul_le_mono_l; lia).
    split; [|lia]. symmetry. apply N.leb_gt. lia.
  - destruct (max - d <? v * rdx) eqn:E2; cbn.
    + split; [symmetry; apply N.leb_gt; lia|lia].
    + split; [symmetry; apply N.leb_le; lia|reflexivity].
Qed.

Lemma umax32 : int_max 32 false = 4294967295.
Proof. vm_compute. reflexivity. Qed.
Lemma pow32 : 2 ^ 32 = 4294967296.
Proof. vm_compute. reflexivity. Qed.

Lemma int_add_checked_spec w sgn rdx v d :
  In w [8; 16; 32; 64; 128] -> 2 <= rdx <= 16 -> d < rdx -> rdx <= int_max w sgn -> v <= int_max w sgn ->
  let x := v * rdx + d in
  fst (int_add_checked w sgn rdx v d) = (x <=? int_max w sgn) /\
  (x <= int_max w sgn -> snd (int_add_checked w sgn rdx v d) = x).
Proof.
  intros Hw Hr Hd Hm Hv. unfold int_add_checked. cbn zeta.
  destruct (can_use_unsigned w sgn rdx) eqn:Ec.
  - assert (Hsmall : int_max w sgn * rdx + (rdx - 1) <= int_max 32 false).
    { unfold can_use_unsigned in Ec. destruct (32 <=? w); [discriminate|].
      destruct (int_add_general_spec (int_max 32 false) rdx (int_max w sgn) (rdx - 1)) as (H & _);
        try lia.
      - rewrite umax32. lia.
      - rewrite Ec in H. symmetry in H. apply N.leb_le in H. exact H. }
    assert (Hx : v * rdx + d < 2 ^ 32).
    { apply N.le_lt_trans with (int_max w sgn * rdx + (rdx - 1)).
      - apply N.add_le_mono; [apply N.mul_le_mono_r; lia|lia].
      - rewrite umax32 in Hsmall. rewrite pow32. lia. }
    rewrite N.mod_small by exact Hx.
    destruct (int_max w sgn <? v * rdx + d) eqn:E; cbn.
    + split; [symmetry; apply N.leb_gt; lia|lia].
    + split; [symmetry; apply N.leb_le; lia|reflexivity].
  - apply int_add_general_spec; lia.
Qed.

Lemma add_checked_ok t b v d : ity_ok t b -> d < radix b -> v <= ity_max t ->
  let x := v * radix b + d in
  fst (add_checked t (radix b) v d) = (x <=? ity_max t) /\
  (x <= ity_max t -> snd (add_checked t (radix b) v d) = x).
Proof.
  intros Hok Hd Hv. pose proof (radix_bounds b) as Hr. pose proof (ity_max_le t b Hok) as Hle.
  destruct (type_max_lt t b Hok) as (_ & Hrm).
  destruct t as [w sgn| |w sgn max]; unfold ity_ok in Hok; cbn [add_checked ity_max type_max] in *.
  - apply int_add_checked_spec; try lia; apply Hok.
  - destruct (int_add_checked_spec 32 false (radix b) v d) as (H1 & H2); try lia; [cbn; tauto|].
    cbn zeta in *. destruct (int_add_checked 32 false (radix b) v d) as [ok v'] eqn:E. cbn [fst snd] in *.
    rewrite umax32 in *.
    destruct ok; cbn [fst snd].
    + symmetry in H1. apply N.leb_le in H1. rewrite H2 by exact H1. split; [reflexivity|auto].
    + symmetry in H1. apply N.leb_gt in H1. split; [symmetry; apply N.leb_gt; lia|lia].
  - destruct Hok as (Hok1 & Hok2 & Hok3).
    destruct (int_add_checked_spec w sgn (radix b) v d) as (H1 & H2); try lia; [exact Hok2|].
    cbn zeta in *. destruct (int_add_checked w sgn (radix b) v d) as [ok v'] eqn:E. cbn [fst snd] in *.
    destruct ok; cbn [andb].
    + symmetry in H1. apply N.leb_le in H1. rewrite H2 by exact H1. split; [reflexivity|auto].
    + symmetry in H1. apply N.leb_gt in H1. split; [symmetry; apply N.leb_gt; lia|lia].
Qed.

(** ** The conversion loops *)

Lemma next_digit_spec assume b us : units32 us -> (assume = true -> Forall (is_digit b) us) ->
  match next_digit assume b us with
  | None => digits_of b us = []
  | Some (d, us') => digits_of b us = d :: digits_of b us' /\ d < radix b /\
      exists pre c, us = pre ++ c :: us' /\ digits_of b pre = []
  end.
Proof.
  intros Hu Ha. induction us as [|c us IH]; cbn [next_digit digits_of]; [reflexivity|].
  assert (Hc : c < 2 ^ 32) by now inversion Hu.
  pose proof (digit_value_spec b c Hc) as Hd. destruct assume.
  - specialize (Ha eq_refl). assert (Hdig : is_digit b c) by now inversion Ha.
    destruct Hdig as (d & Ed). rewrite Ed in *. rewrite Hd.
    split; [reflexivity|]. split; [eapply digit_of_lt; exact Ed|]. exists [], c. split; reflexivity.
  - destruct (digit_of b c) as [d|] eqn:Ed.
    + pose proof (digit_of_lt b c d Ed). rewrite Hd. replace (radix b <=? d) with false by lia.
      split; [reflexivity|]. split; [auto|]. exists [], c. split; reflexivity.
    + replace (radix b <=? digit_value b c) with true by lia.
      specialize (IH ltac:(now inversion Hu) ltac:(discriminate)).
      destruct (next_digit false b us) as [[d us']|]; [|exact IH].
      destruct IH as (H1 & H2 & pre & c' & H3 & H4). split; [exact H1|]. split; [exact H2|].
      exists (c :: pre), c'. split; [now rewrite H3|]. cbn [digits_of]. now rewrite Ed.
Qed.

Lemma units32_app l1 l2 : units32 (l1 ++ l2) <-> units32 l1 /\ units32 l2.
Proof. apply Forall_app. Qed.
Lemma ends_app_nonempty b pre us : us <> [] -> ends_with_digit b (pre ++ us) -> ends_with_digit b us.
Proof.
  intros Hne (us' & c & H & Hc).
  destruct (exists_last Hne) as (us0 & c0 & ->).
  rewrite app_assoc in H. apply app_inj_tail in H. destruct H as (_ & ->).
  exists us0, c. auto.
Qed.
Lemma ends_digits_nonempty b us : ends_with_digit b us -> digits_of b us <> [].
Proof.
  intros (us' & c & -> & d & Hd). clear -Hd. induction us' as [|x us' IH]; cbn [digits_of app].
  - now rewrite Hd.
  - destruct (digit_of b x); [discriminate|exact IH].
Qed.

Section Loop.
Variables (t : ity) (b : base) (assume : bool).
Hypothesis Hok : ity_ok t b.

Definition exact_or_overflow (v : N) (ends : Prop) (r : conv) : Prop :=
  exists val o, r = Conv val o /\
    (o = false -> val = v /\ v <= ity_max t) /\
    (ity_max t < v -> o = true) /\
    (v <= ity_max t -> ends -> o = false).

Lemma bounded_loop_spec : forall k us value,
  units32 us -> (assume = true -> Forall (is_digit b) us) ->
  (k < max_digit_count t (radix b))%nat ->
  let j := (max_digit_count t (radix b) - k)%nat in
  radix b ^ N.of_nat (j - 1) <= value -> value < radix b ^ N.of_nat j -> value <= ity_max t ->
  exact_or_overflow (number_from (radix b) value (digits_of b us))
    (us = [] \/ ends_with_digit b us) (bounded_loop k t b assume us value).
Proof.
  pose proof (radix_bounds b) as Hr.
  pose proof (ity_max_le t b Hok) as Hle. destruct (type_max_lt t b Hok) as (Htm & _).
  assert (Hmax : ity_max t < 2 ^ 129).
  { apply N.le_lt_trans with (type_max t); [exact Hle|]. apply N.lt_trans with (2 ^ 128); [exact Htm|].
    vm_compute; reflexivity. }
  destruct (digit_count_spec (radix b) (ity_max t) ltac:(lia) (proj1 Hok) Hmax) as (Hn2 & Hlow & Hhigh).
  change (digit_count (radix b) (ity_max t)) with (max_digit_count t (radix b)) in *.
  set (M := max_digit_count t (radix b)) in *.
  induction k as [|k IH]; intros us value Hu Ha Hk; cbn zeta; intros Hl Hh Hv; cbn [bounded_loop].
  - replace (M - 0)%nat with M in * by lia.
    eexists. eexists. split; [reflexivity|].
    destruct us as [|c us]; cbn [negb].
    + cbn [digits_of number_from fold_left]. repeat split; auto. lia.
    + split; [discriminate|]. split; [reflexivity|].
      intros Hx [H|He]; [discriminate|]. apply ends_digits_nonempty in He. exfalso.
      destruct (digits_of b (c :: us)) as [|d ds]; [congruence|].
      pose proof (number_from_mono (radix b) ds (value * radix b + d) ltac:(lia)) as H.
      cbn [number_from fold_left] in Hx. unfold number_from in H.
      assert (Hge : radix b ^ N.of_nat M <= value * radix b).
      { replace (N.of_nat M) with (N.succ (N.of_nat (M - 1))) by lia. rewrite N.pow_succ_r by lia.
        rewrite N.mul_comm. apply N.mul_le_mono_r. exact Hl. }
      lia.
  - pose proof (next_digit_spec assume b us Hu Ha) as Hnd.
    destruct (next_digit assume b us) as [[d us']|].
    2: { rewrite Hnd. cbn [number_from fold_left]. eexists. eexists. split; [reflexivity|].
         repeat split; auto. lia. }
    destruct Hnd as (Hds & Hd & pre & c & Hus & Hpre).
    assert (Hu' : units32 us').
    { rewrite Hus in Hu. apply units32_app in Hu. destruct Hu as (_ & Hu). now inversion Hu. }
    assert (Ha' : assume = true -> Forall (is_digit b) us').
    { intros E. specialize (Ha E). rewrite Hus in Ha. apply Forall_app in Ha.
      destruct Ha as (_ & Ha). now inversion Ha. }
    assert (Hend : us = [] \/ ends_with_digit b us -> us' = [] \/ ends_with_digit b us').
    { intros [->|He]; [destruct pre; discriminate|].
      destruct us' as [|c' us']; [auto|]. right.
      rewrite Hus in He. apply (ends_app_nonempty b (pre ++ [c])); [discriminate|].
      now rewrite <- app_assoc. }
    rewrite Hds. cbn [number_from fold_left].
    set (x := value * radix b + d) in *.
    assert (Hlow' : radix b ^ N.of_nat (M - S k) <= x).
    { replace (N.of_nat (M - S k)) with (N.succ (N.of_nat (M - S k - 1))) by lia.
      rewrite N.pow_succ_r by lia. unfold x.
      apply N.le_trans with (value * radix b); [|lia].
      rewrite (N.mul_comm value). apply N.mul_le_mono_l. exact Hl. }
    assert (Hhigh' : x < radix b ^ N.of_nat (M - k)).
    { replace (N.of_nat (M - k)) with (N.succ (N.of_nat (M - S k))) by lia.
      rewrite N.pow_succ_r by lia. unfold x.
      assert (H : value + 1 <= radix b ^ N.of_nat (M - S k)) by lia.
      apply (N.mul_le_mono_l _ _ (radix b)) in H. lia. }
    destruct k as [|k'].
    + destruct (add_checked_ok t b value d Hok Hd Hv) as (H1 & H2). cbn zeta in *. fold x in H1, H2.
      destruct (add_checked t (radix b) value d) as [ok v'] eqn:Eac. cbn [fst snd] in *.
      destruct ok.
      * symmetry in H1. apply N.leb_le in H1. rewrite (H2 H1).
        destruct (IH us' x Hu' Ha' ltac:(lia)) as (val & o & E & Q1 & Q2 & Q3); auto.
        { replace (M - 0 - 1)%nat with (M - 1)%nat by lia. exact Hlow'. }
        exists val, o. split; [exact E|]. split; [exact Q1|]. split; [exact Q2|].
        intros Hx He. apply Q3; auto.
      * symmetry in H1. apply N.leb_gt in H1.
        exists v', true. split; [reflexivity|]. split; [discriminate|]. split; [auto|].
        pose proof (number_from_mono (radix b) (digits_of b us') x ltac:(lia)) as Hm.
        unfold number_from in Hm. lia.
    + assert (Hx : x <= ity_max t).
      { apply N.le_trans with (radix b ^ N.of_nat (M - 1)); [|exact Hlow].
        apply N.le_trans with (radix b ^ N.of_nat (M - S k')); [lia|].
        apply N.pow_le_mono_r; lia. }
      rewrite add_unchecked_ok by (auto; exact Hx). fold x.
      destruct (IH us' x Hu' Ha' ltac:(lia)) as (val & o & E & Q1 & Q2 & Q3); auto.
      { replace (M - S k' - 1)%nat with (M - S (S k'))%nat by lia. exact Hlow'. }
      exists val, o. split; [exact E|]. split; [exact Q1|]. split; [exact Q2|].
      intros Hx' He. apply Q3; auto.
Qed.
End Loop.

Lemma first_nonzero_spec b us : units32 us ->
  match first_nonzero b us with
  | None => spelled b us = 0
  | Some (d, us') => spelled b us = number_from (radix b) d (digits_of b us') /\ 0 < d < radix b /\
      exists pre c, us = pre ++ c :: us'
  end.
Proof.
  unfold spelled, number. intros Hu. induction us as [|c us IH]; cbn [first_nonzero digits_of].
  - reflexivity.
  - assert (Hc : c < 2 ^ 32) by now inversion Hu.
    specialize (IH ltac:(now inversion Hu)).
    pose proof (digit_value_spec b c Hc) as Hd. pose proof (radix_bounds b) as Hr.
    destruct (digit_of b c) as [d|] eqn:Ed.
    + pose proof (digit_of_lt b c d Ed). rewrite Hd. destruct (N.eq_dec d 0) as [->|Hz].
      * cbn [N.eqb negb andb fold_left]. rewrite N.eqb_refl. cbn [negb andb].
        replace (0 * radix b + 0) with 0 by lia.
        destruct (first_nonzero b us) as [[d us']|]; [|exact IH].
        destruct IH as (H1 & H2 & pre & c' & H3). split; [exact H1|]. split; [exact H2|].
        exists (c :: pre), c'. now rewrite H3.
      * replace (negb (d =? 0) && (d <? radix b)) with true by lia.
        cbn [fold_left]. split; [|split; [lia|]].
        -- unfold number_from. f_equal; lia.
        -- exists [], c. reflexivity.
    + replace (negb (digit_value b c =? 0) && (digit_value b c <? radix b)) with false by lia.
      destruct (first_nonzero b us) as [[d us']|]; [|exact IH].
      destruct IH as (H1 & H2 & pre & c' & H3). split; [exact H1|]. split; [exact H2|].
      exists (c :: pre), c'. now rewrite H3.
Qed.

Lemma bounded_spec t b assume us : ity_ok t b -> units32 us ->
  (assume = true -> Forall (is_digit b) us) ->
  exact_or_overflow t (spelled b us) (us = [] \/ ends_with_digit b us) (bounded_parse t b assume us).
Proof.
  intros Hok Hu Ha. unfold bounded_parse.
  pose proof (first_nonzero_spec b us Hu) as Hf. pose proof (radix_bounds b) as Hr.
  destruct (first_nonzero b us) as [[d us']|].
  - destruct Hf as (E & Hd & pre & c & Hus). rewrite E.
    assert (Hu' : units32 us').
    { rewrite Hus in Hu. apply units32_app in Hu. destruct Hu as (_ & Hu). now inversion Hu. }
    assert (Ha' : assume = true -> Forall (is_digit b) us').
    { intros Ea. specialize (Ha Ea). rewrite Hus in Ha. apply Forall_app in Ha.
      destruct Ha as (_ & Ha). now inversion Ha. }
    assert (Hend : us = [] \/ ends_with_digit b us -> us' = [] \/ ends_with_digit b us').
    { intros [->|He]; [destruct pre; discriminate|].
      destruct us' as [|c' us']; [auto|]. right.
      rewrite Hus in He. apply (ends_app_nonempty b (pre ++ [c])); [discriminate|].
      now rewrite <- app_assoc. }
    pose proof (ity_max_le t b Hok) as Hle. destruct (type_max_lt t b Hok) as (Htm & _).
    assert (Hmax : ity_max t < 2 ^ 129).
    { apply N.le_lt_trans with (type_max t); [exact Hle|]. apply N.lt_trans with (2 ^ 128); [exact Htm|].
      vm_compute; reflexivity. }
    destruct (digit_count_spec (radix b) (ity_max t) ltac:(lia) (proj1 Hok) Hmax) as (Hn2 & _ & _).
    change (digit_count (radix b) (ity_max t)) with (max_digit_count t (radix b)) in *.
    destruct (bounded_loop_spec t b assume Hok (max_digit_count t (radix b) - 1) us' d Hu' Ha' ltac:(lia))
      as (val & o & Ep & Q1 & Q2 & Q3).
    + replace (max_digit_count t (radix b) - (max_digit_count t (radix b) - 1) - 1)%nat with 0%nat by lia.
      change (N.of_nat 0) with 0. rewrite N.pow_0_r. lia.
    + replace (max_digit_count t (radix b) - (max_digit_count t (radix b) - 1))%nat with 1%nat by lia.
      change (N.of_nat 1) with 1. rewrite N.pow_1_r. lia.
    + destruct Hok as (H & _). lia.
    + exists val, o. split; [exact Ep|]. split; [exact Q1|]. split; [exact Q2|]. auto.
  - rewrite Hf. exists 0, false. split; [reflexivity|]. repeat split; auto; try lia.
Qed.

(** The unchecked conversion of at most [n < max_digit_count] digits is exact. *)
Lemma unbounded_from_spec t b us : ity_ok t b -> units32 us -> forall v,
  number_from (radix b) v (digits_of b us) <= ity_max t ->
  unbounded_from t b us v = Conv (number_from (radix b) v (digits_of b us)) false.
Proof.
  intros Hok Hu. pose proof (radix_bounds b) as Hr.
  induction us as [|c us IH]; intros v Hv; cbn [unbounded_from digits_of].
  - reflexivity.
  - assert (Hc : c < 2 ^ 32) by now inversion Hu.
    specialize (IH ltac:(now inversion Hu)).
    pose proof (digit_value_spec b c Hc) as Hd. cbn [digits_of] in Hv.
    destruct (digit_of b c) as [d|] eqn:Ed.
    + pose proof (digit_of_lt b c d Ed). rewrite Hd. replace (radix b <=? d) with false by lia.
      cbn [number_from fold_left] in *.
      pose proof (number_from_mono (radix b) (digits_of b us) (v * radix b + d) ltac:(lia)) as Hm.
      unfold number_from in *.
      rewrite add_unchecked_ok by (auto; lia). apply IH. exact Hv.
    + replace (radix b <=? digit_value b c) with true by lia. apply IH. exact Hv.
Qed.

Lemma number_from_lt rdx ds : 1 <= rdx -> Forall (fun d => d < rdx) ds -> forall v,
  number_from rdx v ds < (v + 1) * rdx ^ N.of_nat (length ds).
Proof.
  intros Hr. induction ds as [|d ds IH]; intros Hd v; cbn [number_from fold_left length].
  - change (N.of_nat 0) with 0. rewrite N.pow_0_r. lia.
  - specialize (IH ltac:(now inversion Hd) (v * rdx + d)). unfold number_from in IH.
    assert (d < rdx) by now inversion Hd.
    rewrite Nat2N.inj_succ, N.pow_succ_r by lia.
    eapply N.lt_le_trans; [exact IH|]. rewrite N.mul_assoc. apply N.mul_le_mono_r. lia.
Qed.
Lemma digits_of_lt b us : Forall (fun d => d < radix b) (digits_of b us).
Proof.
  induction us as [|c us IH]; cbn [digits_of]; [constructor|].
  destruct (digit_of b c) as [d|] eqn:E; [|exact IH].
  constructor; [eapply digit_of_lt; exact E|exact IH].
Qed.

Lemma ndigits_spec n t b assume us : ity_ok t b -> units32 us ->
  (assume = true -> Forall (is_digit b) us) -> (length (digits_of b us) <= n)%nat ->
  exact_or_overflow t (spelled b us) (us = [] \/ ends_with_digit b us) (ndigits_parse n t b assume us).
Proof.
  intros Hok Hu Ha Hn. unfold ndigits_parse. destruct (_ <=? n)%nat eqn:E.
  - now apply bounded_spec.
  - pose proof (radix_bounds b) as Hr.
    pose proof (ity_max_le t b Hok) as Hle. destruct (type_max_lt t b Hok) as (Htm & _).
    assert (Hmax : ity_max t < 2 ^ 129).
    { apply N.le_lt_trans with (type_max t); [exact Hle|]. apply N.lt_trans with (2 ^ 128); [exact Htm|].
      vm_compute; reflexivity. }
    destruct (digit_count_spec (radix b) (ity_max t) ltac:(lia) (proj1 Hok) Hmax) as (Hn2 & Hlow & _).
    change (digit_count (radix b) (ity_max t)) with (max_digit_count t (radix b)) in *.
    set (M := max_digit_count t (radix b)) in *.
    assert (Hs : spelled b us <= ity_max t).
    { pose proof (number_from_lt (radix b) (digits_of b us) ltac:(lia) (digits_of_lt b us) 0) as H.
      rewrite N.add_0_l, N.mul_1_l in H.
      change (number_from (radix b) 0 (digits_of b us)) with (spelled b us) in H.
      apply N.le_trans with (radix b ^ N.of_nat (M - 1)); [|exact Hlow].
      apply N.le_trans with (radix b ^ N.of_nat (length (digits_of b us))); [lia|].
      apply N.pow_le_mono_r; lia. }
    exists (spelled b us), false. split; [|repeat split; auto; lia].
    unfold unbounded_parse. now rewrite unbounded_from_spec.
Qed.

(** ** Digit tokens *)
Lemma match_digit_spec b rest : match_digit b rest = true <-> exists c r, rest = c :: r /\ is_digit b c.
Proof.
  destruct rest as [|c r]; cbn [match_digit].
  - split; [discriminate|intros (c & r & H & _); discriminate].
  - rewrite class_digit. split; [eauto|]. intros (c' & r' & [= -> ->] & H). exact H.
Qed.
Lemma match_digit_false b rest : match_digit b rest = false <->
  match rest with c :: _ => ~ is_digit b c | [] => True end.
Proof.
  destruct rest as [|c r]; cbn [match_digit]; [tauto|]. apply class_digit_false.
Qed.

Lemma digit_run_spec b rest : maximal_digits b rest (digit_run b rest).
Proof.
  unfold maximal_digits. induction rest as [|c r IH]; cbn [digit_run].
  - cbn. auto.
  - destruct (class_table (base_class b) c) eqn:E.
    + cbn [firstn skipn length]. destruct IH as (H1 & H2 & H3).
      split; [lia|]. split; [|exact H3]. constructor; [|exact H2]. now apply class_digit.
    + cbn. split; [lia|]. split; [constructor|]. now apply class_digit_false.
Qed.

Lemma match_digits_spec b rest :
  snd (match_digits b rest) = digit_run b rest /\
  fst (match_digits b rest) = negb (digit_run b rest =? 0)%nat.
Proof.
  unfold match_digits. destruct rest as [|c r]; cbn; [auto|].
  destruct (class_table (base_class b) c); cbn; auto.
Qed.

(** One step of the separator loop, stated on the language. *)
Definition sep_result (b : base) (sep : list N -> option nat) (rest : list N) (ok : bool) (n : nat) : Prop :=
  if ok then (exists k, digit_text b sep rest k n) /\ stops b sep (skipn n rest)
  else exists k m j, digit_text b sep rest k m /\ sep (skipn m rest) = Some j /\ n = (m + j)%nat /\
         match skipn n rest with c :: _ => ~ is_digit b c | [] => True end.

Lemma sep_loop_spec b sep : sep_token b sep -> forall fuel c rest,
  is_digit b c -> (length rest < fuel)%nat -> forall pos,
  exists ok n, sep_loop fuel b sep rest pos = Some (ok, (pos + n)%nat) /\
    sep_result b sep (c :: rest) ok (S n).
Proof.
  intros Hsep. induction fuel as [|fuel IH]; intros c rest Hc Hf pos; [lia|]. cbn [sep_loop].
  destruct (sep rest) as [m|] eqn:Es.
  - destruct (Hsep rest m Es) as (Hm & _).
    destruct (match_digit b (skipn m rest)) eqn:Ed.
    + apply match_digit_spec in Ed. destruct Ed as (c' & r' & Er & Hc'). rewrite Er. cbn [tl].
      assert (Hlen : (length r' < fuel)%nat).
      { assert (length (skipn m rest) = S (length r')) by (now rewrite Er). rewrite skipn_length in H. lia. }
      destruct (IH c' r' Hc' Hlen (pos + m + 1)%nat) as (ok & n & E & Q).
      exists ok, (m + 1 + n)%nat. split; [rewrite E; do 2 f_equal; lia|].
      replace (S (m + 1 + n)) with (S (m + S n)) by lia.
      assert (Hsk : skipn (S (m + S n)) (c :: rest) = skipn (S n) (c' :: r')).
      { cbn [skipn]. rewrite <- skipn_skipn, Er. reflexivity. }
      destruct ok; cbn [sep_result] in *.
      * destruct Q as ((k & Q1) & Q2). split; [|now rewrite Hsk].
        exists (S k). apply DT_sep; auto. now rewrite Er.
      * destruct Q as (k & m' & j & Q1 & Q2 & Q3 & Q4).
        exists (S k), (S (m + m'))%nat, j. split; [apply DT_sep; auto; now rewrite Er|].
        assert (Hsk' : skipn (S (m + m')) (c :: rest) = skipn m' (c' :: r')).
        { cbn [skipn]. rewrite <- skipn_skipn, Er. reflexivity. }
        rewrite Hsk', Hsk. split; [exact Q2|]. split; [lia|exact Q4].
    + exists false, m. split; [reflexivity|]. cbn [sep_result].
      exists 1%nat, 1%nat, m. split; [now constructor|]. cbn [skipn].
      split; [exact Es|]. split; [lia|]. now apply match_digit_false.
  - destruct (match_digit b rest) eqn:Ed.
    + apply match_digit_spec in Ed. destruct Ed as (c' & r' & -> & Hc'). cbn [tl]. cbn [length] in Hf.
      destruct (IH c' r' Hc' ltac:(lia) (pos + 1)%nat) as (ok & n & E & Q).
      exists ok, (S n). split; [rewrite E; do 2 f_equal; lia|].
      destruct ok; cbn [sep_result] in *.
      * destruct Q as ((k & Q1) & Q2). split; [|exact Q2].
        exists (S k). now apply DT_next.
      * destruct Q as (k & m' & j & Q1 & Q2 & Q3 & Q4).
        exists (S k), (S m'), j. split; [now apply DT_next|]. split; [exact Q2|]. split; [lia|exact Q4].
    + exists true, 0%nat. split; [now rewrite Nat.add_0_r|]. cbn [sep_result skipn].
      split; [exists 1%nat; now constructor|]. split; [exact Es|]. now apply match_digit_false.
Qed.

Lemma match_digits_sep_spec b sep rest : sep_token b sep ->
  exists ok n, match_digits_sep b sep rest = Some (ok, n) /\
    ((ok = false /\ n = 0%nat /\ match rest with c :: _ => ~ is_digit b c | [] => True end) \/
     ((exists c r, rest = c :: r /\ is_digit b c) /\ sep_result b sep rest ok n)).
Proof.
  intros Hsep. unfold match_digits_sep. destruct (match_digit b rest) eqn:Ed.
  - apply match_digit_spec in Ed. destruct Ed as (c & r & -> & Hc). cbn [tl].
    destruct (sep_loop_spec b sep Hsep (S (length (c :: r))) c r Hc ltac:(cbn; lia) 1%nat) as (ok & n & E & Q).
    exists ok, (S n). split; [rewrite E; reflexivity|]. right. split; [eauto|exact Q].
  - exists false, 0%nat. split; [reflexivity|]. left. split; [auto|]. split; [auto|]. now apply match_digit_false.
Qed.

(** The language is unambiguous: one prefix at most stops. *)
Lemma digit_text_first b sep rest k n : digit_text b sep rest k n ->
  (exists c r, rest = c :: r /\ is_digit b c) /\ (1 <= n)%nat /\ (1 <= k)%nat.
Proof. intros H. inversion H; subst; (split; [eauto|lia]). Qed.

Lemma digit_text_unique b sep : sep_token b sep -> forall rest k n k' n',
  digit_text b sep rest k n -> digit_text b sep rest k' n' ->
  stops b sep (skipn n rest) -> stops b sep (skipn n' rest) -> n = n' /\ k = k'.
Proof.
  intros Hsep rest k n k' n' H. revert k' n'.
  induction H as [c r Hc|c r k n Hc H IH|c r m k n Hc Hs H IH]; intros k' n' H' S1 S2;
    inversion H' as [c0 r0 Hc0|c0 r0 k0 n0 Hc0 H0|c0 r0 m0 k0 n0 Hc0 Hs0 H0]; subst.
  - auto.
  - destruct (digit_text_first _ _ _ _ _ H0) as ((c1 & r1 & -> & Hd) & _). destruct S1 as (_ & S1). now cbn in S1.
  - destruct S1 as (S1 & _). cbn in S1. congruence.
  - destruct (digit_text_first _ _ _ _ _ H) as ((c1 & r1 & -> & Hd) & _). destruct S2 as (_ & S2). now cbn in S2.
  - destruct (IH _ _ H0) as (-> & ->); auto.
  - destruct (digit_text_first _ _ _ _ _ H) as ((c1 & r1 & -> & Hd) & _).
    destruct (Hsep _ _ Hs0) as (_ & Hn). contradiction.
  - destruct S2 as (S2 & _). cbn in S2. congruence.
  - destruct (digit_text_first _ _ _ _ _ H0) as ((c1 & r1 & -> & Hd) & _).
    destruct (Hsep _ _ Hs) as (_ & Hn). contradiction.
  - assert (m0 = m) by congruence. subst m0.
    cbn [skipn] in S1, S2. rewrite <- !skipn_skipn in *.
    destruct (IH _ _ H0) as (-> & ->); auto.
Qed.

Lemma leading_zero_spec rest ok n : (ok = true -> (1 <= n)%nat) ->
  leading_zero rest ok n =
    if ok && (1 <? n)%nat && (match rest with c :: _ => c =? 48 | [] => false end)
    then Tok false 1 true else Tok ok n false.
Proof.
  intros Hn. unfold leading_zero. destruct ok; cbn [andb]; [|reflexivity].
  specialize (Hn eq_refl). replace (negb (1 =? n)%nat) with (1 <? n)%nat; [reflexivity|].
  destruct (Nat.eq_dec n 1) as [->|]; [reflexivity|].
  replace (1 <? n)%nat with true by lia. replace (1 =? n)%nat with false by lia. reflexivity.
Qed.

Lemma ndigits_loop_spec b : forall n rest pos,
  exists m, ndigits_loop n b rest pos = Tok (m =? n)%nat (pos + m) false /\ (m <= n)%nat /\
    (m <= length rest)%nat /\ Forall (is_digit b) (firstn m rest) /\
    ((m < n)%nat -> match skipn m rest with c :: _ => ~ is_digit b c | [] => True end).
Proof.
  induction n as [|n IH]; intros rest pos; cbn [ndigits_loop].
  - exists 0%nat. cbn. rewrite Nat.add_0_r. repeat split; auto; lia.
  - destruct (match_digit b rest) eqn:E.
    + apply match_digit_spec in E. destruct E as (c & r & -> & Hc). cbn [tl].
      destruct (IH r (S pos)) as (m & H1 & H2 & H3 & H4 & H5).
      exists (S m). split; [rewrite H1; cbn [Nat.eqb]; f_equal; lia|].
      cbn [firstn skipn length]. repeat split; try lia; auto. intros; apply H5; lia.
    + exists 0%nat. split; [cbn; f_equal; lia|]. cbn. repeat split; auto; try lia.
      intros _. now apply match_digit_false.
Qed.

Lemma ndigits_s_loop_ok b sep : sep_token b sep -> forall n c rest pos, is_digit b c ->
  (forall e, ndigits_s_loop n b sep rest pos = Tok true (pos + e) false <->
     digit_text b sep (c :: rest) (S n) (S e)) /\
  (exists e ok, ndigits_s_loop n b sep rest pos = Tok ok (pos + e) false).
Proof.
  intros Hsep. induction n as [|n IH]; intros c rest pos Hc; cbn [ndigits_s_loop].
  - split; [|exists 0%nat, true; now rewrite Nat.add_0_r]. intros e. split.
    + intros [= H]. replace e with 0%nat by lia. now constructor.
    + intros H. inversion H as [?|? ? ? ? ? H0|? ? ? ? ? ? ? H0]; subst.
      * now rewrite Nat.add_0_r.
      * apply digit_text_first in H0. lia.
      * apply digit_text_first in H0. lia.
  - destruct (sep rest) as [m|] eqn:Es.
    + destruct (match_digit b (skipn m rest)) eqn:Ed.
      * apply match_digit_spec in Ed. destruct Ed as (c' & r' & Er & Hc'). rewrite Er. cbn [tl].
        destruct (IH c' r' (pos + m + 1)%nat Hc') as (H1 & e0 & ok & H2).
        split.
        -- intros e. split.
           ++ intros H. assert (He : (pos + e = pos + m + 1 + e0)%nat) by congruence.
              replace (pos + e)%nat with (pos + m + 1 + e0)%nat in H by lia.
              apply H1 in H. replace (S e) with (S (m + S e0)) by lia.
              apply DT_sep; auto. now rewrite Er.
           ++ intros H. inversion H as [?|? ? ? ? ? H0|? ? m' ? ne ? Hs0 H0]; subst.
              ** apply digit_text_first in H0. destruct H0 as ((c1 & r1 & -> & Hd) & _).
                 destruct (Hsep _ _ Es) as (_ & Hn). contradiction.
              ** assert (m' = m) by congruence. subst m'. rewrite Er in H0.
                 pose proof (digit_text_first _ _ _ _ _ H0) as (_ & Hne & _).
                 replace (pos + (m + ne))%nat with (pos + m + 1 + (ne - 1))%nat by lia.
                 apply H1. now replace (S (ne - 1)) with ne by lia.
        -- exists (m + 1 + e0)%nat, ok. rewrite H2. f_equal. lia.
      * split; [|exists m, false; reflexivity].
        intros e. split; [discriminate|]. intros H. exfalso.
        inversion H as [?|? ? ? ? ? H0|? ? m' ? ? ? Hs0 H0]; subst.
        -- apply digit_text_first in H0. destruct H0 as ((c1 & r1 & -> & Hd) & _).
           destruct (Hsep _ _ Es) as (_ & Hn). contradiction.
        -- assert (m' = m) by congruence. subst m'.
           apply digit_text_first in H0. destruct H0 as ((c1 & r1 & E1 & Hd) & _).
           rewrite E1 in Ed. cbn in Ed. apply class_digit in Hd. congruence.
    + cbn [skipn]. destruct (match_digit b rest) eqn:Ed.
      * apply match_digit_spec in Ed. destruct Ed as (c' & r' & -> & Hc'). cbn [tl].
        destruct (IH c' r' (pos + 0 + 1)%nat Hc') as (H1 & e0 & ok & H2).
        split.
        -- intros e. split.
           ++ intros H. assert (He : (pos + e = pos + 0 + 1 + e0)%nat) by congruence.
              replace (pos + e)%nat with (pos + 0 + 1 + e0)%nat in H by lia.
              apply H1 in H. replace (S e) with (S (S e0)) by lia. now apply DT_next.
           ++ intros H. inversion H as [?|? ? ? ne ? H0|? ? m' ? ? ? Hs0 H0]; subst.
              ** pose proof (digit_text_first _ _ _ _ _ H0) as (_ & Hne & _).
                 replace (pos + e)%nat with (pos + 0 + 1 + (e - 1))%nat by lia.
                 apply H1. now replace (S (e - 1)) with e by lia.
              ** congruence.
        -- exists (1 + e0)%nat, ok. rewrite H2. f_equal. lia.
      * split; [|exists 0%nat, false; reflexivity].
        intros e. split; [discriminate|]. intros H. exfalso.
        inversion H as [?|? ? ? ? ? H0|? ? m' ? ? ? Hs0 H0]; subst.
        -- apply digit_text_first in H0. destruct H0 as ((c1 & r1 & -> & Hd) & _).
           cbn in Ed. apply class_digit in Hd. congruence.
        -- congruence.
Qed.

(** A digit text ends with a digit. *)
Lemma digit_text_ends b sep rest k n : sep_token b sep -> digit_text b sep rest k n ->
  (n <= length rest)%nat /\ ends_with_digit b (firstn n rest).
Proof.
  intros Hsep H. induction H as [c r Hc|c r k n Hc H IH|c r m k n Hc Hs H IH].
  - cbn. split; [lia|]. exists [], c. auto.
  - destruct IH as (H1 & us & d & H2 & H3). cbn [length firstn]. split; [lia|].
    exists (c :: us), d. rewrite H2. auto.
  - destruct IH as (H1 & us & d & H2 & H3). destruct (Hsep _ _ Hs) as (Hm & _).
    rewrite skipn_length in H1. cbn [length firstn]. split; [lia|].
    exists (c :: firstn m r ++ us), d. split; [|exact H3].
    rewrite <- (firstn_skipn m r) at 1. rewrite firstn_app, firstn_firstn, firstn_length.
    replace (Nat.min (m + n) m) with m by lia.
    replace (m + n - Nat.min m (length r))%nat with n by lia.
    rewrite H2. rewrite app_assoc. reflexivity.
Qed.

Lemma all_digits_ends b us : Forall (is_digit b) us -> us = [] \/ ends_with_digit b us.
Proof.
  intros H. destruct (list_eq_dec N.eq_dec us []) as [|Hne]; [auto|]. right.
  destruct (exists_last Hne) as (us' & c & ->). apply Forall_app in H. destruct H as (_ & H).
  exists us', c. split; [reflexivity|]. now inversion H.
Qed.

Lemma units32_firstn n us : units32 us -> units32 (firstn n us).
Proof.
  intros H. rewrite <- (firstn_skipn n us) in H. apply units32_app in H. apply H.
Qed.

Lemma digit_run_skip b rest n : (n <= digit_run b rest)%nat ->
  (n + digit_run b (skipn n rest) = digit_run b rest)%nat.
Proof.
  revert rest. induction n as [|n IH]; intros rest H; [reflexivity|].
  destruct rest as [|c r]; cbn [digit_run] in *; [lia|].
  destruct (class_table (base_class b) c); [|lia]. cbn [skipn]. rewrite <- (IH r) by lia. lia.
Qed.

(** The integer rule over plain digits, including the recovery of no_leading_zero. *)
Lemma int_p_exact t b assume tk rest n :
  ity_ok t b -> units32 rest -> n <> 0%nat ->
  (assume = true -> Forall (is_digit b) (firstn n rest)) ->
  ends_with_digit b (firstn n rest) ->
  (if t_ok tk then t_end tk = n else (t_end tk + digit_run b (skipn (t_end tk) rest))%nat = n) ->
  int_exact t b rest n (int_p b (bounded_parse t b assume) tk rest).
Proof.
  intros Hok Hu Hn Ha He Ht.
  destruct (bounded_spec t b assume (firstn n rest) Hok (units32_firstn n rest Hu) Ha)
    as (v & o & Ec & Q1 & Q2 & Q3).
  specialize (fun H => Q3 H (or_intror He)).
  unfold int_p. destruct (t_ok tk) eqn:Eok.
  - rewrite Ht. cbn [negb andb]. rewrite Ec.
    exists v. split; [reflexivity|]. unfold overflow_reported. cbn [int_events].
    split.
    + intros Hv. specialize (Q3 Hv). subst o. destruct (Q1 eq_refl) as (-> & _).
      split; [reflexivity|]. intros (b0 & e0 & H). cbn in H. destruct H as [H|[]]. discriminate.
    + intros Hv. rewrite (Q2 Hv). exists 0%nat, n. cbn. auto.
  - rewrite Ht. cbn [negb andb]. replace (n =? 0)%nat with false by lia. rewrite Ec.
    exists v. split; [reflexivity|]. unfold overflow_reported. cbn [int_events].
    split.
    + intros Hv. specialize (Q3 Hv). subst o. destruct (Q1 eq_refl) as (-> & _).
      split; [reflexivity|]. intros (b0 & e0 & H). cbn in H.
      repeat (destruct H as [H|H]; [discriminate|]). exact H.
    + intros Hv. rewrite (Q2 Hv). exists 0%nat, n. cbn. auto 10.
Qed.

Lemma integer_digits t b rest : ity_ok t b -> units32 rest ->
  let n := digit_run b rest in
  (n = 0%nat -> forall assume, int_p b (bounded_parse t b assume) (digits_tok b rest) rest = IFail [ITokenError] /\
     int_p b (bounded_parse t b assume) (digits_t_tok b rest) rest = IFail [ITokenError]) /\
  (n <> 0%nat -> forall assume, int_exact t b rest n (int_p b (bounded_parse t b assume) (digits_tok b rest) rest) /\
     int_exact t b rest n (int_p b (bounded_parse t b assume) (digits_t_tok b rest) rest)).
Proof.
  intros Hok Hu. cbn zeta. destruct (match_digits_spec b rest) as (H1 & H2).
  destruct (digit_run_spec b rest) as (D1 & D2 & D3).
  unfold digits_tok, digits_t_tok. destruct (match_digits b rest) as [ok m]. cbn [fst snd] in *. subst m.
  split.
  - intros Hz assume. rewrite Hz in *. cbn in H2. subst ok.
    unfold leading_zero. cbn [andb]. unfold int_p. cbn [t_ok t_end negb andb].
    cbn [skipn]. rewrite Hz. cbn. auto.
  - intros Hnz assume. replace (digit_run b rest =? 0)%nat with false in H2 by lia. cbn in H2. subst ok.
    assert (He : ends_with_digit b (firstn (digit_run b rest) rest)).
    { destruct (all_digits_ends _ _ D2) as [H|H]; [|exact H]. exfalso.
      assert (Hl : length (firstn (digit_run b rest) rest) = digit_run b rest) by (rewrite firstn_length; lia).
      rewrite H in Hl. cbn in Hl. lia. }
    split; (apply int_p_exact; auto); [reflexivity|].
    rewrite leading_zero_spec by (intros; lia).
    destruct (_ && _) eqn:E; cbn [t_ok t_end]; [|reflexivity].
    apply digit_run_skip. lia.
Qed.

Lemma integer_sep t b sep rest tk : ity_ok t b -> units32 rest -> sep_token b sep ->
  digits_s_tok b sep rest = Some tk \/ digits_st_tok b sep rest = Some tk -> t_ok tk = true ->
  int_exact t b rest (t_end tk) (int_p b (bounded_parse t b false) tk rest).
Proof.
  intros Hok Hu Hs Htk Hk.
  destruct (match_digits_sep_spec b sep rest Hs) as (ok & n & E & Q).
  assert (Hend : ok = true /\ t_end tk = n).
  { unfold digits_s_tok, digits_st_tok in Htk. rewrite E in Htk. destruct Htk as [[= <-]|[= <-]].
    - auto.
    - unfold leading_zero in *. destruct (_ && _) eqn:Ez; cbn in *; [discriminate|auto]. }
  destruct Hend as (-> & <-).
  destruct Q as [(Q & _)|(_ & (k & Q) & _)]; [discriminate|].
  destruct (digit_text_ends _ _ _ _ _ Hs Q) as (_ & He).
  apply int_p_exact; auto.
  - apply digit_text_first in Q. lia.
  - discriminate.
  - now rewrite Hk.
Qed.

Lemma integer_ndigits n t b rest : ity_ok t b -> units32 rest -> (2 <= n)%nat ->
  t_ok (ndigits_tok n b rest) = true ->
  int_exact t b rest n (int_p b (ndigits_parse n t b true) (ndigits_tok n b rest) rest).
Proof.
  intros Hok Hu Hn Hk. unfold ndigits_tok in *.
  destruct (ndigits_loop_spec b n rest 0%nat) as (m & E & H1 & H2 & H3 & H4).
  rewrite E in *. cbn [t_ok] in Hk. assert (m = n) by lia. subst m. clear E.
  assert (Hl : length (firstn n rest) = n) by (rewrite firstn_length; lia).
  assert (He : ends_with_digit b (firstn n rest)).
  { destruct (all_digits_ends _ _ H3) as [H|H]; [|exact H]. rewrite H in Hl. cbn in Hl. lia. }
  assert (Hd : (length (digits_of b (firstn n rest)) <= n)%nat).
  { rewrite <- Hl at 2. generalize (firstn n rest). clear. intros l.
    induction l as [|c l IH]; cbn [digits_of length]; [lia|]. destruct (digit_of b c); cbn [length]; lia. }
  destruct (ndigits_spec n t b true (firstn n rest) Hok (units32_firstn n rest Hu) (fun _ => H3) Hd)
    as (v & o & Ec & Q1 & Q2 & Q3).
  specialize (fun H => Q3 H (or_intror He)).
  unfold int_p. rewrite Nat.add_0_l, Nat.eqb_refl. cbn [t_ok t_end negb andb]. rewrite Ec.
  exists v. split; [reflexivity|]. unfold overflow_reported. cbn [int_events].
  split.
  - intros Hv. specialize (Q3 Hv). subst o. destruct (Q1 eq_refl) as (-> & _).
    split; [reflexivity|]. intros (b0 & e0 & H). cbn in H. destruct H as [H|[]]. discriminate.
  - intros Hv. rewrite (Q2 Hv). exists 0%nat, n. cbn. auto.
Qed.

(** ** Digit tokens: the statements of C21 *)
Lemma digits_spec b rest :
  let n := t_end (digits_tok b rest) in
  maximal_digits b rest n /\ (t_ok (digits_tok b rest) = true <-> n <> 0%nat).
Proof.
  cbn zeta. destruct (match_digits_spec b rest) as (H1 & H2).
  unfold digits_tok. destruct (match_digits b rest) as [ok m]. cbn [fst snd t_end t_ok] in *. subst.
  split; [apply digit_run_spec|]. destruct (digit_run b rest); cbn; split; congruence.
Qed.

Lemma digits_t_spec b rest :
  (forall n, digits_t_tok b rest = Tok true n false <->
     digits_tok b rest = Tok true n false /\ (n = 1%nat \/ hd 0 rest <> 48)) /\
  (t_zero (digits_t_tok b rest) = true <->
     exists n, digits_tok b rest = Tok true n false /\ n <> 1%nat /\ hd 0 rest = 48) /\
  (t_zero (digits_t_tok b rest) = true -> digits_t_tok b rest = Tok false 1 true) /\
  (t_ok (digits_tok b rest) = false -> digits_t_tok b rest = Tok false 0 false).
Proof.
  destruct (match_digits_spec b rest) as (H1 & H2).
  unfold digits_tok, digits_t_tok.
  assert (Hz : fst (match_digits b rest) = true -> (1 <= snd (match_digits b rest))%nat).
  { rewrite H1, H2. destruct (digit_run b rest); [discriminate|lia]. }
  assert (Hf : fst (match_digits b rest) = false -> snd (match_digits b rest) = 0%nat).
  { rewrite H1, H2. destruct (digit_run b rest); [reflexivity|discriminate]. }
  destruct (match_digits b rest) as [ok m]. cbn [fst snd] in *.
  rewrite leading_zero_spec by exact Hz.
  assert (Hhd : (match rest with c :: _ => c =? 48 | [] => false end) = true <-> hd 0 rest = 48).
  { destruct rest as [|c r]; cbn; [split; discriminate|]. apply N.eqb_eq. }
  destruct (match rest with c :: _ => c =? 48 | [] => false end) eqn:Eh.
  - assert (Eq : hd 0 rest = 48) by (now apply Hhd). clear Hhd.
    destruct ok; cbn [andb]; [|].
    + specialize (Hz eq_refl). destruct (1 <? m)%nat eqn:Em; cbn [andb].
      * split; [|split; [|split]].
        -- intros n. split; [discriminate|]. intros ([= <-] & [H|H]); [lia|congruence].
        -- cbn. split; [|reflexivity]. intros _. exists m. split; [reflexivity|]. split; [lia|exact Eq].
        -- reflexivity.
        -- discriminate.
      * assert (m = 1%nat) by lia. subst m. split; [|split; [|split]].
        -- intros n. split; [intros Hn; injection Hn as <-; auto|]. intros (Hn & _). exact Hn.
        -- cbn. split; [discriminate|]. intros (n & Hn & Hn1 & _). injection Hn as <-. congruence.
        -- cbn. discriminate.
        -- discriminate.
    + rewrite (Hf eq_refl). split; [|split; [|split]].
      * intros n. split; [discriminate|]. intros (H & _). discriminate.
      * cbn. split; [discriminate|]. intros (n & H & _). discriminate.
      * cbn. discriminate.
      * reflexivity.
  - assert (Eq : hd 0 rest <> 48) by (intros H; apply Hhd in H; discriminate). clear Hhd.
    rewrite andb_false_r. split; [|split; [|split]].
    + intros n. split; [intros H; injection H as -> ->; auto|]. intros (H & _). exact H.
    + cbn. split; [discriminate|]. intros (n & _ & _ & H). contradiction.
    + cbn. discriminate.
    + cbn. intros ->. now rewrite (Hf eq_refl).
Qed.

Lemma digits_s_spec b sep rest : sep_token b sep ->
  exists tk, digits_s_tok b sep rest = Some tk /\
    (forall n, t_ok tk = true /\ t_end tk = n <->
       (exists k, digit_text b sep rest k n) /\ stops b sep (skipn n rest)) /\
    (t_ok tk = false ->
       (t_end tk = 0%nat /\ match rest with c :: _ => ~ is_digit b c | [] => True end) \/
       exists k m j, digit_text b sep rest k m /\ sep (skipn m rest) = Some j /\
         t_end tk = (m + j)%nat /\
         match skipn (t_end tk) rest with c :: _ => ~ is_digit b c | [] => True end) /\
    digits_st_tok b sep rest =
      Some (if t_ok tk && (1 <? t_end tk)%nat && (hd 0 rest =? 48) then Tok false 1 true else tk).
Proof.
  intros Hsep. destruct (match_digits_sep_spec b sep rest Hsep) as (ok & n & E & Q).
  unfold digits_s_tok, digits_st_tok. rewrite E. exists (Tok ok n false). split; [reflexivity|].
  cbn [t_ok t_end]. split; [|split].
  - intros n'. split.
    + intros (-> & <-). destruct Q as [(Q & _)|(_ & Q)]; [discriminate|exact Q].
    + intros ((k & Hk) & Hstop). destruct Q as [(-> & _ & Hd)|((c & r & Er & Hc) & Q)].
      * apply digit_text_first in Hk. destruct Hk as ((c & r & -> & Hc) & _). contradiction.
      * destruct ok; cbn [sep_result] in Q.
        -- destruct Q as ((k0 & Q1) & Q2). split; [reflexivity|].
           exact (proj1 (digit_text_unique b sep Hsep rest k0 n k n' Q1 Hk Q2 Hstop)).
        -- exfalso. destruct Q as (k0 & m & j & Q1 & Q2 & Q3 & Q4).
           (* a text followed by a dangling separator: no other prefix stops *)
           clear Er Hc c r E. revert n' k Hk Hstop n Q3 Q4.
           induction Q1 as [c r Hc|c r k1 n1 Hc H IH|c r m1 k1 n1 Hc Hs H IH];
             intros n' k Hk Hstop n Q3 Q4.
           ++ cbn [skipn] in Q2. inversion Hk as [?|? ? ? ? ? H0|? ? ? ? ? ? Hs0 H0]; subst.
              ** destruct Hstop as (Hstop & _). cbn in Hstop. congruence.
              ** apply digit_text_first in H0. destruct H0 as ((c1 & r1 & -> & Hd) & _).
                 destruct (Hsep _ _ Q2) as (_ & Hn). contradiction.
              ** assert (m = j) by congruence. subst m. cbn [skipn Nat.add] in Q4.
                 apply digit_text_first in H0. destruct H0 as ((c1 & r1 & E1 & Hd) & _).
                 rewrite E1 in Q4. contradiction.
           ++ inversion Hk as [?|? ? ? ? ? H0|? ? ? ? ? ? Hs0 H0]; subst.
              ** apply digit_text_first in H. destruct H as ((c1 & r1 & -> & Hd) & _).
                 destruct Hstop as (_ & Hstop). cbn in Hstop. contradiction.
              ** eapply (IH Q2 _ _ H0 Hstop (n1 + j)%nat eq_refl). exact Q4.
              ** apply digit_text_first in H. destruct H as ((c1 & r1 & -> & Hd) & _).
                 destruct (Hsep _ _ Hs0) as (_ & Hn). contradiction.
           ++ inversion Hk as [?|? ? ? ? ? H0|? ? ? ? ? ? Hs0 H0]; subst.
              ** destruct Hstop as (Hstop & _). cbn in Hstop. congruence.
              ** apply digit_text_first in H0. destruct H0 as ((c1 & r1 & -> & Hd) & _).
                 destruct (Hsep _ _ Hs) as (_ & Hn). contradiction.
              ** assert (m = m1) by congruence. subst m.
                 cbn [skipn Nat.add] in Q2, Q4, Hstop.
                 rewrite <- skipn_skipn in Q2, Hstop.
                 replace (m1 + n1 + j)%nat with (m1 + (n1 + j))%nat in Q4 by lia.
                 rewrite <- skipn_skipn in Q4.
                 eapply (IH Q2 _ _ H0 Hstop (n1 + j)%nat eq_refl). exact Q4.
  - intros ->. destruct Q as [(_ & -> & Hd)|(_ & Q)]; [left; auto|right; exact Q].
  - f_equal. rewrite leading_zero_spec.
    + destruct rest as [|c r]; [|reflexivity]. cbn [hd].
      rewrite andb_false_r. replace (0 =? 48) with false by reflexivity. now rewrite andb_false_r.
    + intros ->. destruct Q as [(Q & _)|(_ & (k & Q) & _)]; [discriminate|].
      apply digit_text_first in Q. lia.
Qed.

Lemma ndigits_tok_spec n b rest :
  (t_ok (ndigits_tok n b rest) = true <->
     (n <= length rest)%nat /\ Forall (is_digit b) (firstn n rest)) /\
  (t_ok (ndigits_tok n b rest) = true -> t_end (ndigits_tok n b rest) = n).
Proof.
  unfold ndigits_tok. destruct (ndigits_loop_spec b n rest 0%nat) as (m & E & H1 & H2 & H3 & H4).
  rewrite E. cbn [t_ok t_end]. rewrite Nat.eqb_eq. split; [split|].
  - intros ->. auto.
  - intros (Hn & Hf). destruct (Nat.eq_dec m n) as [|Hne]; [assumption|exfalso].
    specialize (H4 ltac:(lia)). rewrite <- (firstn_skipn m rest) in Hf.
    rewrite firstn_app, firstn_firstn, firstn_length in Hf. apply Forall_app in Hf. destruct Hf as (_ & Hf).
    assert (Hl : (length (skipn m rest) >= 1)%nat) by (rewrite skipn_length; lia).
    destruct (skipn m rest) as [|c r]; [cbn in Hl; lia|].
    destruct (n - Nat.min m (length rest))%nat as [|q] eqn:Eq; [lia|]. cbn in Hf. now inversion Hf.
  - intros ->. lia.
Qed.

Lemma ndigits_s_tok_spec n b sep rest : sep_token b sep -> (1 <= n)%nat ->
  forall e, (t_ok (ndigits_s_tok n b sep rest) = true /\ t_end (ndigits_s_tok n b sep rest) = e) <->
    digit_text b sep rest n e.
Proof.
  intros Hsep Hn e. unfold ndigits_s_tok. destruct (match_digit b rest) eqn:E.
  - apply match_digit_spec in E. destruct E as (c & r & -> & Hc). cbn [tl].
    destruct (ndigits_s_loop_ok b sep Hsep (n - 1) c r 1%nat Hc) as (H1 & e0 & ok & H2).
    replace (S (n - 1)) with n in H1 by lia. rewrite H2. cbn [t_ok t_end]. split.
    + intros (-> & <-). apply H1 in H2. exact H2.
    + intros H. pose proof (digit_text_first _ _ _ _ _ H) as (_ & He & _).
      destruct e as [|e]; [lia|]. apply H1 in H. rewrite H in H2. injection H2 as <- H2. split; [reflexivity|lia].
  - cbn [t_ok t_end]. split; [intros (H & _); discriminate|].
    intros H. apply digit_text_first in H. destruct H as ((c & r & -> & Hc) & _).
    cbn in E. apply class_digit in Hc. congruence.
Qed.

Lemma single_sep_token b u : ~ is_digit b u ->
  sep_token b (fun l => match l with c :: _ => if c =? u then Some 1%nat else None | [] => None end).
Proof.
  intros Hu rest m. destruct rest as [|c r]; [discriminate|]. destruct (c =? u) eqn:E; [|discriminate].
  intros [= <-]. apply N.eqb_eq in E. subst. cbn. split; [lia|exact Hu].
Qed.
