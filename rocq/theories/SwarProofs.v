(** Proofs about the SWAR predicates, filters and scanning loops. *)
From Verif Require Import Prelude SwarModel SwarSpec SwarLanes.
Open Scope N_scope.

(** ** Word predicates *)

Definition msb (w : N) : N := 2 ^ (w - 1).

Lemma msb_pow w : width_ok w -> 2 ^ w = 2 * msb w /\ 128 <= msb w.
Proof. intros [->|[->| ->]]; vm_compute; split; congruence. Qed.

(** The word tested by [has_char_less], lane by lane. *)
Lemma land_msb w d x :
  width_ok w -> d < 2 ^ w -> x < 2 ^ w ->
  (N.land d (N.land (2 ^ w - 1 - x) (msb w)) =? 0) = negb ((msb w <=? d) && (x <? msb w)).
Proof.
  intros Hw Hd Hx. destruct (msb_pow w Hw) as [Hp _].
  assert (B : forall y, y < 2 ^ w -> N.land y (msb w) = if msb w <=? y then msb w else 0).
  { intros y Hy. unfold msb in *.
    apply N.bits_inj. intros i. rewrite N.land_spec, N.pow2_bits_eqb.
    destruct (N.eqb_spec (w - 1) i) as [<-|Hne].
    - rewrite andb_true_r.
      destruct (N.leb_spec (2 ^ (w - 1)) y) as [Hle|Hlt].
      + rewrite N.pow2_bits_true.
        assert (E : y = (y - 2 ^ (w - 1)) + 2 ^ (w - 1) * 1) by lia.
        rewrite E, testbit_cons by lia. rewrite N.ltb_irrefl, N.sub_diag. reflexivity.
      + rewrite N.bits_0. apply lt_pow2_testbit with (w - 1); lia.
    - rewrite andb_false_r. destruct (2 ^ (w - 1) <=? y).
      + symmetry. now apply N.pow2_bits_false.
      + now rewrite N.bits_0. }
  rewrite (B (2 ^ w - 1 - x)) by lia.
  destruct (N.leb_spec (msb w) (2 ^ w - 1 - x)) as [H1|H1].
  - rewrite (B d) by exact Hd.
    destruct (N.leb_spec (msb w) d); destruct (N.ltb_spec x (msb w)); cbn [andb negb];
      try lia; destruct (N.eqb_spec (msb w) 0); lia || reflexivity.
  - rewrite N.land_0_r. destruct (N.ltb_spec x (msb w)); [lia|].
    rewrite andb_false_r. reflexivity.
Qed.

Lemma pack_zero w l : lanes w l -> (pack w l =? 0) = forallb (fun x => x =? 0) l.
Proof.
  induction 1 as [|x l Hx Hl IH]; cbn [pack forallb]; [reflexivity|].
  rewrite <- IH. pose proof (pow_pos w).
  destruct (N.eqb_spec x 0) as [->|Hne]; cbn [andb].
  - destruct (N.eqb_spec (pack w l) 0) as [->|Hne].
    + rewrite N.mul_0_r. reflexivity.
    + apply N.eqb_neq. assert (2 ^ w * pack w l <> 0) by (apply N.neq_mul_0; lia). lia.
  - apply N.eqb_neq. lia.
Qed.

Fixpoint less_hit (w n bor : N) (l : list N) : bool :=
  match l with
  | [] => false
  | x :: l' =>
    ((msb w <=? (x + 2 ^ w - n - bor) mod 2 ^ w) && (x <? msb w))
    || less_hit w n (if x <? n + bor then 1 else 0) l'
  end.

Lemma lanes_map w f l : (forall x, x < 2 ^ w -> f x < 2 ^ w) -> lanes w l -> lanes w (map f l).
Proof. intros Hf. induction 1; cbn [map]; constructor; auto. Qed.

Lemma lanes_map2 w f a : forall b, (forall x y, x < 2 ^ w -> y < 2 ^ w -> f x y < 2 ^ w) ->
  lanes w a -> lanes w b -> lanes w (map2 f a b).
Proof.
  induction a as [|x a IH]; intros [|y b] Hf Ha Hb; cbn [map2]; try constructor.
  - inversion Ha; inversion Hb; auto.
  - inversion Ha; inversion Hb; apply IH; auto.
Qed.

Lemma has_less_hit w n l :
  width_ok w -> n < 2 ^ w -> word_lanes w l ->
  swar_has_char_less w n (pack w l) = less_hit w n 0 l.
Proof.
  intros Hw Hn Hl. unfold swar_has_char_less.
  destruct (msb_pow w Hw) as [Hp _]. fold (msb w).
  rewrite (fill_pack w n Hw Hn), (fill_pack w (msb w) Hw) by (unfold msb in *; pose proof (pow_pos (w-1)); lia).
  rewrite wsub_pack; [|exact Hw|exact Hl|].
  2:{ split; [now apply lanes_repeat | apply repeat_length]. }
  rewrite wnot_pack by assumption.
  destruct Hl as [Hl Hk]. rewrite <- Hk.
  assert (Hc : lanes w (map (fun x => 2 ^ w - 1 - x) l)).
  { apply lanes_map; [|exact Hl]. intros x Hx. lia. }
  assert (Hm : lanes w (repeat (msb w) (length l))).
  { apply lanes_repeat. unfold msb in *; pose proof (pow_pos (w-1)); lia. }
  rewrite pack_land; [|exact Hc|exact Hm|now rewrite map_length, repeat_length].
  rewrite pack_land; [|apply sub_lanes_lanes| |].
  2:{ apply lanes_map2; auto. intros; now apply land_lt. }
  2:{ rewrite sub_lanes_length, map2_length by now rewrite ?map_length, ?repeat_length.
      now rewrite map_length. }
  rewrite pack_zero.
  2:{ apply lanes_map2; [intros; now apply land_lt|apply sub_lanes_lanes|].
      apply lanes_map2; auto. intros; now apply land_lt. }
  clear Hc Hm Hk.
  enough (G : forall bor, negb (forallb (fun x => x =? 0)
    (map2 N.land (sub_lanes w bor l (repeat n (length l)))
       (map2 N.land (map (fun x => 2 ^ w - 1 - x) l) (repeat (msb w) (length l)))))
    = less_hit w n bor l) by apply G.
  induction Hl as [|x l Hx Hl IH]; intros bor; cbn [length repeat map map2 sub_lanes forallb less_hit];
    [reflexivity|].
  rewrite negb_andb. f_equal.
  - rewrite (land_msb w) ; [apply negb_involutive|exact Hw| |exact Hx].
    apply N.mod_upper_bound. pose proof (pow_pos w); lia.
  - apply IH.
Qed.

Lemma less_hit_spec w n l :
  width_ok w -> n <= msb w -> lanes w l ->
  less_hit w n 0 l = existsb (fun x => x <? n) l.
Proof.
  intros Hw Hn. destruct (msb_pow w Hw) as [Hp Hm].
  induction 1 as [|x l Hx Hl IH]; cbn [less_hit existsb]; [reflexivity|].
  rewrite N.add_0_r, N.sub_0_r.
  destruct (N.ltb_spec x n) as [Hlt|Hge].
  - rewrite N.mod_small by lia.
    destruct (N.leb_spec (msb w) (x + 2 ^ w - n)); [|lia].
    destruct (N.ltb_spec x (msb w)); [|lia]. reflexivity.
  - rewrite IH. replace (x + 2 ^ w - n) with (x - n + 1 * 2 ^ w) by lia.
    rewrite N.mod_add by lia. rewrite N.mod_small by lia.
    destruct (N.leb_spec (msb w) (x - n)); destruct (N.ltb_spec x (msb w)); try lia; reflexivity.
Qed.

Lemma has_less_spec w n l :
  width_ok w -> n <= msb w -> word_lanes w l ->
  swar_has_char_less w n (pack w l) = existsb (fun x => x <? n) l.
Proof.
  intros Hw Hn Hl. destruct (msb_pow w Hw).
  rewrite has_less_hit by (assumption || lia).
  apply less_hit_spec; [exact Hw|exact Hn|apply Hl].
Qed.

Lemma existsb_map {A B} (f : B -> bool) (g : A -> B) l :
  existsb f (map g l) = existsb (fun x => f (g x)) l.
Proof. induction l; cbn [map existsb]; congruence. Qed.

Lemma existsb_ext {A} (f g : A -> bool) l :
  (forall x, f x = g x) -> existsb f l = existsb g l.
Proof. intros H. induction l; cbn [existsb]; [reflexivity|]. now rewrite H, IHl. Qed.

Lemma existsb_ext_in {A} (f g : A -> bool) l :
  (forall x, In x l -> f x = g x) -> existsb f l = existsb g l.
Proof.
  intros H. induction l as [|x l IH]; cbn [existsb]; [reflexivity|].
  rewrite H by now left. rewrite IH; [reflexivity|]. intros y Hy. apply H. now right.
Qed.

Lemma has_zero_spec w l :
  width_ok w -> word_lanes w l -> swar_has_zero w (pack w l) = existsb (fun x => x =? 0) l.
Proof.
  intros Hw Hl. unfold swar_has_zero. destruct (msb_pow w Hw).
  rewrite has_less_spec by (assumption || lia).
  apply existsb_ext. intros x. destruct (N.ltb_spec x 1); destruct (N.eqb_spec x 0); lia || reflexivity.
Qed.

Lemma has_char_spec w c l :
  width_ok w -> c < 2 ^ w -> word_lanes w l ->
  swar_has_char w c (pack w l) = existsb (fun x => x =? c) l.
Proof.
  intros Hw Hc Hl. unfold swar_has_char. destruct (N.eqb_spec c 0) as [->|Hne].
  { now apply has_zero_spec. }
  rewrite (fill_pack w c Hw Hc). destruct Hl as [Hl Hk]. rewrite <- Hk.
  rewrite pack_lxor; [|exact Hl|now apply lanes_repeat|now rewrite repeat_length].
  rewrite map2_repeat, has_zero_spec; [|exact Hw|].
  2:{ split; [|now rewrite map_length].
      apply lanes_map; [|exact Hl]. intros. now apply lxor_lt. }
  rewrite existsb_map. apply existsb_ext. intros x.
  destruct (N.eqb_spec x c) as [->|Hx].
  - rewrite N.lxor_nilpotent. reflexivity.
  - apply N.eqb_neq. intros E. apply Hx. now apply N.lxor_eq in E.
Qed.

(** ** Trailing zeros and the first difference *)
Lemma pos_ctz_spec p : N.testbit (Npos p) (pos_ctz p) = true /\
  forall i, i < pos_ctz p -> N.testbit (Npos p) i = false.
Proof.
  induction p as [p IH|p IH|]; cbn [pos_ctz].
  - split; [reflexivity|]. intros i Hi. lia.
  - destruct IH as [H1 H2]. change (N.pos p~0) with (2 * N.pos p). split.
    + rewrite N.double_bits_succ. exact H1.
    + intros i Hi. destruct (N.eq_dec i 0) as [->|Hz].
      * apply N.testbit_even_0.
      * replace i with (N.succ (i - 1)) by lia. rewrite N.double_bits_succ. apply H2. lia.
  - split; [reflexivity|]. intros i Hi. lia.
Qed.

Lemma ctz_unique v k :
  N.testbit v k = true -> (forall i, i < k -> N.testbit v i = false) -> ctz v = k.
Proof.
  intros Hk Hlow. destruct v as [|p]; [now rewrite N.bits_0 in Hk|]. cbn [ctz].
  destruct (pos_ctz_spec p) as [H1 H2].
  destruct (N.lt_trichotomy (pos_ctz p) k) as [H|[H|H]]; [|exact H|].
  - apply Hlow in H. congruence.
  - apply H2 in H. congruence.
Qed.

Lemma ctz_spec v : v <> 0 -> N.testbit v (ctz v) = true /\
  forall i, i < ctz v -> N.testbit v i = false.
Proof. destruct v as [|p]; [congruence|]. intros _. apply pos_ctz_spec. Qed.

Lemma ctz_lt v w : v <> 0 -> v < 2 ^ w -> ctz v < w.
Proof.
  intros Hv Hw. destruct (N.lt_ge_cases (ctz v) w) as [H|H]; [exact H|].
  destruct (ctz_spec v Hv) as [H1 _]. now rewrite (lt_pow2_testbit v w) in H1.
Qed.

Lemma ctz_cons w x X :
  x < 2 ^ w -> (x <> 0 \/ X <> 0) ->
  ctz (x + 2 ^ w * X) = if x =? 0 then w + ctz X else ctz x.
Proof.
  intros Hx Hn. destruct (N.eqb_spec x 0) as [->|Hx0].
  - destruct Hn as [Hn|Hn]; [congruence|]. destruct (ctz_spec X Hn) as [H1 H2].
    apply ctz_unique.
    + rewrite testbit_cons by exact Hx. destruct (N.ltb_spec (w + ctz X) w); [lia|].
      now replace (w + ctz X - w) with (ctz X) by lia.
    + intros i Hi. rewrite testbit_cons by exact Hx. destruct (N.ltb_spec i w).
      * apply N.bits_0.
      * apply H2. lia.
  - destruct (ctz_spec x Hx0) as [H1 H2]. pose proof (ctz_lt x w Hx0 Hx).
    apply ctz_unique.
    + rewrite testbit_cons by exact Hx. destruct (N.ltb_spec (ctz x) w); [exact H1|lia].
    + intros i Hi. rewrite testbit_cons by exact Hx. destruct (N.ltb_spec i w); [now apply H2|lia].
Qed.

Lemma find_diff_lanes w a : forall b,
  0 < w -> lanes w a -> lanes w b -> length a = length b -> a <> b ->
  N.to_nat (ctz (pack w (map2 N.lxor a b)) / w) = first_diff a b.
Proof.
  induction a as [|x a IH]; intros [|y b] Hw Ha Hb Hl Hne; simpl in Hl; try lia; [congruence|].
  inversion Ha as [|? ? Hx Ha']; inversion Hb as [|? ? Hy Hb']; subst.
  cbn [map2 pack first_diff].
  assert (Hl2 : lanes w (map2 N.lxor a b)).
  { apply lanes_map2; auto. intros; now apply lxor_lt. }
  destruct (N.eqb_spec x y) as [->|Hxy].
  - rewrite N.lxor_nilpotent. assert (Hab : a <> b) by congruence.
    assert (Hz : pack w (map2 N.lxor a b) <> 0).
    { rewrite <- pack_lxor by (assumption || lia). intros E. apply N.lxor_eq in E.
      apply Hab. eapply pack_inj; eauto. }
    rewrite ctz_cons; [|apply pow_pos|now right]. cbn [N.eqb].
    replace (0 =? 0) with true by reflexivity.
    replace (w + ctz (pack w (map2 N.lxor a b))) with (ctz (pack w (map2 N.lxor a b)) + 1 * w) by lia.
    rewrite N.div_add by lia. rewrite <- (IH b Hw Ha' Hb' ltac:(lia) Hab). lia.
  - assert (Hz : N.lxor x y <> 0) by (intros E; apply N.lxor_eq in E; congruence).
    rewrite ctz_cons; [|now apply lxor_lt|now left].
    destruct (N.eqb_spec (N.lxor x y) 0); [congruence|].
    rewrite N.div_small; [reflexivity|]. apply ctz_lt; [exact Hz|now apply lxor_lt].
Qed.

Lemma first_diff_refl a : first_diff a a = length a.
Proof. induction a as [|x a IH]; cbn [first_diff length]; [reflexivity|]. now rewrite N.eqb_refl, IH. Qed.

Lemma find_difference_spec w a b :
  width_ok w -> word_lanes w a -> word_lanes w b ->
  swar_find_difference w (pack w a) (pack w b) = first_diff a b.
Proof.
  intros Hw [Ha Na] [Hb Nb]. unfold swar_find_difference.
  destruct (N.eqb_spec (pack w a) (pack w b)) as [E|E].
  - apply pack_inj in E; [|assumption|assumption|congruence]. subst. rewrite first_diff_refl. congruence.
  - rewrite pack_lxor by (assumption || congruence).
    apply find_diff_lanes; try assumption; [destruct Hw as [->|[->| ->]]; lia|congruence|congruence].
Qed.

(** ** Class filters *)
Lemma pack_eqb w a b :
  lanes w a -> lanes w b -> length a = length b -> (pack w a =? pack w b) = true -> a = b.
Proof. intros Ha Hb Hl E. apply N.eqb_eq in E. now apply (pack_inj w). Qed.

(** Masked comparison against a constant: every lane, rounded down, is the constant. *)
Lemma masked_eq w j e l :
  width_ok w -> j <= w -> e < 2 ^ w -> word_lanes w l ->
  (N.land (pack w l) (swar_fill_compl w (2 ^ j - 1)) =? swar_fill w e) = true ->
  Forall (fun x => x / 2 ^ j * 2 ^ j = e) l.
Proof.
  intros Hw Hj He [Hl Hk] H.
  assert (Hc : 2 ^ j - 1 < 2 ^ w).
  { pose proof (pow_pos j). assert (2 ^ j <= 2 ^ w) by (apply N.pow_le_mono_r; lia). lia. }
  rewrite fill_compl_pack, fill_pack, <- Hk in H by assumption.
  rewrite pack_land in H; [|exact Hl|apply lanes_repeat; lia|now rewrite repeat_length].
  rewrite map2_repeat in H.
  apply pack_eqb in H.
  - clear Hk. induction Hl as [|x l Hx Hl IH]; [constructor|].
    cbn [map length repeat] in H. injection H as H1 H2. constructor; [|now apply IH].
    rewrite <- H1. symmetry. now apply land_compl.
  - apply lanes_map; [|exact Hl]. intros; now apply land_lt.
  - now apply lanes_repeat.
  - now rewrite map_length, repeat_length.
Qed.

Lemma word_repeat w c : width_ok w -> c < 2 ^ w -> word_lanes w (repeat c (swar_length w)).
Proof. intros Hw Hc. split; [now apply lanes_repeat|apply repeat_length]. Qed.

Lemma sub_filter w j e y l :
  width_ok w -> j <= w -> e < 2 ^ w -> y < 2 ^ w -> word_lanes w l ->
  (N.land (wsub (pack w l) (swar_fill w y)) (swar_fill_compl w (2 ^ j - 1)) =? swar_fill w e) = true ->
  Forall (fun d => d / 2 ^ j * 2 ^ j = e) (sub_lanes w 0 l (repeat y (length l))).
Proof.
  intros Hw Hj He Hy Hl H. rewrite (fill_pack w y Hw Hy), wsub_pack in H;
    [|exact Hw|exact Hl|now apply word_repeat].
  destruct Hl as [Hl Hk]. rewrite Hk. eapply masked_eq; [exact Hw|exact Hj|exact He| |exact H].
  split; [apply sub_lanes_lanes|]. rewrite sub_lanes_length; [exact Hk|].
  now rewrite repeat_length.
Qed.
Lemma add_filter w j e y l :
  width_ok w -> j <= w -> e < 2 ^ w -> y < 2 ^ w -> word_lanes w l ->
  (N.land (wadd (pack w l) (swar_fill w y)) (swar_fill_compl w (2 ^ j - 1)) =? swar_fill w e) = true ->
  Forall (fun d => d / 2 ^ j * 2 ^ j = e) (add_lanes w 0 l (repeat y (length l))).
Proof.
  intros Hw Hj He Hy Hl H. rewrite (fill_pack w y Hw Hy), wadd_pack in H;
    [|exact Hw|exact Hl|now apply word_repeat].
  destruct Hl as [Hl Hk]. rewrite Hk. eapply masked_eq; [exact Hw|exact Hj|exact He| |exact H].
  split; [apply add_lanes_lanes|]. rewrite add_lanes_length; [exact Hk|].
  now rewrite repeat_length.
Qed.

(** If no good lane can have borrowed, no borrow ever happens. *)
Lemma sub_no_borrow w (good : N -> Prop) y l :
  lanes w l -> y < 2 ^ w ->
  (forall x, x < y -> ~ good (x + 2 ^ w - y)) ->
  Forall good (sub_lanes w 0 l (repeat y (length l))) ->
  Forall (fun x => y <= x /\ good (x - y)) l.
Proof.
  intros Hl Hy Hg. induction Hl as [|x l Hx Hl IH]; cbn [length repeat sub_lanes]; intros H; [constructor|].
  inversion H as [|? ? H1 H2]; subst. rewrite N.add_0_r, N.sub_0_r in *.
  destruct (N.ltb_spec x y) as [Hlt|Hge].
  - exfalso. apply (Hg x Hlt). rewrite N.mod_small in H1 by lia. exact H1.
  - constructor; [|now apply IH]. split; [exact Hge|].
    replace (x + 2 ^ w - y) with (x - y + 1 * 2 ^ w) in H1 by lia.
    rewrite N.mod_add in H1 by lia. now rewrite N.mod_small in H1 by lia.
Qed.
Lemma add_no_carry w (good : N -> Prop) y l :
  lanes w l -> y < 2 ^ w ->
  (forall x, x < 2 ^ w -> 2 ^ w <= x + y -> ~ good (x + y - 2 ^ w)) ->
  Forall good (add_lanes w 0 l (repeat y (length l))) ->
  Forall (fun x => x + y < 2 ^ w /\ good (x + y)) l.
Proof.
  intros Hl Hy Hg. induction Hl as [|x l Hx Hl IH]; cbn [length repeat add_lanes]; intros H; [constructor|].
  inversion H as [|? ? H1 H2]; subst. rewrite N.add_0_r in *.
  destruct (N.leb_spec (2 ^ w) (x + y)) as [Hge|Hlt].
  - exfalso. apply (Hg x Hx Hge).
    replace (x + y) with (x + y - 2 ^ w + 1 * 2 ^ w) in H1 by lia.
    rewrite N.mod_add in H1 by lia. now rewrite N.mod_small in H1 by lia.
  - constructor; [|now apply IH]. rewrite N.mod_small in H1 by exact Hlt. auto.
Qed.

Lemma Forall_and2 {A} (P Q R : A -> Prop) l :
  (forall x, P x -> Q x -> R x) -> Forall P l -> Forall Q l -> Forall R l.
Proof. intros H HP HQ. induction HP; inversion HQ; constructor; auto. Qed.

Ltac fold_pows :=
  change 0x1F with (2 ^ 5 - 1) in *; change 0x0F with (2 ^ 4 - 1) in *;
  change 0x7F with (2 ^ 7 - 1) in *.

Lemma w_ge w : width_ok w -> 8 <= w.
Proof. intros [->|[->| ->]]; lia. Qed.

Section Filters.
Variable w : N.
Hypothesis Hw : width_ok w.
Variable l : list N.
Hypothesis Hl : word_lanes w l.

Let Hw8 : 8 <= w := w_ge w Hw.
Let Hp : 256 <= 2 ^ w := width_pow w Hw.
Let Hlanes : lanes w l := proj1 Hl.

Lemma control_sound : swar_control w (pack w l) = true -> Forall (fun x => x <= 0x1F) l.
Proof.
  unfold swar_control. change 0x1F with (2 ^ 5 - 1) at 1. intros H.
  apply masked_eq in H; [|assumption|lia|lia|assumption].
  change (2 ^ 5) with 32 in H. eapply Forall_impl; [|exact H]. intros x. cbn beta. lia.
Qed.

Lemma char_sound : swar_char w (pack w l) = true -> Forall (fun x => x <= 0x7F) l.
Proof.
  unfold swar_char. change 0x7F with (2 ^ 7 - 1) at 1. intros H.
  apply masked_eq in H; [|assumption|lia|lia|assumption].
  change (2 ^ 7) with 128 in H. eapply Forall_impl; [|exact H]. intros x. cbn beta. lia.
Qed.

Lemma column_sound e :
  32 <= e <= 0x60 ->
  (N.land (wsub (pack w l) (swar_fill w 1)) (swar_fill_compl w 0x1F) =? swar_fill w e)
  && (N.land (wadd (pack w l) (swar_fill w 5)) (swar_fill_compl w 0x1F) =? swar_fill w e) = true ->
  Forall (fun x => e + 1 <= x /\ x <= e + 26) l.
Proof.
  intros He H. apply andb_true_iff in H. destruct H as [H1 H2].
  change 0x1F with (2 ^ 5 - 1) in H1, H2.
  apply sub_filter in H1; [|assumption|lia|lia|lia|assumption].
  apply add_filter in H2; [|assumption|lia|lia|lia|assumption].
  change (2 ^ 5) with 32 in H1, H2.
  apply sub_no_borrow in H1; [|exact Hlanes|lia|].
  2:{ intros x Hx. lia. }
  apply add_no_carry in H2; [|exact Hlanes|lia|].
  2:{ intros x Hx Hge. lia. }
  eapply Forall_and2; [|exact H1|exact H2]. cbn beta. intros x. lia.
Qed.

Lemma lower_sound : swar_lower w (pack w l) = true -> Forall (fun x => 0x61 <= x /\ x <= 0x7A) l.
Proof. intros H. apply (column_sound 0x60) in H; [exact H|lia]. Qed.
Lemma upper_sound : swar_upper w (pack w l) = true -> Forall (fun x => 0x41 <= x /\ x <= 0x5A) l.
Proof. intros H. apply (column_sound 0x40) in H; [exact H|lia]. Qed.

Lemma radix_sound o :
  o < 16 -> swar_radix o w (pack w l) = true -> Forall (fun x => 0x30 <= x /\ x + o <= 0x3F) l.
Proof.
  intros Ho H. unfold swar_radix in H. apply andb_true_iff in H. destruct H as [H1 H2].
  change 0x0F with (2 ^ 4 - 1) in H1, H2.
  apply masked_eq in H1; [|assumption|lia|lia|assumption].
  apply add_filter in H2; [|assumption|lia|lia|lia|assumption].
  change (2 ^ 4) with 16 in H1, H2.
  apply add_no_carry in H2; [|exact Hlanes|lia|].
  2:{ intros x Hx Hge. lia. }
  eapply Forall_and2; [|exact H1|exact H2]. cbn beta. intros x. lia.
Qed.

Lemma digit_radix : swar_digit w (pack w l) = swar_radix 6 w (pack w l).
Proof. reflexivity. Qed.

Lemma no_zero_masked j l' :
  j <= w -> word_lanes w l' ->
  swar_has_zero w (N.land (pack w l') (swar_fill_compl w (2 ^ j - 1))) = false ->
  Forall (fun x => 2 ^ j <= x) l'.
Proof.
  intros Hj [Hl' Hk] H.
  assert (Hc : 2 ^ j - 1 < 2 ^ w).
  { pose proof (pow_pos j). assert (2 ^ j <= 2 ^ w) by (apply N.pow_le_mono_r; lia). lia. }
  rewrite fill_compl_pack, <- Hk in H by assumption.
  rewrite pack_land in H; [|exact Hl'|apply lanes_repeat; lia|now rewrite repeat_length].
  rewrite map2_repeat, has_zero_spec in H; [|exact Hw|].
  2:{ split; [|now rewrite map_length]. apply lanes_map; [|exact Hl']. intros; now apply land_lt. }
  rewrite existsb_map in H. clear Hk.
  induction Hl' as [|x l' Hx Hl' IH]; [constructor|]. cbn [existsb] in H.
  apply orb_false_iff in H. destruct H as [H1 H2]. constructor; [|now apply IH].
  apply N.eqb_neq in H1. rewrite land_compl in H1 by assumption. pose proof (pow_pos j).
  destruct (N.lt_ge_cases x (2 ^ j)) as [Hlt|Hge]; [|exact Hge].
  rewrite N.div_small in H1 by exact Hlt. lia.
Qed.

(** The ASCII check of [_graph] and [_print] for single-byte units. *)
Lemma ascii_check :
  w = 8 ->
  (N.land (wadd (pack w l) (swar_fill w 1)) (swar_fill_compl w 0x7F) =? swar_fill w 0) = true ->
  (N.land (pack w l) (swar_fill_compl w 0x7F) =? swar_fill w 0) = true ->
  Forall (fun x => x <= 0x7E) l.
Proof.
  intros E H1 H2. change 0x7F with (2 ^ 7 - 1) in H1, H2.
  apply add_filter in H1; [|assumption|lia|lia|lia|assumption].
  apply masked_eq in H2; [|assumption|lia|lia|assumption].
  change (2 ^ 7) with 128 in H1, H2.
  assert (H3 : Forall (fun x => x + 1 < 2 ^ w /\ (x + 1) / 128 * 128 = 0) l).
  { assert (Hn : lanes w l) by exact Hlanes. revert H1. clear -H2 Hn Hp.
    induction Hn as [|x l Hx Hn IH]; cbn [length repeat add_lanes]; intros H; [constructor|].
    inversion H as [|? ? Ha Hb]; subst. inversion H2 as [|? ? Hc Hd]; subst.
    rewrite N.add_0_r in *. assert (x + 1 < 2 ^ w) by lia.
    destruct (N.leb_spec (2 ^ w) (x + 1)); [lia|].
    rewrite N.mod_small in Ha by assumption. constructor; [auto|now apply IH]. }
  eapply Forall_impl; [|exact H3]. cbn beta. intros x. lia.
Qed.

Lemma print_sound : w = 8 -> swar_print w (pack w l) = true -> Forall (fun x => 0x20 <= x /\ x <= 0x7E) l.
Proof.
  intros E H. unfold swar_print in H.
  destruct (N.land (wadd (pack w l) (swar_fill w 1)) (swar_fill_compl w 0x7F) =? swar_fill w 0) eqn:H1;
    cbn [negb] in H; [|discriminate].
  destruct (N.eqb_spec w 8); [|congruence]. cbn [andb] in H.
  destruct (N.land (pack w l) (swar_fill_compl w 0x7F) =? swar_fill w 0) eqn:H2;
    cbn [negb] in H; [|discriminate].
  apply negb_true_iff in H. change 0x1F with (2 ^ 5 - 1) in H.
  apply no_zero_masked in H; [|lia|assumption]. change (2 ^ 5) with 32 in H.
  eapply Forall_and2; [|exact H|exact (ascii_check E H1 H2)]. cbn beta. intros x. lia.
Qed.

Lemma graph_sound : w = 8 -> swar_graph w (pack w l) = true -> Forall (fun x => 0x21 <= x /\ x <= 0x7E) l.
Proof.
  intros E H. unfold swar_graph in H.
  destruct (N.land (wadd (pack w l) (swar_fill w 1)) (swar_fill_compl w 0x7F) =? swar_fill w 0) eqn:H1;
    cbn [negb] in H; [|discriminate].
  destruct (N.eqb_spec w 8); [|congruence]. cbn [andb] in H.
  destruct (N.land (pack w l) (swar_fill_compl w 0x7F) =? swar_fill w 0) eqn:H2;
    cbn [negb] in H; [|discriminate].
  apply andb_true_iff in H. destruct H as [H3 H4].
  apply negb_true_iff in H3, H4. change 0x1F with (2 ^ 5 - 1) in H3, H4.
  apply no_zero_masked in H3; [|lia|assumption].
  rewrite (fill_pack w 1 Hw), wsub_pack in H4; [|assumption|assumption|apply word_repeat; [assumption|lia]|lia].
  apply no_zero_masked in H4; [|lia|].
  2:{ split; [apply sub_lanes_lanes|]. rewrite sub_lanes_length; [apply Hl|].
      rewrite repeat_length. apply Hl. }
  change (2 ^ 5) with 32 in H3, H4.
  assert (H5 : Forall (fun x => 0x21 <= x) l).
  { destruct Hl as [Hn Hk]. rewrite <- Hk in H4. clear -H3 H4 Hn Hp.
    induction Hn as [|x l Hx Hn IH]; [constructor|].
    cbn [length repeat sub_lanes] in H4. inversion H4 as [|? ? Ha Hb]; subst.
    inversion H3 as [|? ? Hc Hd]; subst. rewrite N.add_0_r, N.sub_0_r in *.
    destruct (N.ltb_spec x 1); [lia|]. constructor; [|now apply IH].
    replace (x + 2 ^ w - 1) with (x - 1 + 1 * 2 ^ w) in Ha by lia.
    rewrite N.mod_add in Ha by lia. rewrite N.mod_small in Ha by lia. lia. }
  eapply Forall_and2; [|exact H5|exact (ascii_check E H1 H2)]. cbn beta. intros x. lia.
Qed.
End Filters.

(** The filter of class [k] is trustworthy at width [w]. *)
Definition filter_ok (k : ascii_class) (w : N) : Prop := w = 8 \/ (k <> Cgraph /\ k <> Cprint).

Lemma class_sound k w l :
  width_ok w -> filter_ok k w -> word_lanes w l ->
  class_swar k w (pack w l) = true -> Forall (fun x => class_table k x = true) l.
Proof.
  intros Hw Hf Hl H.
  destruct k; cbn [class_swar] in H; try discriminate H;
  [ apply control_sound in H | apply lower_sound in H | apply upper_sound in H
  | apply lower_sound in H | apply lower_sound in H | apply radix_sound in H; [|assumption|assumption|lia]
  | apply lower_sound in H | apply lower_sound in H
  | apply graph_sound in H; [|assumption|assumption|destruct Hf as [?|[? ?]]; congruence]
  | apply print_sound in H; [|assumption|assumption|destruct Hf as [?|[? ?]]; congruence]
  | apply char_sound in H
  | apply radix_sound in H; [|assumption|assumption|lia] | apply radix_sound in H; [|assumption|assumption|lia]
  | apply radix_sound in H; [|assumption|assumption|lia] | apply radix_sound in H; [|assumption|assumption|lia]
  | apply radix_sound in H; [|assumption|assumption|lia] | apply radix_sound in H; [|assumption|assumption|lia] ];
  try assumption;
  (eapply Forall_impl; [|exact H]; cbn beta; intros x Hx; unfold class_table, in_range; lia).
Qed.
