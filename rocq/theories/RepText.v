(** The rows of an annotation. *)
From Coq Require Import String Ascii.
From Verif Require Import Prelude CodecModel CodecSpec CodecProofs LitModel ClassSpec TextSpec LocModel LocSpec
  VisModel VisSpec VisProofs VisText VisShow VisInj VisMain RepModel RepSpec RepProofs.
Close Scope string_scope.
Open Scope N_scope.

(** ** No newline in a visualization *)
Definition NL (t : list N) : Prop := Forall (fun c => c <> LF) t.
Lemma NL_app a b : NL a -> NL b -> NL (a ++ b).
Proof. intros. apply Forall_app. auto. Qed.
Lemma NL_str s : forallb (fun c => negb (c =? LF)) s = true -> NL s.
Proof. intros H. apply Forall_forall. intros c Hc. rewrite forallb_forall in H. specialize (H c Hc). lia. Qed.
Lemma NL_hex w n : NL (format_hex w n).
Proof. eapply Forall_impl; [|apply hex_chars]. unfold LF. cbn. intros. lia. Qed.
Lemma NL_nil : NL [].
Proof. constructor. Qed.

Section Lexeme.
Variable o : options.
Hypothesis Hc : is_set o visualize_use_color = false.
Lemma NL_special s : NL s -> NL (t_special o s).
Proof.
  intros H. rewrite (special_plain o Hc). unfold special. destruct (is_set o visualize_use_unicode);
    repeat apply NL_app; try exact H; now apply NL_str.
Qed.
Lemma NL_symbol s : NL s -> NL (t_symbol o s).
Proof. now rewrite (symbol_plain o Hc). Qed.
Lemma NL_space : NL (t_space o).
Proof.
  unfold t_space. destruct (is_set o visualize_space); [|now apply NL_str].
  destruct (is_set o visualize_use_symbols); [apply NL_symbol; now apply NL_str|].
  destruct (is_set o visualize_use_unicode); now apply NL_special, NL_str.
Qed.
Lemma NL_repeat t k : NL t -> NL (concat (repeat t k)).
Proof. intros H. induction k as [|k IH]; [constructor|]. cbn [repeat concat]. now apply NL_app. Qed.
Lemma NL_cp cp : NL (t_cp o cp).
Proof.
  unfold t_cp.
  destruct (negb (cp_is_valid cp)); [apply NL_special; destruct (is_set o visualize_use_unicode); now apply NL_str|].
  destruct (cp_is_control cp) eqn:Ec.
  { destruct (cp =? 0); [apply NL_special; destruct (is_set o visualize_use_unicode); now apply NL_str|].
    destruct (cp =? 0x0D); [apply NL_special; destruct (is_set o visualize_use_unicode); now apply NL_str|].
    destruct (cp =? 0x0A).
    { destruct (is_set o visualize_use_symbols); [|apply NL_special; destruct (is_set o visualize_use_unicode); now apply NL_str].
      apply NL_symbol; now apply NL_str. }
    destruct (cp =? 0x09).
    { destruct (0 <? vo_tab_width o); [apply NL_repeat, NL_space|].
      destruct (is_set o visualize_use_symbols); [|apply NL_special; destruct (is_set o visualize_use_unicode); now apply NL_str].
      apply NL_symbol; now apply NL_str. }
    apply NL_special, NL_app; [destruct (is_set o visualize_use_unicode); now apply NL_str|apply NL_hex]. }
  destruct (cp =? 0x20); [apply NL_space|].
  destruct (cp =? 0x5C).
  { destruct (negb (is_set o visualize_use_unicode)); [now apply NL_special, NL_str|now apply NL_str]. }
  destruct (cp_is_ascii cp) eqn:Ea.
  { constructor; [|constructor]. unfold cp_is_control, LF in *. lia. }
  apply NL_special. destruct (is_set o visualize_use_unicode); [|destruct (cp_is_bmp cp)];
    (apply NL_app; [now apply NL_str|apply NL_hex]).
Qed.
Lemma NL_byte b : NL (t_byte o b).
Proof.
  unfold t_byte. apply NL_special. destruct (is_set o visualize_use_unicode); (apply NL_app; [now apply NL_str|apply NL_hex]).
Qed.
Lemma NL_skipped e c : NL (t_skipped e o c).
Proof.
  unfold t_skipped. cbv zeta. destruct e; [apply NL_nil|apply NL_byte| |];
    repeat first [apply NL_byte | apply NL_nil | match goal with |- NL (if ?b then _ else _) => destruct b end | apply NL_app].
Qed.
Lemma NL_skipped_list e l : NL (concat (map (t_skipped e o) l)).
Proof. induction l as [|c l IH]; [apply NL_nil|]. cbn [map concat]. apply NL_app; [apply NL_skipped|exact IH]. Qed.
Lemma NL_ellipsis : NL (t_ellipsis o).
Proof. unfold t_ellipsis. destruct (is_set o visualize_use_unicode); now apply NL_str. Qed.
Lemma NL_unicode e : forall fuel us count, NL (t_unicode fuel e us count o).
Proof.
  intros fuel. induction fuel as [|fuel IH]; intros us count; [apply NL_nil|].
  cbn [t_unicode]. cbv zeta.
  destruct (cr_error (parse_code_point e us)); try apply NL_nil;
    (apply NL_app; [first [apply NL_cp|apply NL_skipped_list]|]; destruct (count_up count =? vo_max_lexeme_width o); [apply NL_ellipsis|apply IH]).
Qed.
Lemma NL_units one : (forall c, NL (one c)) -> forall us count, NL (t_units one us count o).
Proof.
  intros H us. induction us as [|c us IH]; intros count; [apply NL_nil|].
  cbn [t_units]. cbv zeta.
  apply NL_app; [apply H|]. destruct (count_up count =? vo_max_lexeme_width o); [apply NL_ellipsis|apply IH].
Qed.
Lemma NL_flat e us : NL (t_flat e us o).
Proof.
  assert (C : forall c, NL (t_char o c)).
  { intros c. unfold t_char. destruct (c <=? 0x7F); [apply NL_cp|apply NL_byte]. }
  unfold t_flat. destruct e as [[|[]]|]; try apply NL_unicode; apply NL_units; try exact C.
  intros c. apply NL_special, NL_hex.
Qed.
End Lexeme.
Lemma NL_lexeme e us o : is_set o visualize_use_color = false -> NL (t_lexeme e us o).
Proof. intros H. destruct e as [e|e]; [now apply NL_flat|]. now apply NL_flat. Qed.

(** ** Decimal numbers *)
Lemma decimal_app a : forall acc b, decimal_value acc (a ++ b) =
  match decimal_value acc a with Some v => decimal_value v b | None => None end.
Proof.
  induction a as [|c a IH]; intros acc b; [reflexivity|]. cbn [app decimal_value].
  destruct (_ && _); [apply IH|reflexivity].
Qed.
Lemma dec_value k : forall n acc,
  decimal_value acc (dec_digits k n) = Some (acc * 10 ^ N.of_nat k + n mod 10 ^ N.of_nat k).
Proof.
  induction k as [|k IH]; intros n acc.
  - cbn [dec_digits decimal_value]. change (10 ^ N.of_nat 0) with 1. f_equal. rewrite N.mod_1_r. lia.
  - cbn [dec_digits]. rewrite decimal_app, IH. cbn [decimal_value].
    pose proof (N.mod_lt n 10 ltac:(lia)) as Hm.
    replace ((48 <=? 48 + n mod 10) && (48 + n mod 10 <=? 57)) with true by lia.
    f_equal. rewrite Nat2N.inj_succ, N.pow_succ_r'.
    assert (Hp : 10 ^ N.of_nat k <> 0) by (apply N.pow_nonzero; lia).
    rewrite (N.mod_mul_r n 10 (10 ^ N.of_nat k)) by (lia || exact Hp). lia.
Qed.
Lemma dec_length k : forall n, length (dec_digits k n) = k.
Proof. induction k as [|k IH]; intros n; [reflexivity|]. cbn [dec_digits]. rewrite app_length, IH. cbn. lia. Qed.
Lemma dec_hd k : forall n, hd 0 (dec_digits (S k) n) = 0x30 + (n / 10 ^ N.of_nat k) mod 10.
Proof.
  induction k as [|k IH]; intros n.
  - cbn [dec_digits app hd]. change (10 ^ N.of_nat 0) with 1. now rewrite N.div_1_r.
  - change (dec_digits (S (S k)) n) with (dec_digits (S k) (n / 10) ++ [0x30 + n mod 10]).
    specialize (IH (n / 10)). pose proof (dec_length (S k) (n / 10)) as L.
    destruct (dec_digits (S k) (n / 10)) as [|d ds]; [discriminate|]. cbn [app hd] in *. rewrite IH.
    rewrite N.div_div by (try lia; apply N.pow_nonzero; lia). rewrite Nat2N.inj_succ, N.pow_succ_r'. reflexivity.
Qed.
Lemma dec_size_bound n : n < 2 ^ 32 -> n < 10 ^ N.of_nat (dec_size n) /\ (1 <= dec_size n)%nat /\
  ((1 < dec_size n)%nat -> 10 ^ N.of_nat (dec_size n - 1) <= n).
Proof.
  intros H. change (2 ^ 32) with 4294967296 in H. unfold dec_size.
  repeat match goal with |- context [n <? ?x] => destruct (N.ltb_spec n x) end;
    match goal with |- context [N.of_nat ?k] => 
      let v := eval vm_compute in (10 ^ N.of_nat k) in change (10 ^ N.of_nat k) with v end;
    (split; [lia|]; split; [lia|]; intros Hk);
    match type of Hk with (1 < ?k)%nat =>
      let v := eval vm_compute in (10 ^ N.of_nat (k - 1)) in change (10 ^ N.of_nat (k - 1)) with v end; lia.
Qed.
Lemma dec_decimal n : n < 2 ^ 32 -> decimal n (dec_digits (dec_size n) n).
Proof.
  intros H. destruct (dec_size_bound n H) as (Hb & H1 & Hl). unfold decimal. rewrite dec_length.
  split; [|split].
  - intros E. apply (f_equal (@length N)) in E. rewrite dec_length in E. cbn in E. lia.
  - rewrite dec_value. f_equal. rewrite N.mod_small by exact Hb. lia.
  - intros Hk. specialize (Hl Hk). destruct (dec_size n) as [|k]; [lia|].
    rewrite dec_hd. replace (S k - 1)%nat with k in Hl by lia.
    rewrite Nat2N.inj_succ, N.pow_succ_r' in Hb.
    set (p := 10 ^ N.of_nat k) in *.
    assert (Hp : p <> 0) by (apply N.pow_nonzero; lia).
    assert (1 <= n / p) by (apply N.div_le_lower_bound; lia).
    assert (n / p < 10) by (apply N.div_lt_upper_bound; lia).
    rewrite N.mod_small by lia. lia.
Qed.
Lemma dec_width n : n < 10000 -> (dec_size n <= 4)%nat.
Proof.
  intros H. unfold dec_size. repeat match goal with |- context [n <? ?x] => destruct (N.ltb_spec n x) end; lia.
Qed.

(** ** Columns *)
Lemma occupies_app a b m n : occupies a m -> occupies b n -> occupies (a ++ b) (m + n).
Proof.
  intros (x & Hx & -> & <-) (y & Hy & -> & <-). exists (x ++ y). split; [now apply Forall_app|].
  split; [now rewrite encoded_app|apply app_length].
Qed.
Lemma occupies_ascii s : Forall (fun c => c < 0x80) s -> occupies s (length s).
Proof.
  intros H. exists s. split; [eapply Forall_impl; [|exact H]; unfold scalar; cbn; intros; lia|]. split; [|reflexivity].
  induction H as [|c s Hc _ IH]; [reflexivity|]. unfold encoded in *. cbn [map concat]. rewrite <- IH.
  unfold encode_code_point. now replace (c <=? 0x7F) with true by lia.
Qed.
Lemma occupies_repeat c k : c < 0x80 -> occupies (repeat c k) k.
Proof.
  intros H. replace k with (length (repeat c k)) at 2 by apply repeat_length. apply occupies_ascii.
  induction k as [|k IH]; constructor; auto.
Qed.
Lemma occupies_bar o : occupies (bar o) 1.
Proof.
  unfold bar. destruct (is_set o visualize_use_unicode).
  - exists [0x2502]. split; [repeat constructor; unfold scalar; lia|]. split; reflexivity.
  - exists [0x7C]. split; [repeat constructor; unfold scalar; lia|]. split; reflexivity.
Qed.
Lemma occupies_lexeme e us o : is_set o visualize_use_color = false ->
  occupies (t_lexeme e us o) (N.to_nat (display_width e us o)).
Proof.
  intros H. destruct (lexeme_width e us o) as (cps & H1 & H2 & H3). exists cps. rewrite (reset_plain o H) in H2.
  split; [exact H1|]. split; [exact H2|]. rewrite H3. now rewrite Nat2N.id.
Qed.
Lemma concat_single (c : N) k : concat (repeat [c] k) = repeat c k.
Proof. induction k as [|k IH]; [reflexivity|]. cbn [repeat concat app]. now rewrite IH. Qed.
Lemma repeat_snoc (c : N) k : repeat c k ++ [c] = repeat c (S k).
Proof. induction k as [|k IH]; [reflexivity|]. cbn [repeat app] in *. now rewrite IH. Qed.

Lemma plain_annotation e c inp o k l end_ line m t : is_set o visualize_use_color = false ->
  lo_line_nr l < 2 ^ 32 ->
  get_annotation (unit_encoding e) c inp l end_ = Some line ->
  t_annotation e c inp o k l end_ m = Done t ->
  exists row1 row2, t = lines [row1; row2] /\
    snippet (lo_line_nr l <? 10000) o (lo_line_nr l)
      (t_lexeme (lexemes_of e) (units_in inp (an_before line)) o)
      (t_lexeme (lexemes_of e) (units_in inp (an_annotated line)) o)
      (t_lexeme (lexemes_of e) (units_in inp (an_after line)) o)
      k (an_truncated line && negb (an_newline line)) m row1 row2.
Proof.
  intros Hc Hl Hg H. unfold t_annotation in H. rewrite Hg in H. cbv zeta in H.
  rewrite (reset_plain o Hc) in H.
  set (wb := display_width _ (units_in inp (an_before line)) _) in *.
  set (wa := display_width _ (units_in inp (an_annotated line)) _) in *.
  set (B := t_lexeme _ (units_in inp (an_before line)) _) in *.
  set (A := t_lexeme _ (units_in inp (an_annotated line)) _) in *.
  set (T := t_lexeme _ (units_in inp (an_after line)) _) in *.
  set (beyond := an_truncated line && negb (an_newline line)) in *.
  destruct (_ || _) eqn:Ew; [discriminate|]. injection H as H.
  assert (Hk : t_line_color o k = []) by (destruct k; apply (no_color o Hc)).
  rewrite Hk, !(no_color o Hc) in H. cbn [app] in H.
  set (num := dec_digits (dec_size (lo_line_nr l)) (lo_line_nr l)).
  set (pad := (4 - dec_size (lo_line_nr l))%nat).
  set (under := repeat SP 5 ++ bar o ++ [SP] ++ repeat SP (N.to_nat wb)).
  assert (Hn : occupies A (N.to_nat wa)) by (apply occupies_lexeme; exact Hc).
  exists (left_part num pad o ++ B ++ A ++ T),
    (under ++ repeat (mark_of k) (if beyond then S (N.to_nat wa) else Nat.max 1 (N.to_nat wa)) ++ [SP] ++ m).
  split.
  - rewrite <- H. unfold lines, left_part, under, format_dec. fold num. fold pad. cbn [map concat].
    rewrite app_nil_r. unfold bar, column, SP, LF. change (str "     ") with (repeat 32 5). change (str " ") with [32].
    rewrite concat_single.
    assert (HU : concat (repeat (underline k) (N.to_nat wa)) ++ (if (wa =? 0) || beyond then underline k else []) =
                 repeat (mark_of k) (if beyond then S (N.to_nat wa) else Nat.max 1 (N.to_nat wa))).
    { replace (underline k) with [mark_of k] by (destruct k; reflexivity). rewrite concat_single.
      destruct beyond.
      - rewrite orb_true_r. apply repeat_snoc.
      - rewrite orb_false_r. destruct (N.eqb_spec wa 0) as [E|E].
        + rewrite E. reflexivity.
        + rewrite app_nil_r. f_equal. lia. }
    rewrite <- HU. rewrite <- !app_assoc. cbn [app]. reflexivity.
  - exists pad, num, under, (7 + N.to_nat wb)%nat, (N.to_nat wa).
    split; [reflexivity|]. split; [apply dec_decimal; exact Hl|]. split; [exact Hn|]. split; [reflexivity|].
    assert (Hdig : Forall (fun c => 0x30 <= c <= 0x39) num) by apply dec_chars.
    assert (Hsp : forall j, Forall (fun c => c = SP) (repeat SP j)).
    { intros j. induction j; constructor; auto. }
    assert (HlB : ~ In LF (bar o)).
    { unfold bar. destruct (is_set o visualize_use_unicode); vm_compute; intros Hi; decompose [or] Hi; discriminate || contradiction. }
    assert (HmB : ~ In (mark_of k) (bar o)).
    { unfold bar. destruct (is_set o visualize_use_unicode), k; vm_compute; intros Hi; decompose [or] Hi; discriminate || contradiction. }
    assert (Hspi : forall x j, In x (repeat SP j) -> x = SP).
    { intros x j Hi. specialize (Hsp j). rewrite Forall_forall in Hsp. now apply Hsp. }
    assert (Hms : mark_of k <> SP) by (destruct k; discriminate).
    split.
    { unfold under. intros Hi. rewrite !in_app_iff in Hi. cbn [In] in Hi.
      destruct Hi as [Hi|[Hi|[[Hi|Hi]|Hi]]]; [apply Hspi in Hi; auto|auto|auto|auto|apply Hspi in Hi; auto]. }
    split.
    { assert (HNL : forall us, ~ In LF (t_lexeme (lexemes_of e) us o)).
      { intros us Hi. pose proof (NL_lexeme (lexemes_of e) us o Hc) as Hn'. unfold NL in Hn'. rewrite Forall_forall in Hn'.
        exact (Hn' _ Hi eq_refl). }
      intros Hi. unfold left_part in Hi. rewrite !in_app_iff in Hi. cbn [In] in Hi.
      assert (HdN : In LF num -> False).
      { intros Hd. rewrite Forall_forall in Hdig. specialize (Hdig _ Hd). cbv beta in Hdig. unfold LF in Hdig. lia. }
      destruct Hi as [[Hi|[Hi|[[Hi|[]]|[Hi|[Hi|[]]]]]]|[Hi|[Hi|Hi]]].
      - apply Hspi in Hi. discriminate.
      - auto.
      - discriminate.
      - auto.
      - discriminate.
      - exact (HNL _ Hi).
      - exact (HNL _ Hi).
      - exact (HNL _ Hi). }
    split.
    { unfold under. replace (7 + N.to_nat wb)%nat with (5 + (1 + (1 + N.to_nat wb)))%nat by lia.
      apply occupies_app; [apply occupies_repeat; reflexivity|]. apply occupies_app; [apply occupies_bar|].
      apply occupies_app; [apply (occupies_repeat SP 1); reflexivity|]. apply occupies_repeat; reflexivity. }
    intros Ha. apply N.ltb_lt in Ha. apply dec_width in Ha. unfold left_part.
    replace (7 + N.to_nat wb)%nat with (pad + (length num + (1 + (1 + 1))) + N.to_nat wb)%nat
      by (unfold num, pad; rewrite dec_length; lia).
    apply occupies_app; [|apply occupies_lexeme; exact Hc].
    apply occupies_app; [apply occupies_repeat; reflexivity|].
    apply occupies_app; [apply occupies_ascii; eapply Forall_impl; [|exact Hdig]; cbn; intros; lia|].
    apply occupies_app; [apply (occupies_repeat SP 1); reflexivity|]. apply occupies_app; [apply occupies_bar|].
    apply (occupies_repeat SP 1); reflexivity.
Qed.
