(** What is written does not depend on the output iterator; its text. *)
From Coq Require Import String Ascii.
From Verif Require Import Prelude CodecModel CodecSpec CodecProofs LitModel ClassSpec LocSpec VisModel VisSpec.
Close Scope string_scope.
Open Scope N_scope.

(** ** The text, as a list *)
Definition t_code (code : N) : list N :=
  if 10 <? code then [code / 10 + 0x30; code mod 10 + 0x30] else [code + 0x30].
Definition t_color (o : options) (head : color) (tail : list color) : list N :=
  if negb (is_set o visualize_use_color) then []
  else [0x1B; 0x5B] ++ t_code (color_code head)
       ++ concat (map (fun c => 0x3B :: t_code c) (map color_code tail)) ++ [0x6D].
Definition t_ellipsis (o : options) : list N :=
  if is_set o visualize_use_unicode then str "…" else str "...".
Definition t_special (o : options) (inner : list N) : list N :=
  t_color o Cyan [Faint] ++ (if is_set o visualize_use_unicode then str "⟨" else str "\") ++ inner
  ++ (if is_set o visualize_use_unicode then str "⟩" else []) ++ t_color o Reset [].
Definition t_symbol (o : options) (s : list N) : list N := t_color o Faint [] ++ s ++ t_color o Reset [].
Definition t_space (o : options) : list N :=
  if is_set o visualize_space then
    if is_set o visualize_use_symbols then t_symbol o (str "␣")
    else if is_set o visualize_use_unicode then t_special o (str "SP") else t_special o (str "u0020")
  else [0x20].
Definition t_cp (o : options) (cp : N) : list N :=
  let unicode := is_set o visualize_use_unicode in
  if negb (cp_is_valid cp) then t_special o (if unicode then str "U+????" else str "u????")
  else if cp_is_control cp then
    if cp =? 0 then t_special o (if unicode then str "NUL" else str "0")
    else if cp =? 0x0D then t_special o (if unicode then str "CR" else str "r")
    else if cp =? 0x0A then
      if is_set o visualize_use_symbols then t_symbol o (str "⏎")
      else t_special o (if unicode then str "LF" else str "n")
    else if cp =? 0x09 then
      if 0 <? vo_tab_width o then concat (repeat (t_space o) (N.to_nat (vo_tab_width o)))
      else if is_set o visualize_use_symbols then t_symbol o (str "⇨")
      else t_special o (if unicode then str "HT" else str "t")
    else t_special o ((if unicode then str "U+" else str "u") ++ format_hex 4 cp)
  else if cp =? 0x20 then t_space o
  else if cp =? 0x5C then if negb unicode then t_special o (str "\") else [0x5C]
  else if cp_is_ascii cp then [cp]
  else t_special o (if unicode then str "U+" ++ format_hex 4 cp
                    else if cp_is_bmp cp then str "u" ++ format_hex 4 cp else str "U" ++ format_hex 8 cp).
Definition t_byte (o : options) (b : N) : list N :=
  t_special o (if is_set o visualize_use_unicode then str "0x" ++ format_hex 2 b else str "x" ++ format_hex 2 b).
Definition t_skipped (e : encoding) (o : options) (c : N) : list N :=
  match e with
  | Ascii => []
  | Utf8 => t_byte o (N.land c 0xFF)
  | Utf16 =>
    let first := N.land (N.shiftr c 8) 0xFF in
    let second := N.land c 0xFF in
    (if negb (first =? 0) then t_byte o first else []) ++ t_byte o second
  | Utf32 =>
    let first := N.land (N.shiftr c 24) 0xFF in
    let second := N.land (N.shiftr c 16) 0xFF in
    let third := N.land (N.shiftr c 8) 0xFF in
    let fourth := N.land c 0xFF in
    (if negb (first =? 0) then t_byte o first else []) ++
    (if negb (first =? 0) || negb (second =? 0) then t_byte o second else []) ++
    (if negb (first =? 0) || negb (second =? 0) || negb (third =? 0) then t_byte o third else []) ++
    t_byte o fourth
  end.
Fixpoint t_unicode (fuel : nat) (e : encoding) (rest : list N) (count : N) (o : options) : list N :=
  match fuel with
  | O => []
  | S fuel' =>
    let result := parse_code_point e rest in
    let next t rest :=
      let count := count_up count in
      t ++ (if count =? vo_max_lexeme_width o then t_ellipsis o else t_unicode fuel' e rest count o) in
    match cr_error result with
    | cp_eof => []
    | success => next (t_cp o (cr_cp result)) (skipn (cr_end result) rest)
    | _ => let n := recover_code_point result in
           next (concat (map (t_skipped e o) (firstn n rest))) (skipn n rest)
    end
  end.
Fixpoint t_units (one : N -> list N) (units : list N) (count : N) (o : options) : list N :=
  match units with
  | [] => []
  | c :: units' =>
    let count := count_up count in
    one c ++ (if count =? vo_max_lexeme_width o then t_ellipsis o else t_units one units' count o)
  end.
Definition t_char (o : options) (c : N) : list N := if c <=? 0x7F then t_cp o c else t_byte o c.
Definition t_raw (o : options) (c : N) : list N := t_special o (format_hex 2 c).
Definition t_flat (e : flat_encoding) (units : list N) (o : options) : list N :=
  match e with
  | VText (Enc Ascii) | VText Default => t_units (t_char o) units 0 o
  | VText (Enc e) => t_unicode (S (length units)) e units 0 o
  | VBytes => t_units (t_raw o) units 0 o
  end.
Definition t_lexeme (e : lexeme_encoding) (units : list N) (o : options) : list N :=
  match e with VFlat e => t_flat e units o | VNode e => t_flat e units default_options end.

(** ** Independence of the iterator *)
Section Out.
Context {W I : Type} (put : W -> I -> N -> W * I).

Lemma put_str o c : put_char put o c = write_str put o [c].
Proof. reflexivity. Qed.
Lemma str_nil o : write_str put o [] = o.
Proof. reflexivity. Qed.
Lemma str_app o a b : write_str put (write_str put o a) b = write_str put o (a ++ b).
Proof. unfold write_str. now rewrite fold_left_app. Qed.

(** Either no colors, or copies of the iterator are all the same. *)
Definition plain_or_shared (o : options) : Prop :=
  is_set o visualize_use_color = false \/ (forall i j : I, i = j).

Lemma code_text o c : write_code put o c = write_str put o (t_code c).
Proof. unfold write_code, t_code. destruct (10 <? c); reflexivity. Qed.

Lemma tail_text : (forall i j : I, i = j) -> forall l o,
  fold_left (write_tail put) l o = write_str put o (concat (map (fun c => 0x3B :: t_code c) l)).
Proof.
  intros HI l. induction l as [|c l IH]; intros o; [reflexivity|].
  cbn [fold_left map concat]. rewrite IH.
  assert (E : write_tail put o c = write_str put o (0x3B :: t_code c)).
  { unfold write_tail. rewrite code_text, put_str, str_app. cbn [app].
    rewrite (HI (snd (write_str put o [0x3B])) (snd (write_str put o (0x3B :: t_code c)))).
    now rewrite <- surjective_pairing. }
  rewrite E, str_app. reflexivity.
Qed.

Lemma color_text o opts head tail : plain_or_shared opts ->
  write_color put o opts head tail = write_str put o (t_color opts head tail).
Proof.
  intros H. unfold write_color, t_color. destruct (is_set opts visualize_use_color) eqn:E; [|reflexivity].
  destruct H as [H|H]; [congruence|]. cbn [negb].
  rewrite code_text, tail_text by exact H. rewrite put_str, !str_app. rewrite <- ?app_assoc; reflexivity.
Qed.
Lemma color_text1 o opts head :
  write_color put o opts head [] = write_str put o (t_color opts head []).
Proof.
  unfold write_color, t_color. destruct (negb _); [reflexivity|]. cbn [map fold_left concat].
  rewrite code_text, put_str, !str_app. rewrite <- ?app_assoc; reflexivity.
Qed.

Lemma ellipsis_text o opts : write_ellipsis put o opts = write_str put o (t_ellipsis opts).
Proof. unfold write_ellipsis, t_ellipsis. now destruct is_set. Qed.

Lemma special_text o opts inner t : plain_or_shared opts -> (forall o, inner o = write_str put o t) ->
  write_special_char put o opts inner = write_str put o (t_special opts t).
Proof.
  intros H Hi. unfold write_special_char, t_special.
  rewrite !color_text by exact H. rewrite Hi.
  destruct (is_set opts visualize_use_unicode); rewrite !str_app; rewrite <- ?app_assoc; reflexivity.
Qed.
Lemma symbol_text o opts s : 
  write_color put (write_str put (write_color put o opts Faint []) s) opts Reset [] = write_str put o (t_symbol opts s).
Proof. rewrite !color_text1, !str_app. unfold t_symbol. now rewrite <- ?app_assoc. Qed.

Lemma space_text_ok o opts : plain_or_shared opts ->
  visualize_space_char put o opts = write_str put o (t_space opts).
Proof.
  intros H. unfold visualize_space_char, t_space.
  destruct (is_set opts visualize_space); [|reflexivity].
  destruct (is_set opts visualize_use_symbols); [apply symbol_text|].
  destruct (is_set opts visualize_use_unicode); apply special_text; auto.
Qed.
Lemma tab_text opts : plain_or_shared opts -> forall k o,
  write_tab put k o opts = write_str put o (concat (repeat (t_space opts) k)).
Proof.
  intros H k. induction k as [|k IH]; intros o; [reflexivity|].
  cbn [write_tab repeat concat]. rewrite IH, (space_text_ok _ _ H), str_app. reflexivity.
Qed.

Lemma cp_text o cp opts : plain_or_shared opts ->
  visualize_code_point put o cp opts = write_str put o (t_cp opts cp).
Proof.
  intros H. unfold visualize_code_point, t_cp, write_format.
  repeat match goal with
  | |- (if ?b then _ else _) = write_str _ _ (if ?b then _ else _) => destruct b
  end; try reflexivity; try (apply symbol_text); try (apply space_text_ok; exact H); try (apply tab_text; exact H);
    try (apply special_text; [exact H|]; intros; repeat match goal with |- context [if ?b then _ else _] => destruct b end; reflexivity);
  destruct (is_set opts visualize_use_unicode); try (apply special_text; [exact H|reflexivity]).
Qed.

Lemma byte_text_ok opts o b : plain_or_shared opts ->
  write_escaped_byte put opts o b = write_str put o (t_byte opts b).
Proof.
  intros H. unfold write_escaped_byte, t_byte, write_format. apply special_text; [exact H|].
  intros. now destruct is_set.
Qed.
Lemma skipped_text e opts o c : plain_or_shared opts ->
  write_skipped put e opts o c = write_str put o (t_skipped e opts c).
Proof.
  intros H. unfold write_skipped, t_skipped. cbv zeta.
  destruct e; rewrite ?byte_text_ok by exact H;
    repeat match goal with |- context [if ?b then _ else _] => destruct b end;
    rewrite ?byte_text_ok by exact H; rewrite ?str_app; cbn [app]; reflexivity.
Qed.
Lemma skipped_list e opts : plain_or_shared opts -> forall l o,
  fold_left (write_skipped put e opts) l o = write_str put o (concat (map (t_skipped e opts) l)).
Proof.
  intros H l. induction l as [|c l IH]; intros o; [reflexivity|].
  cbn [fold_left map concat]. now rewrite IH, (skipped_text _ _ _ _ H), str_app.
Qed.

Lemma unicode_text e opts : plain_or_shared opts -> forall fuel o rest count,
  visualize_unicode put fuel e o rest count opts = write_str put o (t_unicode fuel e rest count opts).
Proof.
  intros H fuel. induction fuel as [|fuel IH]; intros o rest count; [reflexivity|].
  cbn [visualize_unicode t_unicode]. cbv zeta.
  destruct (cr_error (parse_code_point e rest)); try reflexivity;
    rewrite ?(cp_text _ _ _ H), ?(skipped_list _ _ H);
    destruct (count_up count =? vo_max_lexeme_width opts); rewrite ?ellipsis_text, ?IH, ?str_app; reflexivity.
Qed.

Lemma units_text one t opts : (forall o c, one o c = write_str put o (t c)) -> forall units o count,
  visualize_units put one o units count opts = write_str put o (t_units t units count opts).
Proof.
  intros H units. induction units as [|c units IH]; intros o count; [reflexivity|].
  cbn [visualize_units t_units]. cbv zeta. rewrite H.
  destruct (count_up count =? vo_max_lexeme_width opts); rewrite ?ellipsis_text, ?IH, ?str_app; reflexivity.
Qed.

Lemma flat_text o e units opts : plain_or_shared opts ->
  visualize_flat put o e units opts = write_str put o (t_flat e units opts).
Proof.
  intros H. unfold visualize_flat, t_flat.
  assert (C : forall o c, visualize_char put opts o c = write_str put o (t_char opts c)).
  { intros o' c. unfold visualize_char, t_char. destruct (c <=? 0x7F); [now apply cp_text|now apply byte_text_ok]. }
  assert (R : forall o c, visualize_byte put opts o c = write_str put o (t_raw opts c)).
  { intros o' c. unfold visualize_byte, t_raw, write_format. apply special_text; auto. }
  destruct e as [[|[]]|]; first [now apply units_text | now apply unicode_text].
Qed.

Lemma lexeme_text o e units opts : plain_or_shared opts ->
  visualize_lexeme put o e units opts = write_str put o (t_lexeme e units opts).
Proof.
  intros H. destruct e as [e|e]; [now apply flat_text|].
  apply flat_text. left. reflexivity.
Qed.
End Out.

(** ** The iterators *)
Lemma append_str t : forall w, write_str append_put (w, tt) t = (w ++ t, tt).
Proof.
  induction t as [|c t IH]; intros w; [now rewrite app_nil_r|].
  change (write_str append_put (w, tt) (c :: t)) with (write_str append_put (w ++ [c], tt) t).
  rewrite IH. now rewrite <- app_assoc.
Qed.
Lemma shared_unit o : plain_or_shared (I := unit) o.
Proof. right. now intros [] []. Qed.

Lemma appended_lexeme e units opts :
  appended (fun W I put o => visualize_lexeme put o e units opts) = t_lexeme e units opts.
Proof. unfold appended. rewrite lexeme_text by apply shared_unit. now rewrite append_str. Qed.
Lemma appended_cp cp opts :
  appended (fun W I put o => visualize_code_point put o cp opts) = t_cp opts cp.
Proof. unfold appended. rewrite cp_text by apply shared_unit. now rewrite append_str. Qed.
Lemma appended_color h tl opts :
  appended (fun W I put o => write_color put o opts h tl) = t_color opts h tl.
Proof. unfold appended. rewrite color_text by apply shared_unit. now rewrite append_str. Qed.

Lemma pointer_str t : forall m p, exists m', write_str pointer_put (m, p) t = (m', (p + length t)%nat) /\ filled m p t m'.
Proof.
  induction t as [|c t IH]; intros m p.
  - exists m. split; [cbn; now rewrite Nat.add_0_r|]. intros a. cbn [length]. 
    replace ((p <=? a)%nat && (a <? p + 0)%nat) with false by lia. reflexivity.
  - change (write_str pointer_put (m, p) (c :: t)) with
      (write_str pointer_put (fun a => if (a =? p)%nat then c else m a, S p) t).
    destruct (IH (fun a => if (a =? p)%nat then c else m a) (S p)) as (m' & E & F).
    exists m'. split; [rewrite E; cbn [length]; f_equal; lia|].
    intros a. rewrite (F a). cbn [length].
    destruct (Nat.eq_dec a p) as [->|Hn].
    + replace ((S p <=? p)%nat && (p <? S p + length t)%nat) with false by lia. rewrite Nat.eqb_refl.
      replace ((p <=? p)%nat && (p <? p + S (length t))%nat) with true by lia.
      rewrite Nat.sub_diag. reflexivity.
    + replace (a =? p)%nat with false by lia.
      destruct ((S p <=? a)%nat && (a <? S p + length t)%nat) eqn:Ea.
      * replace ((p <=? a)%nat && (a <? p + S (length t))%nat) with true by lia.
        replace (a - p)%nat with (S (a - S p)) by lia. reflexivity.
      * replace ((p <=? a)%nat && (a <? p + S (length t))%nat) with false by lia. reflexivity.
Qed.
