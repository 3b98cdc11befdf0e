(** Different texts look different. *)
From Coq Require Import String Ascii.
From Verif Require Import Prelude CodecModel CodecSpec CodecProofs LitModel ClassSpec LocSpec VisModel VisSpec VisProofs VisText.
Close Scope string_scope.
Open Scope N_scope.

(** ** Numerals *)
Lemma digit_value c d : digit_of c = Some d -> c = hex_digit d /\ d < 16.
Proof.
  unfold digit_of, hex_digit. destruct ((0x30 <=? c) && (c <=? 0x39)) eqn:E1.
  - intros H. injection H as <-. replace (c - 0x30 <? 10) with true by lia. lia.
  - destruct ((0x41 <=? c) && (c <=? 0x46)) eqn:E2; [|discriminate]. intros H. injection H as <-.
    replace (c - 0x41 + 10 <? 10) with false by lia. lia.
Qed.
Lemma numeral_chars s : forall acc n, numeral acc s = Some n -> Forall (fun c => c < 0x80) s.
Proof.
  induction s as [|c s IH]; intros acc n H; [constructor|]. cbn [numeral] in H.
  destruct (digit_of c) as [d|] eqn:E; [|discriminate]. constructor; [|eapply IH; exact H].
  destruct (digit_value _ _ E) as (-> & Hd). unfold hex_digit. destruct (d <? 10); lia.
Qed.

(** ** Characters of a visualization *)
Inductive tok := TChar (c : N) | TSym (s : N) | TSpec (s : list N).
Definition sym_text (s : N) : list N := if s =? 0x0A then str "⏎" else if s =? 0x09 then str "⇨" else str "␣".

Section Tok.
Variable unicode : bool.
Definition tok_text (k : tok) : list N :=
  match k with TChar c => [c] | TSym s => sym_text s | TSpec s => special unicode s end.
(** The length of an escape is known from its first character. *)
Definition escape_size (c : N) : nat :=
  if c =? 0x75 then 5 else if c =? 0x55 then 9 else if c =? 0x78 then 3 else 1.
Definition tok_ok (k : tok) : Prop :=
  match k with
  | TChar c => c < 0x80 /\ (unicode = false -> c <> 0x5C)
  | TSym s => s = 0x0A \/ s = 0x09 \/ s = 0x20
  | TSpec s => if unicode then Forall (fun c => c < 0x80) s
               else match s with [] => False | c :: _ => length s = escape_size c end
  end.

Lemma ascii_split a : forall b r1 r2 x y, Forall (fun c => c < 0x80) a -> Forall (fun c => c < 0x80) b ->
  0x80 <= x -> 0x80 <= y -> a ++ x :: r1 = b ++ y :: r2 -> a = b /\ x :: r1 = y :: r2.
Proof.
  induction a as [|c a IH]; intros b r1 r2 x y Ha Hb Hx Hy E; destruct b as [|d b]; cbn [app] in E.
  - auto.
  - injection E as -> _. inversion Hb; subst. lia.
  - injection E as -> _. inversion Ha; subst. lia.
  - injection E as -> E. inversion Ha; subst. inversion Hb; subst.
    destruct (IH b r1 r2 x y) as (-> & F); auto.
Qed.

Lemma tok_prefix k1 k2 r1 r2 : tok_ok k1 -> tok_ok k2 -> tok_text k1 ++ r1 = tok_text k2 ++ r2 -> k1 = k2 /\ r1 = r2.
Proof.
  intros H1 H2 E. destruct k1 as [c1|s1|s1], k2 as [c2|s2|s2]; cbn [tok_ok tok_text app] in *.
  - injection E as -> ->. auto.
  - exfalso. destruct H2 as [->|[->| ->]]; cbn in E; injection E as E _; lia.
  - exfalso. unfold special in E. destruct unicode; cbn in E; injection E as E _; [lia|].
    now apply (proj2 H1 eq_refl).
  - exfalso. destruct H1 as [->|[->| ->]]; cbn in E; injection E as E _; lia.
  - destruct H1 as [->|[->| ->]], H2 as [->|[->| ->]]; cbn in E; injection E; intros; subst; auto; discriminate.
  - exfalso. unfold special in E. destruct H1 as [->|[->| ->]]; destruct unicode; cbn in E; discriminate.
  - exfalso. unfold special in E. destruct unicode; cbn in E; injection E as E _; [lia|].
    symmetry in E. now apply (proj2 H2 eq_refl).
  - exfalso. unfold special in E. destruct H2 as [->|[->| ->]]; destruct unicode; cbn in E; discriminate.
  - unfold special in E. destruct unicode.
    + rewrite <- !app_assoc in E. apply app_inv_head in E. change (str "⟩") with [226; 159; 169] in E. cbn [app] in E.
      destruct (ascii_split s1 s2 _ _ 226 226 H1 H2 ltac:(lia) ltac:(lia) E) as (-> & F). injection F as ->. auto.
    + rewrite <- !app_assoc in E. apply app_inv_head in E.
      destruct s1 as [|a s1]; [contradiction|]. destruct s2 as [|b s2]; [contradiction|].
      cbn [app] in E. injection E as -> E. cbn [length] in H1, H2. rewrite <- H2 in H1.
      assert (L : length s1 = length s2) by lia. 
      assert (F : s1 = s2 /\ r1 = r2).
      { clear -E L. revert s2 L E. induction s1 as [|x s1 IH]; intros [|y s2] L E; cbn in *; try discriminate; auto.
        injection E as -> E. destruct (IH s2 ltac:(lia) E) as (-> & ->). auto. }
      destruct F as (-> & ->). auto.
Qed.
Lemma toks_injective l1 : forall l2, Forall tok_ok l1 -> Forall tok_ok l2 ->
  concat (map tok_text l1) = concat (map tok_text l2) -> l1 = l2.
Proof.
  assert (Hne : forall k, tok_ok k -> tok_text k <> []).
  { intros [c|s|s] H; cbn.
    - discriminate.
    - destruct H as [->|[->| ->]]; discriminate.
    - unfold special. destruct unicode; discriminate. }
  induction l1 as [|k1 l1 IH]; intros [|k2 l2] H1 H2 E; cbn [map concat] in E.
  - reflexivity.
  - exfalso. inversion H2; subst. symmetry in E. apply app_eq_nil in E. now apply (Hne k2).
  - exfalso. inversion H1; subst. apply app_eq_nil in E. now apply (Hne k1).
  - inversion H1; subst. inversion H2; subst. destruct (tok_prefix k1 k2 _ _ ltac:(assumption) ltac:(assumption) E) as (-> & E').
    f_equal. now apply IH.
Qed.

(** ** What a character stands for *)
Inductive item := IPoint (cp : N) | IByte (b : N).
Definition num (s : list N) : N := match numeral 0 s with Some n => n | None => 0 end.
Definition meaning (k : tok) : item :=
  match k with
  | TChar c => IPoint c
  | TSym s => IPoint s
  | TSpec s =>
    match s with
    | [] => IPoint 0
    | c :: s' =>
      if unicode then
        if c =? 0x4E then IPoint 0 else if c =? 0x43 then IPoint 0x0D else if c =? 0x4C then IPoint 0x0A
        else if c =? 0x48 then IPoint 0x09 else if c =? 0x53 then IPoint 0x20
        else if c =? 0x55 then IPoint (num (tl s')) else IByte (num (tl s'))
      else
        if c =? 0x30 then IPoint 0 else if c =? 0x72 then IPoint 0x0D else if c =? 0x6E then IPoint 0x0A
        else if c =? 0x74 then IPoint 0x09 else if c =? 0x5C then IPoint 0x5C
        else if c =? 0x78 then IByte (num s') else IPoint (num s')
    end
  end.

Lemma ascii_app (a b : list N) : Forall (fun c => c < 0x80) a -> Forall (fun c => c < 0x80) b -> Forall (fun c => c < 0x80) (a ++ b).
Proof. intros. now apply Forall_app. Qed.
Lemma ascii_str s : forallb (fun c => c <? 0x80) s = true -> Forall (fun c => c < 0x80) s.
Proof. intros H. apply Forall_forall. intros c Hc. rewrite forallb_forall in H. specialize (H c Hc). lia. Qed.
Ltac named_tok :=
  split; [unfold tok_ok; destruct unicode; [apply ascii_str; vm_compute; reflexivity|vm_compute; reflexivity]|
  split; [reflexivity|unfold meaning; destruct unicode; vm_compute; reflexivity]].
Lemma space_tok symbols space : exists k, tok_ok k /\ space_text unicode symbols space = tok_text k /\ meaning k = IPoint 0x20.
Proof.
  unfold space_text, named. destruct space; [destruct symbols|].
  - exists (TSym 0x20). cbn. auto.
  - exists (TSpec (if unicode then str "SP" else str "u0020")). named_tok.
  - exists (TChar 0x20). cbn. split; [split; [lia|discriminate]|auto].
Qed.
Lemma point_tok symbols space cp t : cp <= 0x10FFFF -> point_text unicode symbols space 0 cp t ->
  exists k, tok_ok k /\ t = tok_text k /\ meaning k = IPoint cp.
Proof.
  intros Hv H. destruct H as [cp H| | | | | | |cp H Hn|cp s H H0 HD HA H9 Hs Hl].
  - lia.
  - exists (TSpec (if unicode then str "NUL" else str "0")). named_tok.
  - exists (TSpec (if unicode then str "CR" else str "r")). named_tok.
  - destruct symbols; [exists (TSym 0x0A); cbn; auto|].
    exists (TSpec (if unicode then str "LF" else str "n")). named_tok.
  - cbn [N.eqb]. destruct symbols; [exists (TSym 0x09); cbn; auto|].
    exists (TSpec (if unicode then str "HT" else str "t")). named_tok.
  - apply space_tok.
  - destruct unicode eqn:Eu.
    + exists (TChar 0x5C). cbn [tok_ok]. rewrite Eu. split; [split; [lia|discriminate]|]. split; reflexivity.
    + exists (TSpec (str "\")). cbn [tok_ok tok_text meaning]. rewrite Eu. split; [reflexivity|]. split; reflexivity.
  - exists (TChar cp). cbn. split; [split; [lia|auto]|auto].
  - exists (TSpec (str (if unicode then "U+" else if cp <=? 0xFFFF then "u" else "U") ++ s)).
    split; [|split; [reflexivity|]].
    + cbn [tok_ok]. destruct unicode.
      * apply ascii_app; [apply ascii_str; vm_compute; reflexivity|]. eapply numeral_chars; exact Hs.
      * destruct (cp <=? 0xFFFF); cbn; rewrite Hl; reflexivity.
    + cbn [meaning]. destruct unicode; [|destruct (cp <=? 0xFFFF)]; cbn; unfold num; rewrite Hs; reflexivity.
Qed.
Lemma byte_tok b t : byte_text unicode b t -> exists k, tok_ok k /\ t = tok_text k /\ meaning k = IByte b.
Proof.
  intros [b' s Hs Hl]. exists (TSpec (str (if unicode then "0x" else "x") ++ s)).
  split; [|split; [reflexivity|]].
  - cbn [tok_ok]. destruct unicode; [apply ascii_app; [apply ascii_str; vm_compute; reflexivity|]; eapply numeral_chars; exact Hs|].
    cbn. now rewrite Hl.
  - cbn [meaning]. destruct unicode; cbn; unfold num; now rewrite Hs.
Qed.

(** The items of a piece. *)
Definition items (p : piece) : list item :=
  match p with Point cp => [IPoint cp] | Ill us => map IByte (concat (map unit_bytes us)) end.
Definition piece_ok (p : piece) : Prop := match p with Point cp => cp <= 0x10FFFF | Ill _ => True end.

Lemma piece_toks symbols space p t : piece_ok p -> piece_text unicode symbols space 0 p t ->
  exists ks, Forall tok_ok ks /\ t = concat (map tok_text ks) /\ map meaning ks = items p.
Proof.
  destruct p as [cp|us]; intros Hok H.
  - destruct (point_tok symbols space cp t Hok H) as (k & K & -> & M). exists [k].
    split; [constructor; [exact K|constructor]|]. split; [cbn; now rewrite app_nil_r|]. cbn. now rewrite M.
  - destruct H as (ts & F & ->). cbn [items].
    induction F as [|b t bs ts Hb _ (ks & K & E & M)]; [exists []; auto|].
    destruct (byte_tok b t Hb) as (k & Kk & -> & Mk). exists (k :: ks).
    split; [constructor; assumption|]. cbn [map concat]. rewrite E, M, Mk. auto.
Qed.
Lemma pieces_toks symbols space ps ts : Forall piece_ok ps -> Forall2 (piece_text unicode symbols space 0) ps ts ->
  exists ks, Forall tok_ok ks /\ concat ts = concat (map tok_text ks) /\ map meaning ks = concat (map items ps).
Proof.
  intros Hok F. induction F as [|p t ps ts Hp _ IH]; [exists []; auto|].
  inversion Hok as [|? ? H1 H2]; subst. destruct (IH H2) as (ks & K & E & M).
  destruct (piece_toks symbols space p t H1 Hp) as (k1 & K1 & -> & M1).
  exists (k1 ++ ks). split; [now apply Forall_app|]. cbn [map concat]. rewrite !map_app, concat_app, E, M, M1. auto.
Qed.
Lemma raw_injective b1 b2 t1 t2 r1 r2 : raw_text unicode b1 t1 -> raw_text unicode b2 t2 ->
  t1 ++ r1 = t2 ++ r2 -> b1 = b2 /\ r1 = r2.
Proof.
  intros [x1 s1 N1 L1] [x2 s2 N2 L2] E. unfold special in E.
  assert (G : s1 = s2 /\ r1 = r2).
  { destruct unicode; rewrite <- !app_assoc in E; apply app_inv_head in E.
    - change (str "⟩") with [226; 159; 169] in E. cbn [app] in E.
      destruct (ascii_split s1 s2 _ _ 226 226 (numeral_chars _ _ _ N1) (numeral_chars _ _ _ N2) ltac:(lia) ltac:(lia) E) as (-> & F).
      injection F as ->. auto.
    - destruct s1 as [|a [|b [|]]]; try discriminate. destruct s2 as [|c [|d [|]]]; try discriminate.
      cbn in E. injection E as -> -> ->. auto. }
  destruct G as (-> & ->). split; [congruence|reflexivity].
Qed.
End Tok.

(** ** Pieces with the same text *)
Lemma shows_items o ps1 ps2 t : vo_tab_width o = 0 -> vo_max_lexeme_width o = 0 ->
  Forall piece_ok ps1 -> Forall piece_ok ps2 ->
  shows_pieces o ps1 t -> shows_pieces o ps2 t -> concat (map items ps1) = concat (map items ps2).
Proof.
  intros Ht Hw K1 K2 (t1 & E1) (t2 & E2). rewrite Hw, Ht in *. cbn [N.eqb orb] in *.
  destruct E1 as (F1 & ->), E2 as (F2 & E).
  destruct (pieces_toks _ _ _ _ _ K1 F1) as (k1 & O1 & T1 & M1).
  destruct (pieces_toks _ _ _ _ _ K2 F2) as (k2 & O2 & T2 & M2).
  rewrite T1, T2 in E. apply toks_injective in E; try assumption. subst. congruence.
Qed.
Lemma shows_bytes_injective o b1 : forall b2 t, vo_max_lexeme_width o = 0 ->
  shows_bytes o b1 t -> shows_bytes o b2 t -> b1 = b2.
Proof.
  intros b2 t Hw (t1 & E1) (t2 & E2). rewrite Hw in *. cbn [N.eqb orb] in *.
  destruct E1 as (F1 & ->), E2 as (F2 & E). revert b2 t2 F2 E.
  induction F1 as [|b t bs ts Hb F1 IH]; intros b2 t2 F2 E.
  - destruct F2 as [|? ? ? ? H F2]; [reflexivity|exfalso]. destruct H as [? s _ L]. cbn [concat] in E.
    symmetry in E. apply app_eq_nil in E. destruct E as (E & _). unfold special in E.
    destruct (is_set o visualize_use_unicode); discriminate.
  - destruct F2 as [|? ? ? ? H F2].
    { exfalso. destruct Hb as [? s _ L]. cbn [concat] in E. apply app_eq_nil in E. destruct E as (E & _).
      unfold special in E. destruct (is_set o visualize_use_unicode); discriminate. }
    cbn [concat] in E. destruct (raw_injective _ _ _ _ _ _ _ Hb H E) as (-> & E'). f_equal. now apply (IH _ _ F2).
Qed.

(** ** Units from items *)
Definition item_units (e : encoding) (i : item) : list N :=
  match i with IPoint cp => encode_code_point e cp | IByte b => [b] end.
Lemma utf8_units us : forall ps, Forall (fun c => c < 256) us -> read_as Utf8 us ps ->
  Forall piece_ok ps /\ us = concat (map (item_units Utf8) (concat (map items ps))).
Proof.
  intros ps. revert us. induction ps as [|[cp|l] ps IH]; intros us Hu H; cbn [read_as] in H.
  - subst. split; [constructor|reflexivity].
  - destruct H as (Hs & rest & -> & R). apply Forall_app in Hu. destruct (IH rest (proj2 Hu) R) as (O & E).
    split; [constructor; [unfold scalar in Hs; cbn; lia|exact O]|].
    cbn [map concat items app item_units]. now rewrite <- E.
  - destruct H as (_ & _ & rest & -> & R). apply Forall_app in Hu. destruct (IH rest (proj2 Hu) R) as (O & E).
    split; [constructor; [exact I|exact O]|].
    cbn [map concat items]. rewrite map_app, concat_app, <- E. f_equal.
    destruct Hu as (Hl & _). clear -Hl. induction Hl as [|c l Hc _ IH]; [reflexivity|].
    cbn [map concat]. rewrite !map_app, concat_app, <- IH. unfold unit_bytes. change (2 ^ 8) with 256.
    now replace (c <? 256) with true by lia.
Qed.
Lemma utf16_wf_fun c c' us : utf16_wf c us -> utf16_wf c' us -> c = c'.
Proof.
  intros (_ & H) (_ & H'). destruct us as [|h [|l [|]]]; try contradiction; [lia|].
  destruct H as (_ & _ & ->), H' as (_ & _ & ->). reflexivity.
Qed.
Lemma encode_prefix e c c' r r' : e <> Ascii -> scalar c -> scalar c' ->
  encode_code_point e c ++ r = encode_code_point e c' ++ r' -> c = c' /\ r = r'.
Proof.
  intros He Hc Hc' E. destruct e; [congruence| | |].
  - assert (P := utf8_roundtrip c r Hc). rewrite E, (utf8_roundtrip c' r' Hc') in P. injection P as -> _.
    split; [reflexivity|now apply app_inv_head in E].
  - destruct (utf16_roundtrip_part c r Hc) as (W & P). destruct (utf16_roundtrip_part c' r' Hc') as (W' & P').
    rewrite E, P' in P. apply (f_equal cr_end) in P. cbn [cr_end] in P. rename P into L.
    assert (G : encode_code_point Utf16 c = encode_code_point Utf16 c').
    { apply (f_equal (firstn (length (encode_code_point Utf16 c)))) in E.
      rewrite firstn_app, firstn_all, Nat.sub_diag, app_nil_r in E. rewrite <- L in E.
      now rewrite firstn_app, firstn_all, Nat.sub_diag, app_nil_r in E. }
    rewrite G in W. assert (c = c') by exact (utf16_wf_fun _ _ _ W W'). subst. split; [reflexivity|now apply app_inv_head in E].
  - cbn in E. injection E as -> ->. auto.
Qed.
Lemma encode_encodes e c r : e <> Ascii -> scalar c -> encodes (Enc e) (encode_code_point e c ++ r) c (length (encode_code_point e c)).
Proof.
  intros He Hc. split; [rewrite app_length; lia|].
  rewrite firstn_app, firstn_all, Nat.sub_diag, app_nil_r.
  destruct e; [congruence|now apply encode_utf8_wf|now apply utf16_encode_wf|split; [exact Hc|reflexivity]].
Qed.
Lemma encode_nonempty e c : encode_code_point e c <> [].
Proof. destruct e; cbn; repeat (match goal with |- context [if ?b then _ else _] => destruct b end); discriminate. Qed.
Lemma wf_pieces e : e <> Ascii -> forall cps ps, Forall scalar cps -> read_as e (encoded e cps) ps -> ps = map Point cps.
Proof.
  intros He cps. induction cps as [|c cps IH]; intros ps Hs H.
  - destruct ps as [|[cp|l] ps]; [reflexivity|exfalso|exfalso]; cbn in H.
    + destruct H as (_ & rest & E & _). symmetry in E. apply app_eq_nil in E. now apply (encode_nonempty e cp).
    + destruct H as (Hn & _ & rest & E & _). symmetry in E. apply app_eq_nil in E. tauto.
  - inversion Hs as [|? ? H1 H2]; subst. change (encoded e (c :: cps)) with (encode_code_point e c ++ encoded e cps) in H.
    destruct ps as [|[cp|l] ps]; cbn [read_as] in H.
    + exfalso. apply app_eq_nil in H. now apply (encode_nonempty e c).
    + destruct H as (Hp & rest & E & R). destruct (encode_prefix e _ _ _ _ He H1 Hp E) as (-> & <-).
      cbn [map]. f_equal. now apply IH.
    + exfalso. destruct H as (_ & Hn & _). eapply Hn. now apply encode_encodes.
Qed.
Lemma point_items l : concat (map items (map Point l)) = map IPoint l.
Proof. induction l as [|c l IH]; [reflexivity|]. cbn [map concat items app]. now rewrite IH. Qed.
Lemma char_items_units us : Forall (fun c => c < 256) us ->
  us = map (fun i => match i with IPoint c => c | IByte b => b end) (concat (map items (map char_piece us))).
Proof.
  intros H. induction H as [|c us Hc _ IH]; [reflexivity|]. cbn [map concat]. rewrite map_app, <- IH.
  unfold char_piece. destruct (N.ltb_spec c 0x80) as [L|L]; [reflexivity|].
  cbn [items map concat app]. unfold unit_bytes. change (2 ^ 8) with 256. now replace (c <? 256) with true by lia.
Qed.
Lemma char_pieces_ok us : Forall (fun c => c < 256) us -> Forall piece_ok (map char_piece us).
Proof.
  intros H. induction H as [|c us Hc _ IH]; [constructor|]. constructor; [|exact IH].
  unfold char_piece. destruct (N.ltb_spec c 0x80) as [L|L]; cbn; [lia|exact I].
Qed.
