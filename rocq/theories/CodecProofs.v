From Verif Require Import Prelude CodecModel CodecSpec.
Open Scope N_scope.

(** ** Bit patterns as arithmetic *)
Ltac bits_norm :=
  change 0x7F with (N.ones 7) in *; change 0x3F with (N.ones 6) in *;
  change 0x1F with (N.ones 5) in *; change 0x0F with (N.ones 4) in *;
  change 0x07 with (N.ones 3) in *; change 0x3FF with (N.ones 10) in *.

Lemma ldiff7 x : N.ldiff x 0x7F = x / 128 * 128.
Proof. exact (ldiff_ones_div x 7). Qed.
Lemma ldiff6 x : N.ldiff x 0x3F = x / 64 * 64.
Proof. exact (ldiff_ones_div x 6). Qed.
Lemma ldiff5 x : N.ldiff x 0x1F = x / 32 * 32.
Proof. exact (ldiff_ones_div x 5). Qed.
Lemma ldiff4 x : N.ldiff x 0x0F = x / 16 * 16.
Proof. exact (ldiff_ones_div x 4). Qed.
Lemma ldiff3 x : N.ldiff x 0x07 = x / 8 * 8.
Proof. exact (ldiff_ones_div x 3). Qed.
Lemma ldiff10 x : N.ldiff x 0x3FF = x / 1024 * 1024.
Proof. exact (ldiff_ones_div x 10). Qed.
Lemma land6 x : N.land x 0x3F = x mod 64.
Proof. exact (land_ones_mod x 6). Qed.
Lemma land5 x : N.land x 0x1F = x mod 32.
Proof. exact (land_ones_mod x 5). Qed.
Lemma land4 x : N.land x 0x0F = x mod 16.
Proof. exact (land_ones_mod x 4). Qed.
Lemma land3 x : N.land x 0x07 = x mod 8.
Proof. exact (land_ones_mod x 3). Qed.
Lemma land10 x : N.land x 0x3FF = x mod 1024.
Proof. exact (land_ones_mod x 10). Qed.
Lemma lor80 x : x < 64 -> N.lor 0x80 x = 0x80 + x.
Proof. intros H. exact (lor_high_low 2 x 6 H). Qed.
Lemma lorC0 x : x < 32 -> N.lor 0xC0 x = 0xC0 + x.
Proof. intros H. exact (lor_high_low 6 x 5 H). Qed.
Lemma lorE0 x : x < 16 -> N.lor 0xE0 x = 0xE0 + x.
Proof. intros H. exact (lor_high_low 14 x 4 H). Qed.
Lemma lorF0 x : x < 8 -> N.lor 0xF0 x = 0xF0 + x.
Proof. intros H. exact (lor_high_low 30 x 3 H). Qed.
Lemma lor_shl6 a b : b < 64 -> N.lor (N.shiftl a 6) b = a * 64 + b.
Proof. intros H. rewrite shiftl_mul. exact (lor_high_low a b 6 H). Qed.
Lemma lor_shl10 a b : b < 1024 -> N.lor (N.shiftl a 10) b = a * 1024 + b.
Proof. intros H. rewrite shiftl_mul. exact (lor_high_low a b 10 H). Qed.
Lemma shr6 x : N.shiftr x 6 = x / 64.
Proof. exact (shiftr_div x 6). Qed.
Lemma shr10 x : N.shiftr x 10 = x / 1024.
Proof. exact (shiftr_div x 10). Qed.
Lemma shr12 x : N.shiftr x 12 = x / 4096.
Proof. exact (shiftr_div x 12). Qed.
Lemma shr18 x : N.shiftr x 18 = x / 262144.
Proof. exact (shiftr_div x 18). Qed.

Lemma mod_lt_pos a b : 0 < b -> a mod b < b.
Proof. intros; apply N.mod_lt; lia. Qed.

Ltac arith_bits :=
  rewrite ?ldiff7, ?ldiff6, ?ldiff5, ?ldiff4, ?ldiff3, ?ldiff10,
    ?land6, ?land5, ?land4, ?land3, ?land10, ?shr6, ?shr10, ?shr12, ?shr18 in *;
  repeat first
    [ rewrite lor80 in * by (apply mod_lt_pos; lia)
    | rewrite lorC0 in * by (apply mod_lt_pos; lia)
    | rewrite lorE0 in * by (apply mod_lt_pos; lia)
    | rewrite lorF0 in * by (apply mod_lt_pos; lia)
    | rewrite lor_shl6 in * by (apply mod_lt_pos; lia)
    | rewrite lor_shl10 in * by (apply mod_lt_pos; lia) ].

(** Arithmetic characterisation of the UTF-8 encoder. *)
Lemma encode_utf8_arith cp :
  encode_code_point Utf8 cp =
  if cp <=? 0x7F then [cp]
  else if cp <=? 0x7FF then [0xC0 + (cp / 64) mod 32; 0x80 + cp mod 64]
  else if cp <=? 0xFFFF then
    [0xE0 + (cp / 4096) mod 16; 0x80 + (cp / 64) mod 64; 0x80 + cp mod 64]
  else [0xF0 + (cp / 262144) mod 8; 0x80 + (cp / 4096) mod 64;
        0x80 + (cp / 64) mod 64; 0x80 + cp mod 64].
Proof. unfold encode_code_point. arith_bits. reflexivity. Qed.

(** Arithmetic characterisation of the UTF-8 decoder on bytes. *)
Definition cont_b (c : N) : bool := (0x80 <=? c) && (c <? 0xC0).

Lemma is_cont_b c : is_cont c = cont_b c.
Proof. unfold is_cont, cont_b. rewrite ldiff6. lia. Qed.

Definition parse_utf8_arith (r0 : list N) : cp_result :=
  let b0 := peek Utf8 r0 in
  let r1 := tl r0 in let b1 := peek Utf8 r1 in
  let r2 := tl r1 in let b2 := peek Utf8 r2 in
  let r3 := tl r2 in let b3 := peek Utf8 r3 in
  if b0 <? 0x80 then CpResult b0 success 1
  else if b0 <? 0xC0 then CpResult 0 leads_with_trailing 0
  else if b0 <? 0xE0 then
    if negb (cont_b b1) then CpResult 0 missing_trailing 1
    else let cp := (b0 - 0xC0) * 64 + (b1 - 0x80) in
         if b0 <? 0xC2 then CpResult cp overlong_sequence 2 else CpResult cp success 2
  else if b0 <? 0xF0 then
    if negb (cont_b b1) then CpResult 0 missing_trailing 1
    else if negb (cont_b b2) then CpResult 0 missing_trailing 2
    else let cp := (b0 - 0xE0) * 4096 + (b1 - 0x80) * 64 + (b2 - 0x80) in
         if (0xD800 <=? cp) && (cp <=? 0xDFFF) then CpResult cp surrogate 3
         else if (b0 =? 0xE0) && (b1 <? 0xA0) then CpResult cp overlong_sequence 3
         else CpResult cp success 3
  else if b0 <? 0xF8 then
    if negb (cont_b b1) then CpResult 0 missing_trailing 1
    else if negb (cont_b b2) then CpResult 0 missing_trailing 2
    else if negb (cont_b b3) then CpResult 0 missing_trailing 3
    else let cp := (b0 - 0xF0) * 262144 + (b1 - 0x80) * 4096 + (b2 - 0x80) * 64 + (b3 - 0x80) in
         if 0x10FFFF <? cp then CpResult cp out_of_range 4
         else if (b0 =? 0xF0) && (b1 <? 0x90) then CpResult cp overlong_sequence 4
         else CpResult cp success 4
  else CpResult 0 cp_eof 0.

Lemma parse_utf8_eq r0 :
  Forall (fun c => c < 0x100) r0 ->
  parse_code_point Utf8 r0 = parse_utf8_arith r0.
Proof.
  intros Hr.
  assert (Hpk : forall r, Forall (fun c => c < 0x100) r -> peek Utf8 r < 0x100).
  { intros r Hf. destruct Hf; simpl; [reflexivity|assumption]. }
  assert (Htl : forall r, Forall (fun c => c < 0x100) r -> Forall (fun c => c < 0x100) (tl r)).
  { intros r Hf. destruct Hf; simpl; auto. }
  unfold parse_code_point, parse_utf8_arith. cbv zeta. arith_bits.
  rewrite !is_cont_b.
  pose proof (Hpk _ Hr) as H0.
  pose proof (Hpk _ (Htl _ Hr)) as H1.
  pose proof (Hpk _ (Htl _ (Htl _ Hr))) as H2.
  pose proof (Hpk _ (Htl _ (Htl _ (Htl _ Hr)))) as H3.
  revert H0 H1 H2 H3.
  generalize (peek Utf8 r0), (peek Utf8 (tl r0)), (peek Utf8 (tl (tl r0))),
    (peek Utf8 (tl (tl (tl r0)))).
  clear. intros b0 b1 b2 b3 H0 H1 H2 H3.
  replace (b0 / 128 * 128 =? 0) with (b0 <? 0x80) by lia.
  destruct (b0 <? 0x80) eqn:E0; [reflexivity|].
  replace (b0 / 64 * 64 =? 0x80) with (b0 <? 0xC0) by lia.
  destruct (b0 <? 0xC0) eqn:E1; [reflexivity|].
  replace (b0 / 32 * 32 =? 0xC0) with (b0 <? 0xE0) by lia.
  destruct (b0 <? 0xE0) eqn:E2.
  { unfold cont_b. destruct ((0x80 <=? b1) && (b1 <? 0xC0)) eqn:Ec; cbn [negb]; [|reflexivity].
    replace ((b0 =? 0xC0) || (b0 =? 0xC1)) with (b0 <? 0xC2) by lia.
    replace (b0 mod 32 * 64 + b1 mod 64) with ((b0 - 0xC0) * 64 + (b1 - 0x80)) by lia.
    reflexivity. }
  replace (b0 / 16 * 16 =? 0xE0) with (b0 <? 0xF0) by lia.
  destruct (b0 <? 0xF0) eqn:E3.
  { unfold cont_b. destruct ((0x80 <=? b1) && (b1 <? 0xC0)) eqn:Ec; cbn [negb]; [|reflexivity].
    destruct ((0x80 <=? b2) && (b2 <? 0xC0)) eqn:Ec2; cbn [negb]; [|reflexivity].
    replace ((b0 mod 16 * 64 + b1 mod 64) * 64 + b2 mod 64)
      with ((b0 - 0xE0) * 4096 + (b1 - 0x80) * 64 + (b2 - 0x80)) by lia.
    reflexivity. }
  replace (b0 / 8 * 8 =? 0xF0) with (b0 <? 0xF8) by lia.
  destruct (b0 <? 0xF8) eqn:E4; [|reflexivity].
  unfold cont_b. destruct ((0x80 <=? b1) && (b1 <? 0xC0)) eqn:Ec; cbn [negb]; [|reflexivity].
  destruct ((0x80 <=? b2) && (b2 <? 0xC0)) eqn:Ec2; cbn [negb]; [|reflexivity].
  destruct ((0x80 <=? b3) && (b3 <? 0xC0)) eqn:Ec3; cbn [negb]; [|reflexivity].
  replace (((b0 mod 8 * 64 + b1 mod 64) * 64 + b2 mod 64) * 64 + b3 mod 64)
    with ((b0 - 0xF0) * 262144 + (b1 - 0x80) * 4096 + (b2 - 0x80) * 64 + (b3 - 0x80)) by lia.
  reflexivity.
Qed.

Definition byte (c : N) : Prop := c < 0x100.

Lemma utf8_value_units bs cp : utf8_value bs = Some cp -> Forall byte bs.
Proof.
  unfold utf8_value, between, cont_byte, byte.
  destruct bs as [|a [|b [|c [|d [|]]]]]; intros H; try discriminate;
    repeat constructor;
    match type of H with (if ?c then _ else _) = _ => destruct c eqn:E; [|discriminate] end;
    unfold between in *; lia.
Qed.

Lemma utf8_value_lt bs cp :
  utf8_value bs = Some cp ->
  (length bs = 1%nat -> cp < 0x80) /\ (length bs = 2%nat -> cp < 0x800) /\
  (length bs = 3%nat -> cp < 0x10000) /\ (1 <= length bs)%nat.
Proof.
  unfold utf8_value, between, cont_byte.
  destruct bs as [|a [|b [|c [|d [|]]]]]; intros H; try discriminate;
    match type of H with (if ?c then _ else _) = _ => destruct c eqn:E; [|discriminate] end;
    unfold between in *; injection H as <-; simpl length; lia.
Qed.

Lemma encode_utf8_value cp :
  cp <= 0x10FFFF -> utf8_value (encode_code_point Utf8 cp) = Some cp.
Proof.
  intros Hcp. rewrite encode_utf8_arith.
  destruct (cp <=? 0x7F) eqn:E1; [cbn [utf8_value]; replace (cp <? 0x80) with true by lia; reflexivity|].
  destruct (cp <=? 0x7FF) eqn:E2.
  { cbn [utf8_value]. unfold between, cont_byte, between.
    match goal with |- (if ?c then _ else _) = _ => replace c with true by lia end.
    f_equal. lia. }
  destruct (cp <=? 0xFFFF) eqn:E3.
  { cbn [utf8_value]. unfold between, cont_byte, between.
    match goal with |- (if ?c then _ else _) = _ => replace c with true by lia end.
    f_equal. lia. }
  cbn [utf8_value]. unfold between, cont_byte, between.
  match goal with |- (if ?c then _ else _) = _ => replace c with true by lia end.
  f_equal. lia.
Qed.

Lemma encode_utf8_length cp :
  length (encode_code_point Utf8 cp) =
  if cp <=? 0x7F then 1%nat else if cp <=? 0x7FF then 2%nat else if cp <=? 0xFFFF then 3%nat else 4%nat.
Proof.
  rewrite encode_utf8_arith. destruct (cp <=? 0x7F), (cp <=? 0x7FF), (cp <=? 0xFFFF); reflexivity.
Qed.

Lemma encode_utf8_wf cp : scalar cp -> utf8_wf cp (encode_code_point Utf8 cp).
Proof.
  intros Hs. split; [exact Hs|]. split.
  { apply encode_utf8_value. unfold scalar in Hs; lia. }
  intros bs' H'. pose proof (utf8_value_lt _ _ H') as (L1 & L2 & L3 & L0).
  rewrite encode_utf8_length.
  destruct (cp <=? 0x7F) eqn:E1; [lia|].
  destruct (cp <=? 0x7FF) eqn:E2; [lia|].
  destruct (cp <=? 0xFFFF) eqn:E3; lia.
Qed.

Ltac fin_case := eexists; split; [reflexivity|split; [reflexivity|auto]].

(** A shape-correct sequence decides the decoder's result on any continuation. *)
Lemma parse_utf8_value bs cp rest :
  utf8_value bs = Some cp ->
  exists err, parse_code_point Utf8 (bs ++ rest) = CpResult cp err (length bs) /\
    (err = success <-> scalar cp /\ bs = encode_code_point Utf8 cp) /\
    (err = success \/ err = surrogate \/ err = overlong_sequence \/ err = out_of_range).
Proof.
  intros H. pose proof H as Hv.
  assert (Harith : forall r, Forall byte r -> parse_code_point Utf8 r = parse_utf8_arith r)
    by exact parse_utf8_eq.
  (* The decoder never looks beyond [length bs] units. *)
  assert (Hcut : exists err, parse_code_point Utf8 (bs ++ rest) = CpResult cp err (length bs)
     /\ parse_code_point Utf8 bs = CpResult cp err (length bs)
     /\ (err = success \/ err = surrogate \/ err = overlong_sequence \/ err = out_of_range)).
  { unfold utf8_value, between, cont_byte, between in H.
    destruct bs as [|a [|b [|c [|d [|]]]]]; try discriminate;
    match type of H with (if ?c then _ else _) = _ => destruct c eqn:E; [|discriminate] end;
    injection H as <-; unfold parse_code_point; cbn [app peek tl]; arith_bits; rewrite ?is_cont_b;
    unfold cont_b; cbv zeta.
    - replace (a / 128 * 128 =? 0) with true by lia. fin_case.
    - replace (a / 128 * 128 =? 0) with false by lia.
      replace (a / 64 * 64 =? 0x80) with false by lia.
      replace (a / 32 * 32 =? 0xC0) with true by lia.
      match goal with |- context [negb ?c] => replace c with true by lia end. cbn [negb].
      replace (a mod 32 * 64 + b mod 64) with ((a - 0xC0) * 64 + (b - 0x80)) by lia.
      destruct ((a =? 0xC0) || (a =? 0xC1)); fin_case.
    - replace (a / 128 * 128 =? 0) with false by lia.
      replace (a / 64 * 64 =? 0x80) with false by lia.
      replace (a / 32 * 32 =? 0xC0) with false by lia.
      replace (a / 16 * 16 =? 0xE0) with true by lia.
      replace ((0x80 <=? b) && (b <? 0xC0)) with true by lia.
      replace ((0x80 <=? c) && (c <? 0xC0)) with true by lia. cbn [negb].
      replace ((a mod 16 * 64 + b mod 64) * 64 + c mod 64)
        with ((a - 0xE0) * 4096 + (b - 0x80) * 64 + (c - 0x80)) by lia.
      match goal with |- context [if ?x then CpResult _ surrogate _ else _] => destruct x end;
        [fin_case|].
      destruct ((a =? 0xE0) && (b <? 0xA0)); fin_case.
    - replace (a / 128 * 128 =? 0) with false by lia.
      replace (a / 64 * 64 =? 0x80) with false by lia.
      replace (a / 32 * 32 =? 0xC0) with false by lia.
      replace (a / 16 * 16 =? 0xE0) with false by lia.
      replace (a / 8 * 8 =? 0xF0) with true by lia.
      replace ((0x80 <=? b) && (b <? 0xC0)) with true by lia.
      replace ((0x80 <=? c) && (c <? 0xC0)) with true by lia.
      replace ((0x80 <=? d) && (d <? 0xC0)) with true by lia. cbn [negb].
      replace (((a mod 8 * 64 + b mod 64) * 64 + c mod 64) * 64 + d mod 64)
        with ((a - 0xF0) * 262144 + (b - 0x80) * 4096 + (c - 0x80) * 64 + (d - 0x80)) by lia.
      match goal with |- context [if ?x then CpResult _ out_of_range _ else _] => destruct x end;
        [fin_case|].
      destruct ((a =? 0xF0) && (b <? 0x90)); fin_case. }
  destruct Hcut as (err & Hp & Hp0 & Hcl). exists err. split; [exact Hp|]. split; [|exact Hcl]. clear Hp rest Hcl.
  rewrite Harith in Hp0 by (eapply utf8_value_units; exact Hv).
  rewrite encode_utf8_arith. clear Harith.
  unfold utf8_value, between, cont_byte, between in H.
  destruct bs as [|a [|b [|c [|d [|]]]]]; try discriminate;
    match type of H with (if ?c then _ else _) = _ => destruct c eqn:E; [|discriminate] end;
    injection H as Hcp; unfold parse_utf8_arith, cont_b in Hp0; cbn [peek tl] in Hp0; cbv zeta in Hp0.
  - replace (a <? 0x80) with true in Hp0 by lia. injection Hp0 as _ He; subst err.
    split; [|reflexivity]. intros _. subst. unfold scalar. split; [lia|].
    replace (cp <=? 0x7F) with true by lia. reflexivity.
  - replace (a <? 0x80) with false in Hp0 by lia.
    replace (a <? 0xC0) with false in Hp0 by lia.
    replace (a <? 0xE0) with true in Hp0 by lia.
    match type of Hp0 with context [negb ?c] => replace c with true in Hp0 by lia end.
    cbn [negb] in Hp0.
    destruct (a <? 0xC2) eqn:Ea; injection Hp0 as _ He; subst err.
    + split; [discriminate|]. intros [_ He]. exfalso.
      replace (cp <=? 0x7F) with true in He by lia. discriminate.
    + split; [|reflexivity]. intros _. unfold scalar. split; [lia|].
      replace (cp <=? 0x7F) with false by lia. replace (cp <=? 0x7FF) with true by lia.
      f_equal; [lia|]. f_equal; lia.
  - replace (a <? 0x80) with false in Hp0 by lia.
    replace (a <? 0xC0) with false in Hp0 by lia.
    replace (a <? 0xE0) with false in Hp0 by lia.
    replace (a <? 0xF0) with true in Hp0 by lia.
    replace ((0x80 <=? b) && (b <? 0xC0)) with true in Hp0 by lia.
    replace ((0x80 <=? c) && (c <? 0xC0)) with true in Hp0 by lia.
    cbn [negb] in Hp0. rewrite Hcp in Hp0.
    destruct ((0xD800 <=? cp) && (cp <=? 0xDFFF)) eqn:Es.
    { injection Hp0 as <-. split; [discriminate|]. unfold scalar; intros [? _]; lia. }
    destruct ((a =? 0xE0) && (b <? 0xA0)) eqn:Eo; injection Hp0 as <-.
    { split; [discriminate|]. intros [_ He]. exfalso.
      replace (cp <=? 0x7FF) with true in He by lia. destruct (cp <=? 0x7F); discriminate. }
    split; [|reflexivity]. intros _. unfold scalar. split; [lia|].
    replace (cp <=? 0x7F) with false by lia. replace (cp <=? 0x7FF) with false by lia.
    replace (cp <=? 0xFFFF) with true by lia.
    f_equal; [lia|]. f_equal; [lia|]. f_equal; lia.
  - replace (a <? 0x80) with false in Hp0 by lia.
    replace (a <? 0xC0) with false in Hp0 by lia.
    replace (a <? 0xE0) with false in Hp0 by lia.
    replace (a <? 0xF0) with false in Hp0 by lia.
    replace (a <? 0xF8) with true in Hp0 by lia.
    replace ((0x80 <=? b) && (b <? 0xC0)) with true in Hp0 by lia.
    replace ((0x80 <=? c) && (c <? 0xC0)) with true in Hp0 by lia.
    replace ((0x80 <=? d) && (d <? 0xC0)) with true in Hp0 by lia.
    cbn [negb] in Hp0. rewrite Hcp in Hp0.
    destruct (0x10FFFF <? cp) eqn:Es.
    { injection Hp0 as <-. split; [discriminate|]. unfold scalar; intros [? _]; lia. }
    destruct ((a =? 0xF0) && (b <? 0x90)) eqn:Eo; injection Hp0 as <-.
    { split; [discriminate|]. intros [_ He]. exfalso.
      replace (cp <=? 0xFFFF) with true in He by lia.
      destruct (cp <=? 0x7F), (cp <=? 0x7FF); discriminate. }
    split; [|reflexivity]. intros _. unfold scalar. split; [lia|].
    replace (cp <=? 0x7F) with false by lia. replace (cp <=? 0x7FF) with false by lia.
    replace (cp <=? 0xFFFF) with false by lia.
    f_equal; [lia|]. f_equal; [lia|]. f_equal; [lia|]. f_equal; lia.
Qed.

Lemma utf8_roundtrip cp rest :
  scalar cp ->
  parse_code_point Utf8 (encode_code_point Utf8 cp ++ rest)
  = CpResult cp success (length (encode_code_point Utf8 cp)).
Proof.
  intros Hs.
  destruct (parse_utf8_value (encode_code_point Utf8 cp) cp rest) as (err & Hp & Herr & _).
  { apply encode_utf8_value. unfold scalar in Hs; lia. }
  rewrite Hp. f_equal. apply Herr. split; [exact Hs|reflexivity].
Qed.

(** Whenever the decoder consumed at least one whole sequence it was shape-correct. *)
Lemma parse_utf8_consumed r cp err n :
  Forall byte r -> parse_code_point Utf8 r = CpResult cp err n ->
  err = success \/ err = surrogate \/ err = overlong_sequence \/ err = out_of_range ->
  (n <= length r)%nat /\ utf8_value (firstn n r) = Some cp.
Proof.
  intros Hr Hp Herr. rewrite parse_utf8_eq in Hp by exact Hr.
  unfold parse_utf8_arith in Hp. cbv zeta in Hp.
  destruct r as [|a r].
  { cbn in Hp. unfold N.ltb in Hp; cbn in Hp. injection Hp as <- <- <-.
    destruct Herr as [|[|[|]]]; discriminate. }
  cbn [peek tl] in Hp. inversion Hr as [|? ? Ha Hr1]; subst. unfold byte in Ha.
  destruct (a <? 0x80) eqn:E0.
  { injection Hp as <- <- <-. cbn [firstn length utf8_value]. rewrite E0. split; [lia|reflexivity]. }
  destruct (a <? 0xC0) eqn:E1.
  { injection Hp as <- <- <-. destruct Herr as [|[|[|]]]; discriminate. }
  destruct (a <? 0xE0) eqn:E2.
  { destruct (negb (cont_b (peek Utf8 r))) eqn:Ec.
    { injection Hp as <- <- <-. destruct Herr as [|[|[|]]]; discriminate. }
    destruct r as [|b r]; [discriminate Ec|]. cbn [peek] in *. unfold cont_b in Ec.
    assert (Hn : n = 2%nat /\ cp = (a - 0xC0) * 64 + (b - 0x80)).
    { destruct (a <? 0xC2); injection Hp as <- <- <-; split; reflexivity. }
    destruct Hn as [-> ->]. cbn [firstn length utf8_value]. split; [lia|].
    unfold between, cont_byte, between.
    match goal with |- (if ?c then _ else _) = _ => replace c with true by lia end. reflexivity. }
  destruct (a <? 0xF0) eqn:E3.
  { destruct (negb (cont_b (peek Utf8 r))) eqn:Ec.
    { injection Hp as <- <- <-. destruct Herr as [|[|[|]]]; discriminate. }
    destruct r as [|b r]; [discriminate Ec|]. cbn [peek tl] in *.
    destruct (negb (cont_b (peek Utf8 r))) eqn:Ec2.
    { injection Hp as <- <- <-. destruct Herr as [|[|[|]]]; discriminate. }
    destruct r as [|c r]; [discriminate Ec2|]. cbn [peek tl] in *. unfold cont_b in Ec, Ec2.
    assert (Hn : n = 3%nat /\ cp = (a - 0xE0) * 4096 + (b - 0x80) * 64 + (c - 0x80)).
    { repeat match type of Hp with (if ?c then _ else _) = _ => destruct c end;
        injection Hp as <- <- <-; split; reflexivity. }
    destruct Hn as [-> ->]. cbn [firstn length utf8_value]. split; [lia|].
    unfold between, cont_byte, between.
    match goal with |- (if ?c then _ else _) = _ => replace c with true by lia end. reflexivity. }
  destruct (a <? 0xF8) eqn:E4.
  { destruct (negb (cont_b (peek Utf8 r))) eqn:Ec.
    { injection Hp as <- <- <-. destruct Herr as [|[|[|]]]; discriminate. }
    destruct r as [|b r]; [discriminate Ec|]. cbn [peek tl] in *.
    destruct (negb (cont_b (peek Utf8 r))) eqn:Ec2.
    { injection Hp as <- <- <-. destruct Herr as [|[|[|]]]; discriminate. }
    destruct r as [|c r]; [discriminate Ec2|]. cbn [peek tl] in *.
    destruct (negb (cont_b (peek Utf8 r))) eqn:Ec3.
    { injection Hp as <- <- <-. destruct Herr as [|[|[|]]]; discriminate. }
    destruct r as [|d r]; [discriminate Ec3|]. cbn [peek tl] in *. unfold cont_b in Ec, Ec2, Ec3.
    assert (Hn : n = 4%nat /\ cp = (a - 0xF0) * 262144 + (b - 0x80) * 4096 + (c - 0x80) * 64 + (d - 0x80)).
    { repeat match type of Hp with (if ?c then _ else _) = _ => destruct c end;
        injection Hp as <- <- <-; split; reflexivity. }
    destruct Hn as [-> ->]. cbn [firstn length utf8_value]. split; [lia|].
    unfold between, cont_byte, between.
    match goal with |- (if ?c then _ else _) = _ => replace c with true by lia end. reflexivity. }
  injection Hp as <- <- <-. destruct Herr as [|[|[|]]]; discriminate.
Qed.

Lemma utf8_sound r cp n :
  Forall byte r -> parse_code_point Utf8 r = CpResult cp success n ->
  (n <= length r)%nat /\ utf8_wf cp (firstn n r).
Proof.
  intros Hr Hp.
  destruct (parse_utf8_consumed _ _ _ _ Hr Hp (or_introl eq_refl)) as [Hn Hv].
  split; [exact Hn|].
  destruct (parse_utf8_value _ _ (skipn n r) Hv) as (err & Hp' & Herr & _).
  rewrite firstn_skipn, Hp in Hp'. injection Hp' as <- _.
  destruct (proj1 Herr eq_refl) as [Hs He]. rewrite He. apply encode_utf8_wf. exact Hs.
Qed.

Lemma utf8_wf_encode cp bs : utf8_wf cp bs -> bs = encode_code_point Utf8 cp.
Proof.
  intros (Hs & Hv & Hmin).
  assert (Hlen : length bs = length (encode_code_point Utf8 cp)).
  { apply Nat.le_antisymm.
    - apply Hmin, encode_utf8_value. unfold scalar in Hs; lia.
    - apply (encode_utf8_wf cp Hs). exact Hv. }
  pose proof (encode_utf8_value cp ltac:(unfold scalar in Hs; lia)) as He.
  revert Hlen He. generalize (encode_code_point Utf8 cp). intros es Hlen He. clear Hmin.
  unfold utf8_value, between, cont_byte, between in Hv, He.
  destruct bs as [|a [|b [|c [|d [|]]]]]; try discriminate;
  destruct es as [|a' [|b' [|c' [|d' [|]]]]]; try discriminate;
  match type of Hv with (if ?c then _ else _) = _ => destruct c eqn:E1; [|discriminate] end;
  match type of He with (if ?c then _ else _) = _ => destruct c eqn:E2; [|discriminate] end;
  injection Hv as Hv; injection He as He.
  - f_equal; lia.
  - assert (a = a') by lia. subst. f_equal. f_equal. lia.
  - assert (a = a') by lia. assert (b = b') by lia. subst. f_equal. f_equal. f_equal. lia.
  - assert (a = a') by lia. assert (b = b') by lia. assert (c = c') by lia. subst.
    f_equal. f_equal. f_equal. f_equal. lia.
Qed.

(** ** Error classification of the UTF-8 decoder *)
Lemma utf8_no_shape r cp n err :
  parse_code_point Utf8 r = CpResult cp err n ->
  err = leads_with_trailing \/ err = missing_trailing \/ err = cp_eof ->
  forall k v, utf8_value (firstn k r) <> Some v.
Proof.
  intros Hp He k v Hv.
  destruct (parse_utf8_value _ _ (skipn k r) Hv) as (err' & Hp' & _ & Hcl).
  rewrite firstn_skipn, Hp in Hp'. injection Hp' as _ <- _.
  destruct He as [-> | [-> | ->]]; destruct Hcl as [|[|[|]]]; discriminate.
Qed.

Lemma utf8_overlong r cp n :
  Forall byte r -> parse_code_point Utf8 r = CpResult cp overlong_sequence n ->
  (n <= length r)%nat /\ utf8_value (firstn n r) = Some cp /\
  (length (encode_code_point Utf8 cp) < n)%nat.
Proof.
  intros Hr Hp.
  destruct (parse_utf8_consumed _ _ _ _ Hr Hp) as [Hn Hv]; [auto|].
  split; [exact Hn|]. split; [exact Hv|].
  rewrite parse_utf8_eq in Hp by exact Hr. rewrite encode_utf8_length.
  unfold parse_utf8_arith in Hp; cbv zeta in Hp. unfold scalar, cont_b in *.
  generalize dependent (peek Utf8 r). generalize dependent (peek Utf8 (tl r)).
  generalize dependent (peek Utf8 (tl (tl r))). generalize dependent (peek Utf8 (tl (tl (tl r)))).
  intros b3 b2 b1 b0 Hp.
  repeat match type of Hp with (if ?c then _ else _) = _ => destruct c eqn:? end; try discriminate;
    injection Hp as <- <-.
  - replace ((b0 - 192) * 64 + (b1 - 128) <=? 127) with true by lia. lia.
  - destruct (_ <=? 127); [lia|].
    match goal with |- context [if ?c then _ else _] => replace c with true by lia end. lia.
  - destruct (_ <=? 127); [lia|]. destruct (_ <=? 2047); [lia|].
    match goal with |- context [if ?c then _ else _] => replace c with true by lia end. lia.
Qed.

Lemma utf8_surrogate_range r cp n err :
  Forall byte r -> parse_code_point Utf8 r = CpResult cp err n ->
  err = surrogate \/ err = out_of_range -> 
  (n <= length r)%nat /\ utf8_value (firstn n r) = Some cp /\ ~ scalar cp.
Proof.
  intros Hr Hp He.
  destruct (parse_utf8_consumed _ _ _ _ Hr Hp) as [Hn Hv]; [intuition|].
  split; [exact Hn|]. split; [exact Hv|].
  rewrite parse_utf8_eq in Hp by exact Hr.
  unfold parse_utf8_arith in Hp; cbv zeta in Hp. unfold scalar, cont_b in *.
  repeat match type of Hp with (if ?c then _ else _) = _ => destruct c eqn:? end;
    injection Hp as <- <- <-; destruct He as [He|He]; try discriminate; lia.
Qed.

(** ** UTF-16 *)
Lemma utf16_bmp cp rest :
  scalar cp -> cp <= 0xFFFF ->
  parse_code_point Utf16 (encode_code_point Utf16 cp ++ rest) = CpResult cp success 1.
Proof.
  intros Hs Hle. unfold encode_code_point. replace (cp <=? 0xFFFF) with true by lia.
  cbn [app]. unfold parse_code_point. cbn [peek eof]. rewrite ldiff10.
  unfold scalar in Hs.
  replace (cp =? 0x11FFFF) with false by lia.
  replace (cp / 1024 * 1024 =? 0xD800) with false by lia.
  replace (cp / 1024 * 1024 =? 0xDC00) with false by lia. reflexivity.
Qed.

Lemma encode_utf16_supp cp :
  0x10000 <= cp -> cp <= 0x10FFFF ->
  encode_code_point Utf16 cp = [0xD800 + (cp - 0x10000) / 1024; 0xDC00 + (cp - 0x10000) mod 1024].
Proof.
  intros. unfold encode_code_point. replace (cp <=? 0xFFFF) with false by lia. cbv zeta.
  rewrite shr10, land10. f_equal; [lia|]. f_equal; lia.
Qed.

Lemma lor_10000_testbit x :
  x < 0x100000 ->
  N.lor x 0x10000 = if N.testbit x 16 then x else x + 0x10000.
Proof.
  intros Hx. destruct (N.testbit x 16) eqn:E.
  - apply N.bits_inj. intros i. rewrite N.lor_spec.
    change 0x10000 with (2 ^ 16). destruct (N.eq_dec i 16) as [->|Hi].
    + rewrite E. reflexivity.
    + rewrite N.pow2_bits_false by lia. apply orb_false_r.
  - assert (Hd : N.land x 0x10000 = 0).
    { apply N.bits_inj. intros i. rewrite N.land_spec, N.bits_0.
      change 0x10000 with (2 ^ 16). destruct (N.eq_dec i 16) as [->|Hi].
      - rewrite E. reflexivity.
      - rewrite N.pow2_bits_false by lia. apply andb_false_r. }
    rewrite <- N.lxor_lor by exact Hd. rewrite <- N.add_nocarry_lxor by exact Hd. reflexivity.
Qed.

Lemma testbit16_div x : N.testbit x 16 = N.odd (x / 0x10000).
Proof. rewrite N.testbit_odd, shiftr_div. reflexivity. Qed.

(** What the decoder computes for a surrogate pair. *)
Lemma utf16_supp cp rest :
  0x10000 <= cp -> cp <= 0x10FFFF ->
  parse_code_point Utf16 (encode_code_point Utf16 cp ++ rest)
  = CpResult (if N.odd (cp / 0x10000) then cp else cp - 0x10000) success 2.
Proof.
  intros H1 H2. rewrite encode_utf16_supp by assumption.
  cbn [app]. unfold parse_code_point. cbn [peek eof tl]. cbv zeta. rewrite !ldiff10, !land10.
  set (u := cp - 0x10000) in *.
  replace (0xD800 + u / 1024 =? 0x11FFFF) with false by lia.
  replace ((0xD800 + u / 1024) / 1024 * 1024 =? 0xD800) with true by lia.
  replace (0xDC00 + u mod 1024 =? 0x11FFFF) with false by lia.
  replace ((0xDC00 + u mod 1024) / 1024 * 1024 =? 0xDC00) with true by lia. cbn [negb].
  rewrite lor_shl10 by (apply mod_lt_pos; lia).
  replace ((0xD800 + u / 1024) mod 1024 * 1024 + (0xDC00 + u mod 1024) mod 1024) with u by lia.
  rewrite lor_10000_testbit by lia. rewrite testbit16_div.
  replace (cp / 0x10000) with (N.succ (u / 0x10000)) by lia.
  rewrite N.odd_succ, <- N.negb_odd. destruct (N.odd (u / 0x10000)); cbn [negb]; f_equal; lia.
Qed.

Lemma utf16_encode_wf cp : scalar cp -> utf16_wf cp (encode_code_point Utf16 cp).
Proof.
  intros Hs. split; [exact Hs|].
  destruct (cp <=? 0xFFFF) eqn:E.
  - unfold encode_code_point. rewrite E. lia.
  - rewrite encode_utf16_supp by (unfold scalar in Hs; lia).
    unfold between, scalar in *. repeat split; lia.
Qed.

Lemma utf16_sound r cp n :
  Forall (fun c => c < 0x10000) r -> parse_code_point Utf16 r = CpResult cp success n ->
  (n <= length r)%nat /\
  exists cp', utf16_wf cp' (firstn n r) /\
              cp = (if (0x10000 <=? cp') && negb (N.odd (cp' / 0x10000)) then cp' - 0x10000 else cp').
Proof.
  intros Hr Hp. unfold parse_code_point in Hp. cbv zeta in Hp.
  destruct r as [|a r].
  { cbn [peek eof] in Hp. rewrite N.eqb_refl in Hp. discriminate. }
  inversion Hr as [|? ? Ha Hr1]; subst. cbn [peek eof tl] in Hp.
  replace (a =? 0x11FFFF) with false in Hp by lia.
  rewrite ?ldiff10 in Hp.
  destruct (a / 1024 * 1024 =? 0xD800) eqn:E1.
  - destruct r as [|b r].
    { cbn [peek eof] in Hp. rewrite N.eqb_refl in Hp. discriminate. }
    inversion Hr1 as [|? ? Hb Hr2]; subst. cbn [peek eof] in Hp.
    replace (b =? 0x11FFFF) with false in Hp by lia.
    rewrite ?ldiff10, ?land10 in Hp.
    destruct (b / 1024 * 1024 =? 0xDC00) eqn:E2; cbn [negb] in Hp; [|discriminate].
    injection Hp as Hcp <-. cbn [length firstn]. split; [lia|].
    set (cp' := 0x10000 + (a - 0xD800) * 1024 + (b - 0xDC00)).
    exists cp'. split.
    { split; [unfold scalar; lia|]. unfold between. repeat split; unfold cp'; lia. }
    rewrite lor_shl10 in Hcp by (apply mod_lt_pos; lia).
    replace (a mod 1024 * 1024 + b mod 1024) with (cp' - 0x10000) in Hcp by (unfold cp'; lia).
    rewrite lor_10000_testbit, testbit16_div in Hcp by (unfold cp'; lia).
    replace (0x10000 <=? cp') with true by (unfold cp'; lia).
    replace (cp' / 0x10000) with (N.succ ((cp' - 0x10000) / 0x10000)) by (unfold cp'; lia).
    rewrite N.odd_succ, <- N.negb_odd, negb_involutive. cbn [andb].
    destruct (N.odd ((cp' - 0x10000) / 0x10000)); subst cp; unfold cp'; lia.
  - destruct (a / 1024 * 1024 =? 0xDC00) eqn:E2; [discriminate|].
    injection Hp as <- <-. cbn [length firstn]. split; [lia|].
    exists a. split.
    { split; [unfold scalar; lia|]. lia. }
    replace (0x10000 <=? a) with false by lia. reflexivity.
Qed.

(** ** UTF-32 and ASCII *)
Lemma utf32_parse u rest :
  u <> eof Utf32 ->
  (exists n, parse_code_point Utf32 (u :: rest) = CpResult u success n) <-> scalar u.
Proof.
  cbn [eof]. intros Hu. unfold parse_code_point. cbn [peek eof]. cbv zeta.
  replace (u =? 0xFFFFFFFF) with false by lia. unfold scalar.
  destruct (0x10FFFF <? u) eqn:E1.
  { split; [intros [n H]; discriminate|lia]. }
  destruct ((0xD800 <=? u) && (u <=? 0xDFFF)) eqn:E2.
  { split; [intros [n H]; discriminate|lia]. }
  split; [lia|]. intros _. eexists; reflexivity.
Qed.

Lemma utf32_success r cp n :
  parse_code_point Utf32 r = CpResult cp success n ->
  n = 1%nat /\ exists rest, r = cp :: rest /\ scalar cp.
Proof.
  unfold parse_code_point. cbv zeta. destruct r as [|u r].
  { cbn [peek]. rewrite N.eqb_refl. discriminate. }
  cbn [peek]. destruct (u =? eof Utf32) eqn:E0; [discriminate|].
  destruct (0x10FFFF <? u) eqn:E1; [discriminate|].
  destruct ((0xD800 <=? u) && (u <=? 0xDFFF)) eqn:E2; [discriminate|].
  intros H. injection H as <- <-. split; [reflexivity|]. exists r. split; [reflexivity|].
  unfold scalar; lia.
Qed.

Lemma ascii_success r cp n :
  parse_code_point Ascii r = CpResult cp success n <->
  n = 1%nat /\ exists rest, r = cp :: rest /\ cp <= 0x7F.
Proof.
  unfold parse_code_point. cbv zeta. destruct r as [|u r].
  { cbn [peek]. rewrite N.eqb_refl. split; [discriminate|]. intros (_ & rest & H & _). discriminate. }
  cbn [peek eof]. destruct (u =? 0xFF) eqn:E0.
  { split; [discriminate|]. intros (_ & rest & H & Hle). injection H as -> ->. lia. }
  destruct (u <=? 0x7F) eqn:E1.
  - split.
    + intros H; injection H as <- <-. split; [reflexivity|]. exists r; split; [reflexivity|lia].
    + intros (-> & rest & H & Hle). injection H as -> ->. reflexivity.
  - split; [discriminate|]. intros (_ & rest & H & Hle). injection H as -> ->. lia.
Qed.

(** ** Progress and end-of-input *)
Definition unit_ok (e : encoding) (c : N) : Prop := c < unit_bound e /\ c <> eof e.

Lemma parse_bounded e r :
  Forall (unit_ok e) r ->
  (cr_end (parse_code_point e r) <= length r)%nat /\
  (recover_code_point (parse_code_point e r) <= length r)%nat /\
  (recover_code_point (parse_code_point e r) <= 4)%nat /\
  (cr_error (parse_code_point e r) <> cp_eof -> (1 <= recover_code_point (parse_code_point e r))%nat).
Proof.
  intros Hr. destruct e.
  - unfold parse_code_point. destruct r as [|u r]; cbn [peek eof length].
    { rewrite N.eqb_refl. cbn. intuition lia. }
    destruct (u =? 0xFF); [cbn; intuition lia|].
    destruct (u <=? 0x7F); cbn; intuition lia.
  - assert (Hb : Forall byte r).
    { eapply Forall_impl; [|exact Hr]. intros a [Ha _]. exact Ha. }
    rewrite parse_utf8_eq by exact Hb. clear Hr Hb.
    assert (Hnil : cont_b (peek Utf8 []) = false) by reflexivity.
    unfold parse_utf8_arith. cbv zeta.
    destruct r as [|a r].
    { repeat split; vm_compute; try lia; congruence. }
    cbn [peek tl length].
    destruct (a <? 0x80); [cbn; intuition lia|].
    destruct (a <? 0xC0); [cbn; intuition lia|].
    destruct (a <? 0xE0).
    { destruct r as [|b r].
      { rewrite Hnil. cbn; intuition lia. }
      cbn [peek tl length]. destruct (cont_b b); cbn [negb]; [|cbn; intuition lia].
      destruct (a <? 0xC2); cbn; intuition lia. }
    destruct (a <? 0xF0).
    { destruct r as [|b r].
      { rewrite Hnil. cbn; intuition lia. }
      cbn [peek tl length]. destruct (cont_b b); cbn [negb]; [|cbn; intuition lia].
      destruct r as [|c r].
      { rewrite Hnil. cbn; intuition lia. }
      cbn [peek tl length]. destruct (cont_b c); cbn [negb]; [|cbn; intuition lia].
      repeat match goal with |- context [if ?c then _ else _] => destruct c end; cbn; intuition lia. }
    destruct (a <? 0xF8).
    { destruct r as [|b r].
      { rewrite Hnil. cbn; intuition lia. }
      cbn [peek tl length]. destruct (cont_b b); cbn [negb]; [|cbn; intuition lia].
      destruct r as [|c r].
      { rewrite Hnil. cbn; intuition lia. }
      cbn [peek tl length]. destruct (cont_b c); cbn [negb]; [|cbn; intuition lia].
      destruct r as [|d r].
      { rewrite Hnil. cbn; intuition lia. }
      cbn [peek tl length]. destruct (cont_b d); cbn [negb]; [|cbn; intuition lia].
      repeat match goal with |- context [if ?c then _ else _] => destruct c end; cbn; intuition lia. }
    cbn; intuition lia.
  - unfold parse_code_point. cbv zeta. destruct r as [|a r].
    { cbn [peek]. rewrite N.eqb_refl. cbn; intuition lia. }
    cbn [peek tl length]. destruct (a =? eof Utf16); [cbn; intuition lia|].
    destruct (N.ldiff a 0x3FF =? 0xD800).
    { destruct r as [|b r].
      { cbn [peek]. rewrite N.eqb_refl. cbn; intuition lia. }
      cbn [peek tl length]. destruct (b =? eof Utf16); [cbn; intuition lia|].
      destruct (N.ldiff b 0x3FF =? 0xDC00); cbn; intuition lia. }
    destruct (N.ldiff a 0x3FF =? 0xDC00); cbn; intuition lia.
  - unfold parse_code_point. cbv zeta. destruct r as [|a r].
    { cbn [peek]. rewrite N.eqb_refl. cbn; intuition lia. }
    cbn [peek tl length]. destruct (a =? eof Utf32); [cbn; intuition lia|].
    repeat match goal with |- context [if ?c then _ else _] => destruct c end; cbn; intuition lia.
Qed.

(** End of input is recognised exactly, for units that can lead a sequence. *)
Definition lead_ok (e : encoding) (c : N) : Prop :=
  unit_ok e c /\ (e = Utf8 -> c < 0xF8).

Lemma parse_eof_iff e r :
  Forall (lead_ok e) r -> (cr_error (parse_code_point e r) = cp_eof <-> r = []).
Proof.
  intros Hr. split.
  - destruct r as [|a r]; [reflexivity|]. inversion Hr as [|? ? [[Ha1 Ha2] Ha3] Hr1]; subst.
    destruct e; intros H; exfalso.
    + unfold parse_code_point in H. cbn [peek] in H.
      replace (a =? eof Ascii) with false in H by lia.
      destruct (a <=? 0x7F); discriminate.
    + rewrite parse_utf8_eq in H.
      2:{ eapply Forall_impl; [|exact Hr]. intros x [[Hx _] _]. exact Hx. }
      specialize (Ha3 eq_refl).
      unfold parse_utf8_arith in H. cbv zeta in H. cbn [peek] in H.
      replace (a <? 0xF8) with true in H by lia.
      repeat match type of H with context [if ?c then _ else _] => destruct c end; discriminate.
    + unfold parse_code_point in H. cbv zeta in H. cbn [peek] in H.
      replace (a =? eof Utf16) with false in H by lia.
      repeat match type of H with context [if ?c then _ else _] => destruct c end; discriminate.
    + unfold parse_code_point in H. cbv zeta in H. cbn [peek] in H.
      replace (a =? eof Utf32) with false in H by lia.
      repeat match type of H with context [if ?c then _ else _] => destruct c end; discriminate.
  - intros ->. destruct e; reflexivity.
Qed.

(** ** Packaged statements used by CodecProps.v *)
Lemma utf8_characterised r :
  Forall byte r ->
  (forall cp n, parse_code_point Utf8 r = CpResult cp success n ->
     (n <= length r)%nat /\ utf8_wf cp (firstn n r)) /\
  (forall cp bs rest, r = bs ++ rest -> utf8_wf cp bs ->
     parse_code_point Utf8 r = CpResult cp success (length bs)) /\
  (forall cp n, parse_code_point Utf8 r = CpResult cp overlong_sequence n ->
     (n <= length r)%nat /\ utf8_value (firstn n r) = Some cp /\
     (length (encode_code_point Utf8 cp) < n)%nat) /\
  (forall cp n err, parse_code_point Utf8 r = CpResult cp err n ->
     err = surrogate \/ err = out_of_range ->
     (n <= length r)%nat /\ utf8_value (firstn n r) = Some cp /\ ~ scalar cp) /\
  (forall cp n err, parse_code_point Utf8 r = CpResult cp err n ->
     err = leads_with_trailing \/ err = missing_trailing \/ err = cp_eof ->
     forall k v, utf8_value (firstn k r) <> Some v).
Proof.
  intros Hr. split; [intros; eapply utf8_sound; eassumption|].
  split.
  { intros cp bs rest -> Hwf. pose proof (utf8_wf_encode _ _ Hwf) as ->.
    apply utf8_roundtrip. exact (proj1 Hwf). }
  split; [intros; eapply utf8_overlong; eassumption|].
  split; [intros; eapply utf8_surrogate_range; eassumption|].
  intros cp n err Hp He. exact (utf8_no_shape r cp n err Hp He).
Qed.

Lemma utf16_refuted : exists cp,
  scalar cp /\ utf16_wf cp (encode_code_point Utf16 cp) /\
  cr_error (parse_code_point Utf16 (encode_code_point Utf16 cp)) = success /\
  cr_cp (parse_code_point Utf16 (encode_code_point Utf16 cp)) <> cp.
Proof.
  exists 0x20000.
  assert (Hs : scalar 0x20000) by (unfold scalar; lia).
  split; [exact Hs|]. split; [apply utf16_encode_wf; exact Hs|].
  split; [vm_compute; reflexivity|vm_compute; discriminate].
Qed.

Lemma utf16_roundtrip_part cp rest :
  scalar cp ->
  utf16_wf cp (encode_code_point Utf16 cp) /\
  parse_code_point Utf16 (encode_code_point Utf16 cp ++ rest)
  = CpResult (if (0x10000 <=? cp) && negb (N.odd (cp / 0x10000)) then cp - 0x10000 else cp)
             success (length (encode_code_point Utf16 cp)).
Proof.
  intros Hs. split; [apply utf16_encode_wf; exact Hs|].
  destruct (0x10000 <=? cp) eqn:E.
  - rewrite utf16_supp by (unfold scalar in Hs; lia).
    rewrite encode_utf16_supp by (unfold scalar in Hs; lia).
    destruct (N.odd (cp / 0x10000)); reflexivity.
  - rewrite utf16_bmp by (try exact Hs; lia). cbn [andb].
    unfold encode_code_point. replace (cp <=? 0xFFFF) with true by lia. reflexivity.
Qed.

Lemma utf32_ascii_char r cp n :
  (parse_code_point Utf32 r = CpResult cp success n <->
     n = 1%nat /\ exists rest, r = cp :: rest /\ scalar cp) /\
  (parse_code_point Ascii r = CpResult cp success n <->
     n = 1%nat /\ exists rest, r = cp :: rest /\ cp <= 0x7F) /\
  (scalar cp -> encode_code_point Utf32 cp = [cp]) /\
  (cp <= 0x7F -> encode_code_point Ascii cp = [cp]).
Proof.
  split; [|split; [apply ascii_success|split]].
  - split; [apply utf32_success|].
    intros (-> & rest & -> & Hs). unfold parse_code_point. cbn [peek eof]. cbv zeta.
    unfold scalar in Hs.
    replace (cp =? 0xFFFFFFFF) with false by lia.
    replace (0x10FFFF <? cp) with false by lia.
    replace ((0xD800 <=? cp) && (cp <=? 0xDFFF)) with false by lia. reflexivity.
  - reflexivity.
  - intros H. cbn [encode_code_point]. f_equal. lia.
Qed.

Lemma eof_refuted : exists r,
  Forall (unit_ok Utf8) r /\ r <> [] /\
  cr_error (parse_code_point Utf8 r) = cp_eof /\
  recover_code_point (parse_code_point Utf8 r) = 0%nat.
Proof.
  exists [0xF8; 0x41]. split.
  { repeat constructor; unfold unit_ok; cbn; lia. }
  split; [discriminate|]. split; vm_compute; reflexivity.
Qed.

Lemma progress_char e r :
  Forall (unit_ok e) r ->
  ((cr_end (parse_code_point e r) <= length r)%nat /\
   (recover_code_point (parse_code_point e r) <= length r)%nat /\
   (recover_code_point (parse_code_point e r) <= 4)%nat /\
   (cr_error (parse_code_point e r) <> cp_eof ->
      (1 <= recover_code_point (parse_code_point e r))%nat)) /\
  ((e = Utf8 -> Forall (fun c => c < 0xF8) r) ->
   (cr_error (parse_code_point e r) = cp_eof <-> r = [])).
Proof.
  intros Hr. split; [apply parse_bounded; exact Hr|].
  intros H8. apply parse_eof_iff. rewrite Forall_forall in *. intros x Hx.
  split; [apply Hr; exact Hx|]. intros He. exact (H8 He x Hx).
Qed.
