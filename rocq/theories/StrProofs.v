(** Proofs about [as_string]. *)
From Verif Require Import Prelude CodecModel CodecSpec CodecProofs CodecProps LitModel LitSpec LitProofs StrModel StrSpec.
Open Scope N_scope.

(** ** The text of code points *)
Lemma encode_text e cp : in_encoding e cp -> cp_text e cp (encode_code_point e cp).
Proof.
  intros (Hs & Ha). destruct e; cbn [cp_text].
  - specialize (Ha eq_refl). split; [exact Ha|]. cbn [encode_code_point]. f_equal. apply N.mod_small. lia.
  - now apply encode_utf8_wf.
  - exact (proj1 (C03_utf16_roundtrip_partial cp [] Hs)).
  - split; [exact Hs|reflexivity].
Qed.

Lemma sink_text e ps : forall r ts, Forall (piece_ok e) ps -> r = fold_left (sink_piece e) ps ts ->
  exists us, Forall2 (piece_text e) ps us /\ r = ts ++ concat us.
Proof.
  induction ps as [|p ps IH]; intros r ts Hp ->; cbn [fold_left].
  - exists []. split; [constructor|]. now rewrite app_nil_r.
  - inversion Hp as [|? ? Hp1 Hp2]; subst.
    destruct (IH _ (sink_piece e ts p) Hp2 eq_refl) as (us & Hu & ->).
    assert (exists u, piece_text e p u /\ sink_piece e ts p = ts ++ u) as (u & Hpu & ->).
    { destruct p; cbn [piece_text sink_piece]; try (eexists; split; reflexivity).
      eexists; split; [|reflexivity]. now apply encode_text. }
    exists (u :: us). split; [constructor; assumption|]. cbn. now rewrite <- app_assoc.
Qed.

(** ** Reading *)
Lemma decodable_all e cp : reads_back e cp -> decodable e cp.
Proof.
  intros ((Hs & Ha) & H16). destruct e.
  - specialize (Ha eq_refl). unfold decodable. split; [unfold cp_is_valid; lia|]. split; [cbn; lia|].
    intros rest. cbn [encode_code_point]. rewrite N.mod_small by lia.
    destruct (C04_utf32_ascii ([cp] ++ rest) cp 1) as (_ & (_ & H) & _). apply H. split; [reflexivity|].
    exists rest. split; [reflexivity|exact Ha].
  - apply readable_decodable. destruct Hs as [Hs|Hs]; split; try lia; split; try lia; exact I.
  - apply readable_decodable. destruct Hs as [Hs|Hs]; split; try lia; split; try lia; now apply H16.
  - unfold decodable. split; [unfold cp_is_valid; unfold scalar in Hs; lia|]. split; [cbn; lia|].
    intros rest. destruct (C04_utf32_ascii ([cp] ++ rest) cp 1) as ((_ & H) & _ & _). apply H. split; [reflexivity|].
    exists rest. split; [reflexivity|exact Hs].
Qed.

Lemma read_back e : forall cps fuel, Forall (reads_back e) cps -> (length cps < fuel)%nat ->
  read_code_points fuel e (concat (map (encode_code_point e) cps)) = Some cps.
Proof.
  induction cps as [|cp cps IH]; intros fuel H Hf; (destruct fuel as [|fuel]; [lia|]); cbn [read_code_points map concat].
  - destruct e; reflexivity.
  - inversion H as [|? ? H1 H2]; subst. destruct (decodable_all _ _ H1) as (_ & Hl & Hd).
    rewrite Hd. cbn [cr_error cr_cp cr_end].
    rewrite skipn_app, skipn_all, Nat.sub_diag. cbn [skipn app].
    rewrite IH; [reflexivity|exact H2|cbn in Hf; lia].
Qed.

Lemma sink_cps e cps : fold_left (sink_piece e) (map PCodePoint cps) [] = concat (map (encode_code_point e) cps).
Proof.
  assert (G : forall acc, fold_left (sink_piece e) (map PCodePoint cps) acc = acc ++ concat (map (encode_code_point e) cps)).
  { induction cps as [|cp cps IH]; intros acc; cbn [map fold_left concat]; [now rewrite app_nil_r|].
    rewrite IH. cbn [sink_piece]. now rewrite <- app_assoc. }
  apply G.
Qed.

(** ** Folding in place *)
Lemma inplace_loop e (g : N -> N) (mk : list N -> ops nat) :
  (forall mem p, o_peek (mk mem) p = match nth_error mem p with Some c => g c | None => eof e end) ->
  (forall mem p, o_bump (mk mem) p = S p) ->
  forall rest done fuel, (length rest < fuel)%nat -> (forall c, In c rest -> g c <> eof e) ->
  fold_inplace fuel e mk (done ++ rest) (length done) (length done) = Some (done ++ map g rest).
Proof.
  intros Hp Hb. induction rest as [|c rest IH]; intros done fuel Hf Hg; (destruct fuel as [|fuel]; [lia|]);
    cbn [fold_inplace]; rewrite Hp.
  - rewrite app_nil_r. rewrite (proj2 (nth_error_None _ _)) by lia. rewrite N.eqb_refl. cbn. now rewrite app_nil_r.
  - rewrite nth_error_app2, Nat.sub_diag by lia. cbn [nth_error].
    destruct (N.eqb_spec (g c) (eof e)) as [He|_]; [exfalso; apply (Hg c); [now left|exact He]|].
    rewrite Hb. rewrite firstn_app, Nat.sub_diag, firstn_all. cbn [firstn]. rewrite app_nil_r.
    replace (skipn (S (length done)) (done ++ c :: rest)) with rest.
    2:{ rewrite skipn_app. rewrite skipn_all2 by lia. replace (S (length done) - length done)%nat with 1%nat by lia. reflexivity. }
    replace (done ++ [g c] ++ rest) with ((done ++ [g c]) ++ rest) by now rewrite <- app_assoc.
    replace (S (length done)) with (length (done ++ [g c])) by (rewrite app_length; cbn; lia).
    rewrite IH; [cbn [map]; now rewrite <- app_assoc|cbn in Hf; lia|]. intros x Hx. apply Hg. now right.
Qed.

Lemma ascii_fold_ok fold e s : ~ In (eof e) s -> case_fold fold AsciiFold e s = Some (map ascii_lower s).
Proof.
  intros Hn. cbn [case_fold].
  change (fold_inplace (S (length s)) e (fun mem => acf (raw (Enc e) mem)) s 0 0)
    with (fold_inplace (S (length s)) e (fun mem => acf (raw (Enc e) mem)) ([] ++ s) (length (@nil N)) (length (@nil N))).
  rewrite (inplace_loop e ascii_lower); [reflexivity| |reflexivity|lia|].
  - intros mem p. cbn. destruct (nth_error mem p); [reflexivity|]. destruct e; reflexivity.
  - intros c Hc He. unfold ascii_lower in He.
    destruct ((0x41 <=? c) && (c <=? 0x5A)) eqn:Hr; [|congruence].
    destruct e; cbn in He; lia.
Qed.
Lemma utf32_fold_ok fold s : ~ In (eof Utf32) s -> (forall c, c <= 0x10FFFF -> fold c <= 0x10FFFF) ->
  case_fold fold UnicodeFold Utf32 s = Some (map (fun c => if c <=? 0x10FFFF then fold c else c) s).
Proof.
  intros Hn Hv. cbn [case_fold].
  change (fold_inplace (S (length s)) Utf32 (fun mem => suc32 fold (raw (Enc Utf32) mem)) s 0 0)
    with (fold_inplace (S (length s)) Utf32 (fun mem => suc32 fold (raw (Enc Utf32) mem)) ([] ++ s) (length (@nil N)) (length (@nil N))).
  rewrite (inplace_loop Utf32 (fun c => if c <=? 0x10FFFF then fold c else c)); [reflexivity| |reflexivity|lia|].
  - intros mem p. cbn. destruct (nth_error mem p); reflexivity.
  - intros c Hc He. cbn [eof] in He. destruct (N.leb_spec c 0x10FFFF) as [Hle|Hgt].
    + specialize (Hv c Hle). lia.
    + apply Hn. cbn [eof]. now rewrite <- He.
Qed.

(** ** Folding with a copy *)
Lemma utf8_units cp us : utf8_wf cp us -> forall u, In u us -> u < 0xF8.
Proof.
  intros (_ & Hv & _) u Hu. unfold utf8_value, between, cont_byte, between in Hv.
  destruct us as [|a [|b [|c [|d [|? ?]]]]]; try discriminate;
    match type of Hv with (if ?x then _ else _) = _ => destruct x eqn:Hx; [|discriminate] end;
    cbn in Hu; intuition (subst; lia).
Qed.
Lemma text_no_eof e cp us : cp_text e cp us -> ~ In (eof e) us.
Proof.
  intros H Hin. destruct e; cbn [cp_text] in H.
  - destruct H as (Hc & ->). destruct Hin as [Hin|[]]. cbn in Hin. lia.
  - pose proof (utf8_units _ _ H _ Hin). cbn in *. lia.
  - destruct H as (_ & H). cbn [eof] in Hin. unfold between in H.
    destruct us as [|a [|b [|? ?]]]; try contradiction; cbn in Hin; intuition lia.
  - destruct H as (Hs & ->). destruct Hin as [Hin|[]]. unfold scalar in Hs. cbn in Hin. lia.
Qed.

Section Copy.
Variable (fold : N -> N) (e : encoding) (inp : list N).
Hypothesis Hinp : ~ In (eof e) inp.
Hypothesis He : e <> Utf32.
Notation enc := (encode_code_point e).
Let o := raw (Enc e) inp.

Lemma copy_buffer : forall b fuel impl cur acc, ~ In (eof e) b -> b <> [] ->
  fold_copy (length b + fuel) e (sucm fold e o) (impl, cur, b) acc
  = fold_copy fuel e (sucm fold e o) (sucm_fill fold e o impl) (acc ++ b).
Proof.
  induction b as [|c b IH]; intros fuel impl cur acc Hn Hne; [congruence|].
  cbn [length Nat.add fold_copy]. cbn [sucm o_peek snd].
  destruct (N.eqb_spec c (eof e)) as [Hc|_]; [exfalso; apply Hn; now left|].
  cbn [o_bump sucm tl]. destruct b as [|c' b].
  - reflexivity.
  - rewrite IH; [now rewrite <- app_assoc| |discriminate]. intros H. apply Hn. now right.
Qed.

Lemma copy_loop : forall cps p fuel acc,
  Forall (reads_back e) cps -> Forall (fun c => reads_back e (fold c)) cps ->
  skipn p inp = concat (map enc cps) -> (4 * length (concat (map enc cps)) < fuel)%nat ->
  fold_copy fuel e (sucm fold e o) (sucm_fill fold e o p) acc = Some (acc ++ concat (map enc (map fold cps))).
Proof.
  induction cps as [|cp cps IH]; intros p fuel acc Hc Hf Hs Hfu.
  - cbn [map concat] in *. unfold o. rewrite (fill_nil fold e inp Hinp p Hs). destruct fuel as [|fuel]; [cbn in Hfu; lia|].
    cbn [fold_copy]. cbn [sucm o_peek snd]. rewrite N.eqb_refl. now rewrite app_nil_r.
  - inversion Hc as [|? ? Hc1 Hc2]; inversion Hf as [|? ? Hf1 Hf2]; subst.
    pose proof (decodable_all _ _ Hc1) as Hd. pose proof (decodable_all _ _ Hf1) as Hdf.
    cbn [map concat] in Hs, Hfu |- *. unfold o. rewrite (fill_cons fold e inp Hinp p cp _ Hd Hs). fold o.
    assert (Escf : simple_case_fold fold cp = fold cp) by (unfold simple_case_fold; destruct Hd as (-> & _); reflexivity).
    rewrite Escf. destruct Hd as (_ & Hl & _). destruct Hdf as (_ & Hlf & _).
    rewrite app_length in Hfu.
    replace fuel with (length (enc (fold cp)) + (fuel - length (enc (fold cp))))%nat by lia.
    rewrite copy_buffer.
    + rewrite IH; [now rewrite app_assoc|exact Hc2|exact Hf2| |lia].
      rewrite <- skipn_skipn, Hs, skipn_app, skipn_all, Nat.sub_diag. reflexivity.
    + apply (text_no_eof e (fold cp)). apply encode_text. apply Hf1.
    + intros H0. rewrite H0 in Hlf. cbn in Hlf. lia.
Qed.
End Copy.

Lemma unicode_fold_ok fold e cps : e <> Utf32 ->
  Forall (reads_back e) cps -> Forall (fun c => reads_back e (fold c)) cps ->
  case_fold fold UnicodeFold e (concat (map (encode_code_point e) cps))
  = Some (concat (map (encode_code_point e) (map fold cps))).
Proof.
  intros He Hc Hf. set (s := concat (map (encode_code_point e) cps)).
  assert (Hn : ~ In (eof e) s).
  { unfold s. intros H. apply in_concat in H. destruct H as (us & Hu & Hin). apply in_map_iff in Hu.
    destruct Hu as (cp & <- & Hcp). rewrite Forall_forall in Hc. apply (text_no_eof e cp (encode_code_point e cp)); [|exact Hin].
    apply encode_text. now apply Hc. }
  replace (case_fold fold UnicodeFold e s) with
    (fold_copy (S (4 * length s)) e (sucm fold e (raw (Enc e) s)) (sucm_fill fold e (raw (Enc e) s) 0%nat) [])
    by (destruct e; first [reflexivity | congruence]).
  rewrite (copy_loop fold e s Hn cps); [reflexivity|exact Hc|exact Hf|reflexivity|]. fold s. lia.
Qed.

(** The well-formed text of code points is unique, so the encoder's text is it. *)
Lemma cp_text_unique e cp us us' : cp_text e cp us -> cp_text e cp us' -> us = us'.
Proof.
  destruct e; cbn [cp_text].
  - intros (_ & ->) (_ & ->). reflexivity.
  - intros (Hs & Hv & Hm) (_ & Hv' & Hm'). specialize (Hm _ Hv'). specialize (Hm' _ Hv).
    unfold utf8_value, between, cont_byte, between in Hv, Hv'.
    destruct us as [|a [|b [|c [|d [|? ?]]]]]; try discriminate;
      destruct us' as [|a' [|b' [|c' [|d' [|? ?]]]]]; try discriminate; cbn in Hm, Hm'; try lia;
      match type of Hv with (if ?x then _ else _) = _ => destruct x eqn:Hx; [|discriminate] end;
      match type of Hv' with (if ?x then _ else _) = _ => destruct x eqn:Hx'; [|discriminate] end;
      injection Hv as Hv; injection Hv' as Hv'; repeat f_equal; lia.
  - intros (_ & H) (_ & H'). unfold between in *.
    destruct us as [|a [|b [|? ?]]]; try contradiction; destruct us' as [|a' [|b' [|? ?]]]; try contradiction;
      repeat f_equal; lia.
  - intros (_ & ->) (_ & ->). reflexivity.
Qed.
Lemma text_encode e cps t : text_of e cps t -> t = concat (map (encode_code_point e) cps) /\ Forall (in_encoding e) cps.
Proof.
  induction 1 as [|cp us cps t Hc Ht (IH & IHf)]; [split; [reflexivity|constructor]|].
  assert (Hi : in_encoding e cp).
  { destruct e; cbn [cp_text] in Hc; split; try (apply Hc); try (intros; discriminate); try (intros; apply Hc).
    destruct Hc as (Hc & _). unfold scalar. lia. }
  split; [|constructor; assumption]. cbn [map concat]. rewrite <- IH. f_equal.
  apply (cp_text_unique e cp); [exact Hc|]. now apply encode_text.
Qed.
Lemma encode_text_of e cps : Forall (in_encoding e) cps -> text_of e cps (concat (map (encode_code_point e) cps)).
Proof.
  induction 1 as [|cp cps H _ IH]; [constructor|]. cbn. constructor; [now apply encode_text|exact IH].
Qed.

Lemma no_fold_callback fold f e :
  (forall s, string_cb fold f e (SString s) = string_sink fold f e [PString s]) /\
  (forall s, string_cb fold f e (SRange s) = string_sink fold f e [PRange s]) /\
  (forall s, string_cb fold f e (SLexeme s) = string_sink fold f e [PLexeme s]) /\
  (forall cp, string_cb fold f e (SCodePoint cp) = string_sink fold f e [PCodePoint cp]).
Proof. repeat split. Qed.
Lemma nullopt_callback fold f e : string_cb fold f e SNullopt = string_sink fold f e [].
Proof.
  unfold string_cb, string_sink. cbn [fold_left]. destruct f; [reflexivity| |].
  - cbn. destruct e; reflexivity.
  - destruct e; reflexivity.
Qed.
