(** Proofs about dsl/follow.hpp. *)
From Verif Require Import Prelude CodecModel CodecSpec SwarModel SwarSpec LitModel LitSpec LitProofs
  ClassModel ClassSpec TextModel TextSpec TextProofs StrSpec StrProofs FolModel.
Open Scope N_scope.

Lemma skipn_text E inp p : text_units E inp -> text_units E (skipn p inp).
Proof.
  intros (H1 & H2). split; [now apply units_skipn|]. intros H. apply H2.
  rewrite <- (firstn_skipn p inp). apply in_or_app. now right.
Qed.

(** ** Plain literals *)
Lemma nf_plain fold E inp cs cc pos :
  text_units E inp -> sane cc -> no_eof E cs -> (pos <= length inp)%nat ->
  exists k, leading cs (skipn pos inp) k /\
  ((k = length cs /\ no_char E cc (skipn (pos + k) inp) /\
    not_followed_by fold NoFold E cs cc inp pos = Matched (pos + k)) \/
   (k = length cs /\ (exists n, a_char E cc (skipn (pos + k) inp) n) /\
    not_followed_by fold NoFold E cs cc inp pos
    = Failed (FollowRestriction (pos + k) (pos + k)) (pos + k)) \/
   ((k < length cs)%nat /\
    not_followed_by fold NoFold E cs cc inp pos = Failed (ExpectedLiteral pos k (length cs)) pos)).
Proof.
  intros Ht Hs Hn Hp.
  destruct (literal_range E inp cs pos Hn Hp) as (ok & k & El & Hk & Hok & Hok' & Hle & Her).
  exists k. split; [exact Hk|].
  unfold not_followed_by, nf_parse, nf_try. cbn [nf_literal]. rewrite El.
  destruct ok.
  - specialize (Hok' eq_refl). cbn [nf_next]. rewrite (units_raw E inp (proj2 Ht)), class_try_firstn.
    pose proof (skipn_text E inp (pos + k) Ht) as (Hu & _).
    destruct (class_try E (build cc) (skipn (pos + k) inp)) as [m|] eqn:Hc; cbn [nf_end].
    + right. left. split; [exact Hok'|]. split; [|reflexivity]. exists m.
      apply (class_char E cc _ m Hu Hs). exact Hc.
    + left. split; [exact Hok'|]. split; [|reflexivity]. apply (class_none E cc _ Hu Hs). exact Hc.
  - right. right. split.
    + destruct (Nat.eq_dec k (length cs)) as [E1|]; [|destruct Hk; lia]. exfalso.
      assert (false = true) by (apply Hok, starts_with_leading; rewrite <- E1; exact Hk). discriminate.
    + cbn [nf_end]. unfold nf_report. cbn [nf_success nf_impl_end]. rewrite Her. reflexivity.
Qed.

(** ** Case folding *)
(** A reader that delivers the folded units of the input: matching with it is matching on the
    folded input. *)
Lemma nf_ascii fold E inp cs cc pos :
  not_followed_by fold AsciiFold E cs cc inp pos
  = not_followed_by fold NoFold E cs cc (map lower inp) pos.
Proof.
  assert (He : exact E lower inp (acf (raw E inp))).
  { split; [|repeat split]. intros p. rewrite raw_map_peek by apply lower_eof. reflexivity. }
  unfold not_followed_by, nf_parse, nf_try. cbn [nf_literal nf_next]. unfold cfl_ascii, lit_try.
  rewrite (exact_match_units E lower inp _ He). cbn [acf o_current raw].
  destruct (match_units (raw E (map lower inp)) cs pos) as [ok s].
  rewrite (exact_units E lower inp _ He). reflexivity.
Qed.

Lemma nf_utf32 fold inp cs cc pos :
  not_followed_by fold UnicodeFold (Enc Utf32) cs cc inp pos
  = not_followed_by fold NoFold (Enc Utf32) cs cc (map (simple_case_fold fold) inp) pos.
Proof.
  set (g := simple_case_fold fold).
  assert (He : exact (Enc Utf32) g inp (suc32 fold (raw (Enc Utf32) inp))).
  { split; [|repeat split]. intros p. rewrite raw_map_peek by reflexivity. reflexivity. }
  unfold not_followed_by, nf_parse, nf_try. cbn [nf_literal nf_next]. unfold cfl_unicode, lit_try.
  rewrite (exact_match_units (Enc Utf32) g inp _ He). cbn [suc32 o_current raw].
  destruct (match_units (raw (Enc Utf32) (map g inp)) cs pos) as [ok s].
  rewrite (exact_units (Enc Utf32) g inp _ He). reflexivity.
Qed.

(** The units of a filled buffer, then those after it. *)
Lemma units_buffer fold e (o : ops nat) : forall b p' p n, b <> [] -> ~ In (eof e) b -> (length b <= n)%nat ->
  exists r, units n (Enc e) (sucm fold e o) (p', p, b) = b ++ r.
Proof.
  induction b as [|x b IH]; intros p' p n Hb Hn Hl; [congruence|]. destruct n as [|n]; [cbn in Hl; lia|].
  cbn [units]. change (o_peek (sucm fold e o) (p', p, x :: b)) with x. cbn [leof].
  destruct (N.eqb_spec x (eof e)) as [->|_]; [exfalso; apply Hn; now left|].
  cbn [sucm o_bump tl app]. destruct b as [|y b].
  - eexists. reflexivity.
  - destruct (IH p' p n) as (r & Hr); [discriminate|intros H; apply Hn; now right|cbn in *; lia|].
    exists r. f_equal. exact Hr.
Qed.

Lemma enc_no_eof e cp : readable e cp -> ~ In (eof e) (encode_code_point e cp).
Proof.
  intros (Hv & Hs & Hr). apply (text_no_eof e cp). apply encode_text. split; [unfold scalar; lia|].
  intros ->. contradiction.
Qed.

Lemma next_unicode fold e inp p cps : e = Utf8 \/ e = Utf16 -> no_eof (Enc e) inp ->
  skipn p inp = text e cps -> Forall (readable e) cps -> Forall (fun c => readable e (fold c)) cps ->
  exists r, nf_next fold UnicodeFold (Enc e) inp p
  = match cps with [] => [] | c :: _ => encode_code_point e (fold c) ++ r end.
Proof.
  intros He Hn Hs Hc Hf.
  assert (E1 : nf_next fold UnicodeFold (Enc e) inp p
             = units 4 (Enc e) (sucm fold e (raw (Enc e) inp)) (sucm_fill fold e (raw (Enc e) inp) p))
    by (destruct He as [-> | ->]; reflexivity).
  rewrite E1. destruct cps as [|c cps].
  - exists []. cbn in Hs. rewrite (fill_nil fold e inp Hn p Hs). cbn [units].
    change (o_peek (sucm fold e (raw (Enc e) inp)) (p, p, [])) with (eof e). cbn [leof].
    now rewrite N.eqb_refl.
  - inversion Hc as [|? ? Hc1 Hc2]; inversion Hf as [|? ? Hf1 Hf2]; subst.
    pose proof (readable_decodable e c Hc1) as Hd. pose proof (readable_decodable e (fold c) Hf1) as (_ & Hlen & _).
    change (text e (c :: cps)) with (encode_code_point e c ++ text e cps) in Hs.
    rewrite (fill_cons fold e inp Hn p c _ Hd Hs).
    assert (Escf : simple_case_fold fold c = fold c) by (unfold simple_case_fold; destruct Hd as (-> & _); reflexivity).
    rewrite Escf. apply units_buffer; [|now apply enc_no_eof|lia].
    intros H. rewrite H in Hlen. cbn in Hlen. lia.
Qed.

Lemma enc_units e cp : readable e cp -> Forall (fun u => u < lbound (Enc e)) (encode_code_point e cp).
Proof.
  intros (Hv & Hs & Hr). apply Forall_forall. intros u Hu.
  assert (Ht : cp_text e cp (encode_code_point e cp)).
  { apply encode_text. split; [unfold scalar; lia|]. intros ->. contradiction. }
  destruct e; try contradiction; cbn [cp_text] in Ht.
  - pose proof (utf8_units _ _ Ht _ Hu). cbn. lia.
  - destruct Ht as (_ & Ht). unfold between in Ht. cbn.
    destruct (encode_code_point Utf16 cp) as [|a [|b [|? ?]]]; try contradiction; cbn in Hu; intuition lia.
Qed.

Lemma class_encoded e cc cp r : sane cc -> readable e cp ->
  class_try (Enc e) (build cc) (encode_code_point e cp ++ r) <> None <-> denotes cc cp.
Proof.
  intros Hs Hr. destruct (readable_decodable e cp Hr) as (Hv & Hlen & Hd).
  assert (E1 : class_try (Enc e) (build cc) (encode_code_point e cp ++ r)
             = class_try (Enc e) (build cc) (encode_code_point e cp)).
  { unfold class_try. rewrite (Hd r). pose proof (Hd []) as Hd0. rewrite app_nil_r in Hd0. rewrite Hd0.
    destruct (encode_code_point e cp) as [|u us]; [cbn in Hlen; lia|]. reflexivity. }
  rewrite E1. pose proof (Hd []) as Hd0. rewrite app_nil_r in Hd0.
  destruct (class_try (Enc e) (build cc) (encode_code_point e cp)) as [m|] eqn:Hc.
  - apply (class_char (Enc e) cc _ m (enc_units e cp Hr) Hs) in Hc. destruct Hc as (c & Hc & D).
    unfold reads in Hc. rewrite Hd0 in Hc. injection Hc as <- _. split; [auto|discriminate].
  - apply (class_none (Enc e) cc _ (enc_units e cp Hr) Hs) in Hc. split; [congruence|].
    intros D. destruct (Hc (length (encode_code_point e cp))). exists cp. split; [exact Hd0|exact D].
Qed.

Lemma Forall_skipn {A} (P : A -> Prop) n l : Forall P l -> Forall P (skipn n l).
Proof. intros H. rewrite <- (firstn_skipn n l) in H. now apply Forall_app in H. Qed.

Lemma nf_unicode fold e inp lcps cc cps pos :
  e = Utf8 \/ e = Utf16 -> text_units (Enc e) inp -> skipn pos inp = text e cps -> sane cc ->
  Forall (readable e) lcps -> Forall (readable e) cps -> Forall (fun c => readable e (fold c)) cps ->
  exists k, leading lcps (map fold cps) k /\
  let end_ := (pos + length (text e (firstn k cps)))%nat in
  ((k = length lcps /\ (forall c, nth_error cps k = Some c -> ~ denotes cc (fold c)) /\
    not_followed_by fold UnicodeFold (Enc e) (lcp_string e lcps) cc inp pos = Matched end_) \/
   (k = length lcps /\ (exists c, nth_error cps k = Some c /\ denotes cc (fold c)) /\
    not_followed_by fold UnicodeFold (Enc e) (lcp_string e lcps) cc inp pos
    = Failed (FollowRestriction end_ end_) end_) \/
   ((k < length lcps)%nat /\
    not_followed_by fold UnicodeFold (Enc e) (lcp_string e lcps) cc inp pos
    = Failed (ExpectedLiteral pos (length (text e (firstn k cps))) (length (lcp_string e lcps))) pos)).
Proof.
  intros He (Hu & Hn) Hs Hsane Hl Hc Hf.
  destruct (unicode_literal fold e inp lcps cps pos He Hn Hs Hl Hc Hf) as (ok & k & El & Hk & Hok).
  exists k. split; [exact Hk|]. intros end_.
  unfold not_followed_by, nf_parse, nf_try. cbn [nf_literal]. rewrite El. fold end_.
  assert (Hkl : (k <= length cps)%nat) by (destruct Hk as (_ & H & _); rewrite map_length in H; exact H).
  assert (Hrest : skipn end_ inp = text e (skipn k cps)).
  { unfold end_. rewrite <- skipn_skipn, Hs. rewrite <- (firstn_skipn k cps) at 2.
    unfold text. rewrite map_app, concat_app. apply skipn_app_exact. }
  destruct ok.
  - assert (Ek : k = length lcps) by now apply Hok.
    destruct (next_unicode fold e inp end_ (skipn k cps) He Hn Hrest) as (r & Er).
    { now apply Forall_skipn. } { now apply Forall_skipn. }
    rewrite Er.
    assert (Hnth : nth_error cps k = match skipn k cps with [] => None | c :: _ => Some c end).
    { clear. revert cps. induction k as [|k IH]; intros [|c cps]; cbn; auto. }
    destruct (skipn k cps) as [|c cps'] eqn:Esk.
    + assert (Hcl : class_try (Enc e) (build cc) [] = None).
      { apply (class_none (Enc e) cc []); [constructor|exact Hsane|]. intros n (c & H & _).
        unfold reads in H. pose proof (parse_eof e). rewrite H in H0. now apply H0. }
      rewrite Hcl. cbn [nf_end]. left. split; [exact Ek|]. split; [|reflexivity].
      intros c H. congruence.
    + assert (Hfc : readable e (fold c)).
      { assert (In c cps) by (rewrite <- (firstn_skipn k cps), Esk; apply in_or_app; right; now left).
        rewrite Forall_forall in Hf. now apply Hf. }
      pose proof (class_encoded e cc (fold c) r Hsane Hfc) as Hcl.
      destruct (class_try (Enc e) (build cc) (encode_code_point e (fold c) ++ r)) as [m|].
      * right. left. split; [exact Ek|]. split; [|reflexivity]. exists c. split; [exact Hnth|].
        apply Hcl. discriminate.
      * left. split; [exact Ek|]. split; [|reflexivity]. intros c' H. rewrite Hnth in H. injection H as <-.
        intros D. apply Hcl in D. now apply D.
  - right. right. split.
    + destruct Hk as (Hk1 & _). destruct (Nat.eq_dec k (length lcps)) as [E1|]; [|lia].
      apply Hok in E1. discriminate.
    + cbn [nf_end]. unfold nf_report. cbn [nf_success nf_impl_end]. unfold lit_error, end_.
      f_equal. f_equal. lia.
Qed.

(** ** followed_by *)
Lemma not_class E cc rest : (forall n, ~ a_char E (ENot cc) rest n) <->
  (forall c n, reads E rest c n -> ~ ~ denotes cc c).
Proof.
  split.
  - intros H c n Hr D. apply (H n). exists c. split; [exact Hr|exact D].
  - intros H n (c & Hr & D). exact (H c n Hr D).
Qed.

Lemma followed_plain fold E inp cs cc pos :
  text_units E inp -> sane cc -> no_eof E cs -> (pos <= length inp)%nat ->
  (exists e, followed_by fold NoFold E cs cc inp pos = Matched e) <->
  starts_with cs (skipn pos inp) /\
  ((exists n, a_char E cc (skipn (pos + length cs) inp) n) \/
   (forall c n, ~ reads E (skipn (pos + length cs) inp) c n)).
Proof.
  intros Ht Hs Hn Hp. pose proof (skipn_text E inp (pos + length cs) Ht) as (Hu & _).
  destruct (nf_plain fold E inp cs (ENot cc) pos Ht Hs Hn Hp) as (k & Hk & H). unfold followed_by. split.
  - intros (e & He). destruct H as [(-> & H & _)|[(_ & _ & H)|(_ & H)]]; [|congruence|congruence].
    split; [now apply starts_with_leading|]. 
    destruct (class_try E (build cc) (skipn (pos + length cs) inp)) as [n|] eqn:Hc.
    + left. exists n. now apply (class_char E cc _ n Hu Hs).
    + right. intros c n Hr. apply (H n). exists c. split; [exact Hr|]. intros D.
      apply (class_none E cc _ Hu Hs) in Hc. apply (Hc n). now exists c.
  - intros (Hst & Hor). apply starts_with_leading in Hst.
    pose proof (leading_unique _ _ _ _ Hk Hst) as ->.
    destruct H as [(_ & _ & H)|[(_ & (n & c & Hr & D) & _)|(H & _)]]; [eauto| |lia].
    exfalso. destruct Hor as [(n' & c' & Hr' & D')|Hno]; [|exact (Hno c n Hr)].
    assert (c = c').
    { destruct E as [|e]; cbn in Hr, Hr'.
      - destruct Hr as (_ & r & Hr & _), Hr' as (_ & r' & Hr' & _). congruence.
      - rewrite Hr in Hr'. now injection Hr'. }
    subst c'. exact (D D').
Qed.

(** ** Literal sets *)
Lemma applies_follow E cs v cc inp p : text_units E inp -> (match cc with Some e => sane e | None => True end) ->
  applies (in_trie E cs v cc) (skipn p inp) <->
  starts_with cs (skipn p inp) /\
  match cc with Some e => no_char E e (skipn (p + length cs) inp) | None => True end.
Proof.
  intros Ht Hs. unfold applies. cbn [in_trie l_units l_class]. rewrite skipn_skipn.
  pose proof (skipn_text E inp (p + length cs) Ht) as (Hu & _).
  destruct cc as [e|].
  - rewrite <- (class_none E e _ Hu Hs). split; intros (H1 & H2); (split; [exact H1|]).
    + specialize (H2 _ eq_refl). cbn beta in H2. rewrite class_try_firstn in H2. now destruct (class_try E _ _).
    + intros q Hq. injection Hq as <-. rewrite class_try_firstn, H2. reflexivity.
  - split; intros (H1 & H2); (split; [exact H1|]); [exact I|discriminate].
Qed.
