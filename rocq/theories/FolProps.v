(** C75: literals with a condition on the next character. *)
From Verif Require Import Prelude CodecModel CodecSpec SwarModel SwarSpec LitModel LitSpec
  ClassModel ClassSpec TextModel TextSpec FolModel LitProofs FolProofs.
Open Scope N_scope.

(** not_followed_by(lit, cc): it matches exactly if the input starts with the literal and the next
    character is not one of the class (another one, none at all or ill-formed text), and then it
    consumes exactly the literal.  If the literal is there but a character of the class
    follows, the error is a follow_restriction at the end of the literal.  If the literal is
    not there, the error is the literal's, with the number of units that did match, and
    nothing is consumed. *)
Theorem C75_not_followed : forall fold E inp cs cc pos,
  text_units E inp -> sane cc -> no_eof E cs -> (pos <= length inp)%nat ->
  exists k, leading cs (skipn pos inp) k /\
  ((k = length cs /\ no_char E cc (skipn (pos + k) inp) /\
    not_followed_by fold NoFold E cs cc inp pos = Matched (pos + k)) \/
   (k = length cs /\ (exists n, a_char E cc (skipn (pos + k) inp) n) /\
    not_followed_by fold NoFold E cs cc inp pos
    = Failed (FollowRestriction (pos + k) (pos + k)) (pos + k)) \/
   ((k < length cs)%nat /\
    not_followed_by fold NoFold E cs cc inp pos = Failed (ExpectedLiteral pos k (length cs)) pos)).
Proof. exact nf_plain. Qed.
Print Assumptions C75_not_followed.

(** With case folding the condition is about the folded text as well: ASCII folding in every
    encoding, and Unicode folding in UTF-32, do what the rule without folding does on the
    folded input. *)
Theorem C75_ascii_folding : forall fold E inp cs cc pos,
  not_followed_by fold AsciiFold E cs cc inp pos
  = not_followed_by fold NoFold E cs cc (map lower inp) pos.
Proof. exact nf_ascii. Qed.
Print Assumptions C75_ascii_folding.

Theorem C75_utf32_folding : forall fold inp cs cc pos,
  not_followed_by fold UnicodeFold (Enc Utf32) cs cc inp pos
  = not_followed_by fold NoFold (Enc Utf32) cs cc (map (simple_case_fold fold) inp) pos.
Proof. exact nf_utf32. Qed.
Print Assumptions C75_utf32_folding.

(** Unicode folding of UTF-8 and UTF-16 texts: the literal is compared with the folded code
    points, then the class with the next folded code point. *)
Theorem C75_unicode_folding : forall fold e inp lcps cc cps pos,
  e = Utf8 \/ e = Utf16 -> text_units (Enc e) inp -> skipn pos inp = text e cps -> sane cc ->
  Forall (readable e) lcps -> Forall (readable e) cps -> Forall (fun c => readable e (fold c)) cps ->
  exists k, leading lcps (map fold cps) k /\
  let end_ := (pos + length (text e (firstn k cps)))%nat in
  ((k = length lcps /\ (forall c, nth_error cps k = Some c -> ~ denotes cc (fold c)) /\
    not_followed_by fold UnicodeFold (Enc e) (lcp_string e lcps) cc inp pos = Matched end_) \/
   (k = length lcps /\ (exists c, nth_error cps k = Some c /\ denotes cc (fold c)) /\
    not_followed_by fold UnicodeFold (Enc e) (lcp_string e lcps) cc inp pos
    = Failed (FollowRestriction end_ end_) end_) \/
   ((k < length lcps)%nat /\
    not_followed_by fold UnicodeFold (Enc e) (lcp_string e lcps) cc inp pos
    = Failed (ExpectedLiteral pos (length (text e (firstn k cps))) (length (lcp_string e lcps))) pos)).
Proof. exact nf_unicode. Qed.
Print Assumptions C75_unicode_folding.

(** Refuted: followed_by(lit, cc) does not ensure that a character of the class follows.
    It is not_followed_by(lit, -cc), and -cc matches neither at the end of the input nor on
    ill-formed text: "1" required to be followed by a digit matches at the end of the input, and in front of a
    stray UTF-8 continuation byte. *)
Theorem C75_followed_refuted :
  followed_by (fun c => c) NoFold (Enc Utf8) [0x31] (named Cdigit) [0x31] 0 = Matched 1 /\
  followed_by (fun c => c) NoFold (Enc Utf8) [0x31] (named Cdigit) [0x31; 0x80; 0x41] 0 = Matched 1 /\
  no_char (Enc Utf8) (named Cdigit) [] /\ no_char (Enc Utf8) (named Cdigit) [0x80; 0x41].
Proof.
  split; [vm_compute; reflexivity|]. split; [vm_compute; reflexivity|].
  split; intros n (c & H & _); vm_compute in H; discriminate.
Qed.
Print Assumptions C75_followed_refuted.

(** What holds of followed_by: it matches exactly if the input starts with the literal and
    either a character of the class follows or no character at all does.
    Missing: that one follows (refuted above). *)
Theorem C75_followed_partial : forall fold E inp cs cc pos,
  text_units E inp -> sane cc -> no_eof E cs -> (pos <= length inp)%nat ->
  (exists e, followed_by fold NoFold E cs cc inp pos = Matched e) <->
  starts_with cs (skipn pos inp) /\
  ((exists n, a_char E cc (skipn (pos + length cs) inp) n) \/
   (forall c n, ~ reads E (skipn (pos + length cs) inp) c n)).
Proof. exact followed_plain. Qed.
Print Assumptions C75_followed_partial.

(** In a literal set, symbol table or operator list such a literal takes part exactly where the
    rule on its own matches; C24 then says which literal of the set is taken: the longest. *)
Theorem C75_in_set : forall fold E cs v cc ls inp pos,
  text_units E inp -> sane cc -> no_eof E cs -> (pos <= length inp)%nat ->
  (applies (in_trie E cs v (Some cc)) (skipn pos inp) <->
   exists e, not_followed_by fold NoFold E cs cc inp pos = Matched e) /\
  (consistent ls -> (forall l, In l ls -> no_eof E (l_units l)) ->
   In (in_trie E cs v (Some cc)) ls ->
   (forall l, In l ls -> applies l (skipn pos inp) -> (length (l_units l) <= length cs)%nat) ->
   forall e, not_followed_by fold NoFold E cs cc inp pos = Matched e ->
   set_try fold NoFold E ls inp pos = Match (Some v) e).
Proof.
  intros fold E cs v cc ls inp pos Ht Hs Hn Hp.
  destruct (nf_plain fold E inp cs cc pos Ht Hs Hn Hp) as (k & Hk & H).
  assert (Happ : applies (in_trie E cs v (Some cc)) (skipn pos inp) <->
                 exists e, not_followed_by fold NoFold E cs cc inp pos = Matched e).
  { rewrite (applies_follow E cs v (Some cc) inp pos Ht Hs). rewrite starts_with_leading. split.
    - intros (Hl & Hc). pose proof (leading_unique _ _ _ _ Hk Hl) as ->.
      destruct H as [(_ & _ & H)|[(_ & (n & H) & _)|(H & _)]]; [eauto|destruct (Hc n H)|lia].
    - intros (e & He). destruct H as [(-> & H & _)|[(_ & _ & H)|(_ & H)]]; [auto|congruence|congruence]. }
  split; [exact Happ|]. intros Hcon Hne Hin Hmax e He.
  assert (Ee : e = (pos + length cs)%nat).
  { destruct H as [(-> & _ & H)|[(_ & _ & H)|(_ & H)]]; [|congruence|congruence]. rewrite He in H. now injection H. }
  assert (Ha : applies (in_trie E cs v (Some cc)) (skipn pos inp)) by (apply Happ; eauto).
  destruct (set_try_spec fold E ls inp pos Hcon (proj2 Ht) Hne Hp) as [(l & (Hl & Hla & Hlm) & ->)|(Hnone & _)].
  2:{ destruct (Hnone _ Hin Ha). }
  pose proof (Hmax l Hl Hla) as H1. pose proof (Hlm _ Hin Ha) as H2. cbn [in_trie l_units] in H2.
  assert (Hu : l_units l = cs).
  { destruct Hla as ((r & Hr) & _), Ha as ((r' & Hr') & _). cbn [in_trie l_units] in Hr'.
    rewrite Hr in Hr'. assert (Hlen : length (l_units l) = length cs) by lia.
    apply (f_equal (firstn (length cs))) in Hr'.
    rewrite <- Hlen in Hr' at 1. rewrite !firstn_app_exact in Hr'. exact Hr'. }
  destruct (Hcon l _ Hl Hin) as (Hv & _); [exact Hu|]. cbn [in_trie l_value] in Hv. now rewrite Hv, Hu, Ee.
Qed.
Print Assumptions C75_in_set.

(** "=" not followed by "=": in "a==b" not at 1; in "a=b" it is.  Ignoring case, "E" not
    followed by a letter: "eX" is refused with the restriction at 1. *)
Example C75_example :
  not_followed_by (fun c => c) NoFold (Enc Utf8) [0x3D] (ECode 0x3D) [0x61; 0x3D; 0x3D; 0x62] 1 = Failed (FollowRestriction 2 2) 2 /\
  not_followed_by (fun c => c) NoFold (Enc Utf8) [0x3D] (ECode 0x3D) [0x61; 0x3D; 0x62] 1 = Matched 2 /\
  not_followed_by (fun c => c) NoFold (Enc Utf8) [0x3D; 0x3E] (ECode 0x3D) [0x3D; 0x3D] 0 = Failed (ExpectedLiteral 0 1 2) 0 /\
  not_followed_by (fun c => c) AsciiFold (Enc Utf8) [0x65] (named Clower) [0x45; 0x58] 0 = Failed (FollowRestriction 1 1) 1 /\
  not_followed_by (fun c => c) NoFold (Enc Utf8) [0x45] (named Clower) [0x45; 0x58] 0 = Matched 1 /\
  not_followed_by (fun c => if c =? 0xC4 then 0xE4 else c) UnicodeFold (Enc Utf8) (lcp_string Utf8 [0x61])
    (ECode 0xE4) (text Utf8 [0x61; 0xC4]) 0 = Failed (FollowRestriction 1 1) 1 /\
  set_try (fun c => c) NoFold (Enc Utf8)
    [in_trie (Enc Utf8) [0x3D] 0 (Some (ECode 0x3D)); in_trie (Enc Utf8) [0x3D; 0x3D; 0x3D] 1 None]
    [0x3D; 0x62] 0 = Match (Some 0) 1%nat /\
  text_units (Enc Utf8) [0x61; 0x3D; 0x3D; 0x62] /\ sane (ECode 0x3D) /\ no_eof (Enc Utf8) [0x3D].
Proof.
  do 7 (split; [vm_compute; reflexivity|]).
  split; [split; [repeat constructor|vm_compute; intuition discriminate]|].
  split; [exact I|vm_compute; intuition discriminate].
Qed.
