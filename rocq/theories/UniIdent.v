(** Reserved identifiers with Unicode case folding on UTF-32. *)
From Verif Require Import Prelude CodecModel CodecSpec SwarModel LitModel LitSpec ClassModel ClassSpec
  TextModel TextSpec TextProofs UniTables UniModel UniSpec UniProofs UniCheck UniMain UniFold.
Open Scope N_scope.

Lemma db_fold_eof : forall c, db_fold c = leof (Enc Utf32) <-> c = leof (Enc Utf32).
Proof.
  intros c. split; intros H.
  - destruct (N.le_gt_cases c 0x10FFFF) as [Hc|Hc].
    + apply db_fold_valid in Hc. rewrite H in Hc. vm_compute in Hc. now destruct Hc.
    + assert (E : db_fold c = c).
      { unfold db_fold, simple_case_fold_db, cp_is_valid.
        destruct (N.leb_spec c 0x10FFFF); [lia|reflexivity]. }
      now rewrite <- E.
  - subst c. reflexivity.
Qed.

Lemma at_eof_fold : forall lexeme pos,
  at_eof (Enc Utf32) (map db_fold lexeme) pos = at_eof (Enc Utf32) lexeme pos.
Proof.
  intros lexeme pos. unfold at_eof. rewrite skipn_map. destruct (skipn pos lexeme) as [|c l]; [reflexivity|].
  cbn [map lpeek]. destruct (N.eqb_spec (db_fold c) (leof (Enc Utf32))) as [H|H];
    destruct (N.eqb_spec c (leof (Enc Utf32))) as [H'|H']; try reflexivity; exfalso.
  - now apply H', db_fold_eof.
  - now apply H, db_fold_eof.
Qed.

Lemma no_eof_fold : forall l, no_eof (Enc Utf32) l -> no_eof (Enc Utf32) (map db_fold l).
Proof.
  intros l H Hin. apply in_map_iff in Hin as (c & Hc & Hin). apply (proj1 (db_fold_eof c)) in Hc. subst c. now apply H.
Qed.

Lemma reserved_fold : forall k words lexeme,
  is_reserved db_fold (Enc Utf32) (Reserve k UnicodeFold words) lexeme
  = is_reserved db_fold (Enc Utf32) (Reserve k NoFold words) (map db_fold lexeme).
Proof.
  intros k words lexeme. unfold is_reserved. cbn [rs_kind rs_fold rs_words]. rewrite map_length.
  assert (Hc : forall fuel pos, contains_loop db_fold fuel (Enc Utf32) UnicodeFold words lexeme pos
                = contains_loop db_fold fuel (Enc Utf32) NoFold words (map db_fold lexeme) pos).
  { induction fuel as [|fuel IH]; intros pos; cbn [contains_loop]; [reflexivity|].
    rewrite utf32_set_db, at_eof_fold, IH. reflexivity. }
  assert (Hs : forall fuel pos, suffix_loop db_fold fuel (Enc Utf32) UnicodeFold words lexeme pos
                = suffix_loop db_fold fuel (Enc Utf32) NoFold words (map db_fold lexeme) pos).
  { induction fuel as [|fuel IH]; intros pos; cbn [suffix_loop]; [reflexivity|].
    rewrite utf32_set_db. destruct (set_try _ _ _ _ _ _) as [|[v|] p]; rewrite ?at_eof_fold, ?IH; reflexivity. }
  destruct k.
  - rewrite utf32_set_db. destruct (set_try _ _ _ _ _ _) as [|[v|] p]; rewrite ?at_eof_fold; reflexivity.
  - rewrite utf32_set_db. reflexivity.
  - apply Hc.
  - apply Hs.
Qed.

Lemma reserved_unicode : forall k words lexeme,
  plain_words (Enc Utf32) (Reserve k NoFold words) -> no_eof (Enc Utf32) lexeme ->
  exists b, is_reserved db_fold (Enc Utf32) (Reserve k UnicodeFold words) lexeme = Some b /\
    (b = true -> reserves (Reserve k NoFold words) (map db_fold lexeme)) /\
    (k <> Suffix \/ ~ overlapped (Reserve k NoFold words) (map db_fold lexeme) ->
     reserves (Reserve k NoFold words) (map db_fold lexeme) -> b = true).
Proof.
  intros k words lexeme Hp He. rewrite reserved_fold.
  exact (reserved_spec db_fold (Enc Utf32) (Reserve k NoFold words) (map db_fold lexeme) Hp (no_eof_fold _ He)).
Qed.
