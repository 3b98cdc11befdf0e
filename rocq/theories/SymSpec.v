(** Specification vocabulary for symbol tables. *)
From Verif Require Import Prelude CodecModel LitModel LitSpec TextModel TextSpec SymModel.
Open Scope N_scope.

(** The form in which a text is compared with the names, which are written in that form
    (docs/content/reference/dsl/symbol.adoc, 90). *)
Definition folded (fold : N -> N) (f : folding) (l : list N) : list N :=
  match f with
  | NoFold => l
  | AsciiFold => map lower l
  | UnicodeFold => map (simple_case_fold fold) l
  end.
(** No folding, ASCII, or Unicode on UTF-32 with a folding table that maps code points to
    folded code points.  (Unicode folding of tables on UTF-8 and UTF-16 is broken, C25.) *)
Definition foldable (fold : N -> N) (E : lenc) (f : folding) : Prop :=
  match f with
  | UnicodeFold => E = Enc Utf32 /\
      forall c, c <= 0x10FFFF -> fold c <= 0x10FFFF /\ fold (fold c) = fold c
  | _ => True
  end.

Section Spec.
Context {V : Type}.

(** The text [s] is mapped to [v] in a list of entries: there is an entry for [s], and the last
    one of them has the value [v]. *)
Definition mapped (es : list (list N * V)) (s : list N) (v : V) : Prop :=
  exists pre post, es = pre ++ (s, v) :: post /\ ~ In s (map fst post).
Definition unmapped (es : list (list N * V)) (s : list N) : Prop := ~ In s (map fst es).

(** The first [n] units of the input are the longest text mapped to anything, and its value
    is [v]. *)
Definition longest_symbol (es : list (list N * V)) (rest : list N) (n : nat) (v : V) : Prop :=
  (n <= length rest)%nat /\ mapped es (firstn n rest) v /\
  forall m, (n < m <= length rest)%nat -> unmapped es (firstn m rest).
Definition no_symbol (es : list (list N * V)) (rest : list N) : Prop :=
  forall n, unmapped es (firstn n rest).

(** The names can be matched: none has the in-band end marker, and the folding works. *)
Definition usable (fold : N -> N) (E : lenc) (t : table V) : Prop :=
  foldable fold E (tb_fold t) /\ forall s, In s (map fst (tb_entries t)) -> no_eof E s.

(** A token rule matches at most what is there, and does not run out of fuel. *)
Definition token_ok (token : list N -> tres) : Prop :=
  forall rest, token rest <> TOut /\ forall n, token rest = TYes n -> (n <= length rest)%nat.
End Spec.
