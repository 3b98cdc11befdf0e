(** Property theorems C55: symbol tables. *)
From Verif Require Import Prelude CodecModel LitModel LitSpec ClassModel ClassSpec SwarModel TextModel TextSpec
  SymModel SymSpec SymProofs.
Open Scope N_scope.

(** A table built by any sequence of [map] calls, with any folding chosen at any time, has
    exactly those entries in that order; iterating over it visits them once, in order. *)
Theorem C55_iteration : forall (V : Type) (es es' : list (list N * V)) f,
  table_iterate (add_all table_empty es) = Some es /\
  add_all (table_folding (add_all table_empty es) f) es' = Table f (es ++ es').
Proof.
  intros V es es' f. split; [exact (iterate_spec es)|]. rewrite !add_all_spec. reflexivity.
Qed.
Print Assumptions C55_iteration.

(** [table.parse(input)] finds a key exactly if the whole (folded) input is a name, and the
    value of that key is the one given by the last [map] call for that name; for every table
    and input, with the trie as built.  [mapped] with distinct names is membership. *)
Theorem C55_lookup : forall (V : Type) fold E (t : table V) input,
  usable fold E t -> no_eof E input ->
  exists key, table_parse fold E t input = Some key /\
    (forall v, table_get t key = Some v <->
       mapped (tb_entries t) (folded fold (tb_fold t) input) v) /\
    (key_valid t key = true <-> In (folded fold (tb_fold t) input) (map fst (tb_entries t))).
Proof. exact (fun V => @lookup V). Qed.
Print Assumptions C55_lookup.

Theorem C55_distinct : forall (V : Type) (es : list (list N * V)) s v,
  NoDup (map fst es) -> (mapped es s v <-> In (s, v) es).
Proof. exact (fun V => @mapped_distinct V). Qed.
Print Assumptions C55_distinct.

(** [dsl::symbol<table>], as a branch and as a rule: it takes the longest name, produces its
    value, and consumes exactly the text of the name; otherwise there is no name here at all. *)
Theorem C55_longest : forall (V : Type) fold E (t : table V) rest,
  usable fold E t -> no_eof E rest ->
  let L := folded fold (tb_fold t) rest in
  (forall n v, sym_void_try fold E t rest = SymValue n v <-> longest_symbol (tb_entries t) L n v) /\
  (sym_void_try fold E t rest = SymNo <-> no_symbol (tb_entries t) L) /\
  (forall n v, sym_void_parse fold E t rest = SymValue n v <-> longest_symbol (tb_entries t) L n v) /\
  (sym_void_parse fold E t rest = SymUnknown 0 0 <-> no_symbol (tb_entries t) L).
Proof. exact (fun V => @void_exact V). Qed.
Print Assumptions C55_longest.

(** [dsl::symbol<table>(token)] for every token rule: the value of the text of the token; the
    error covers the token. *)
Theorem C55_token : forall (V : Type) fold E (t : table V) token rest,
  usable fold E t -> no_eof E rest -> token_ok token ->
  let sees n := folded fold (tb_fold t) (firstn n rest) in
  (forall n v, sym_token_try fold E t token rest = SymValue n v <->
     token rest = TYes n /\ mapped (tb_entries t) (sees n) v) /\
  (sym_token_try fold E t token rest = SymNo <->
     forall n, token rest = TYes n -> unmapped (tb_entries t) (sees n)) /\
  (forall n v, sym_token_parse fold E t token rest = SymValue n v <->
     token rest = TYes n /\ mapped (tb_entries t) (sees n) v) /\
  (forall b e, sym_token_parse fold E t token rest = SymUnknown b e <->
     b = 0%nat /\ token rest = TYes e /\ unmapped (tb_entries t) (sees e)) /\
  (sym_token_parse fold E t token rest = SymTokenError <-> token rest = TNo).
Proof. exact (fun V => @token_exact V). Qed.
Print Assumptions C55_token.

(** [dsl::symbol<table>(identifier)], which does not match the identifier but a name that no
    trailing character follows: the same as for the token [identifier.pattern()].  Missing:
    names that are not identifiers; in general, every text at the reader that is taken for a
    name must have the form of an identifier (below it is shown that it can be wrong then). *)
Theorem C55_identifier_partial : forall (V : Type) fold E (t : table V) lead trail rest,
  usable fold E t -> text_units E rest -> sane lead -> sane trail ->
  (forall n, (n <= length rest)%nat ->
     In (folded fold (tb_fold t) (firstn n rest)) (map fst (tb_entries t)) ->
     id_text E lead trail rest n) ->
  sym_id_try fold E t (build lead) (build trail) rest
    = sym_token_try fold E t (pattern_try E (build lead) (build trail)) rest /\
  sym_id_parse fold E t (build lead) (build trail) rest
    = sym_token_parse fold E t (pattern_try E (build lead) (build trail)) rest.
Proof. exact (fun V => @id_equal V). Qed.
Print Assumptions C55_identifier_partial.

Theorem C55_identifier_names_partial : forall (V : Type) fold E (t : table V) lead trail rest,
  tb_fold t = NoFold ->
  (forall s, In s (map fst (tb_entries t)) -> text_units E s /\ id_text E lead trail s (length s)) ->
  text_units E rest -> sane lead -> sane trail ->
  sym_id_try fold E t (build lead) (build trail) rest
    = sym_token_try fold E t (pattern_try E (build lead) (build trail)) rest /\
  sym_id_parse fold E t (build lead) (build trail) rest
    = sym_token_parse fold E t (pattern_try E (build lead) (build trail)) rest.
Proof. exact (fun V => @id_equal_plain V). Qed.
Print Assumptions C55_identifier_names_partial.

(** "a" -> 10, "ab" -> 20, "a" -> 30. *)
Definition ex_table : table N :=
  table_map (table_map (table_map table_empty [0x61] 10) [0x61; 0x62] 20) [0x61] 30.
Example C55_example :
  let E := Enc Utf8 in let id := fun c : N => c in
  usable id E ex_table /\
  table_parse id E ex_table [0x61] = Some (Some 2%nat) /\ table_get ex_table (Some 2%nat) = Some 30 /\
  table_parse id E ex_table [0x61; 0x62] = Some (Some 1%nat) /\
  table_parse id E ex_table [0x61; 0x63] = Some None /\
  sym_void_parse id E ex_table [0x61; 0x62; 0x62] = SymValue 2 20 /\
  sym_void_parse id E (table_folding ex_table AsciiFold) [0x61; 0x42; 0x62] = SymValue 2 20 /\
  sym_void_parse id E ex_table [0x62] = SymUnknown 0 0 /\
  (let lead := build (named Calpha) in let trail := build (named Calnum) in
   sym_id_parse id E ex_table lead trail [0x61; 0x62; 0x20] = SymValue 2 20 /\
   sym_id_parse id E ex_table lead trail [0x61; 0x62; 0x62] = SymUnknown 0 3 /\
   sym_id_parse id E ex_table lead trail [0x20] = SymTokenError /\
   (forall s, In s (map fst (tb_entries ex_table)) ->
      text_units E s /\ id_text E (named Calpha) (named Calnum) s (length s))).
Proof.
  assert (Hn : forall s, In s (map fst (tb_entries ex_table)) -> s = [0x61] \/ s = [0x61; 0x62]).
  { cbn. intuition. }
  assert (He : forall s, In s (map fst (tb_entries ex_table)) -> no_eof (Enc Utf8) s).
  { intros s Hs. destruct (Hn s Hs) as [->| ->]; vm_compute; intuition discriminate. }
  split; [split; [exact I|exact He]|]. repeat (split; [vm_compute; reflexivity|]).
  intros s Hs. split; [split; [|now apply He]|].
  - destruct (Hn s Hs) as [->| ->]; repeat constructor.
  - assert (Ha : forall r, a_char (Enc Utf8) (named Calpha) (0x61 :: r) 1).
    { intros r. exists 0x61. split; [vm_compute; repeat split; reflexivity|]. vm_compute. reflexivity. }
    destruct (Hn s Hs) as [->| ->].
    + exists 1%nat, 0%nat. split; [apply Ha|]. split; [constructor|reflexivity].
    + exists 1%nat, 1%nat. split; [apply Ha|]. split; [|reflexivity]. change 1%nat with (1 + 0)%nat at 2.
      apply chars_cons; [|constructor]. exists 0x62. split; [vm_compute; repeat split; reflexivity|].
      vm_compute. reflexivity.
Qed.

(** Finding: with a name that is not an identifier, "a-b" in a table used with
    [symbol(identifier(alpha, alnum))], the text "a-b" is taken as that symbol although its
    identifier is "a", which is not in the table (docs: only if the identifier "exactly matches
    one of the strings"); and the text "1" is taken although no identifier begins there. *)
Theorem C55_identifier_refuted : exists (t : table N) rest rest',
  let E := Enc Utf8 in let id := fun c : N => c in
  let lead := build (named Calpha) in let trail := build (named Calnum) in
  usable id E t /\
  pattern_try E lead trail rest = TYes 1 /\ unmapped (tb_entries t) (firstn 1 rest) /\
  sym_id_parse id E t lead trail rest = SymValue 3 10 /\
  sym_token_parse id E t (pattern_try E lead trail) rest = SymUnknown 0 1 /\
  pattern_try E lead trail rest' = TNo /\ sym_id_try id E t lead trail rest' = SymValue 1 20.
Proof.
  exists (table_map (table_map table_empty [0x61; 0x2D; 0x62] 10) [0x31] 20), [0x61; 0x2D; 0x62], [0x31].
  cbn zeta. split.
  - split; [exact I|]. cbn [table_map table_empty tb_entries app map fst]. intros s [<-|[<-|[]]]; vm_compute; intuition discriminate.
  - split; [vm_compute; reflexivity|]. split; [vm_compute; intuition discriminate|].
    repeat split; vm_compute; reflexivity.
Qed.
Print Assumptions C55_identifier_refuted.

(** Finding: the same with case folding and an identifier of lower case letters only: "aB" is
    taken as the symbol "ab", although the identifier is "a". *)
Theorem C55_identifier_folding_refuted : exists (t : table N) rest,
  let E := Enc Utf8 in let id := fun c : N => c in
  let lower := build (named Clower) in
  usable id E t /\
  pattern_try E lower lower rest = TYes 1 /\ unmapped (tb_entries t) (firstn 1 rest) /\
  sym_id_parse id E t lower lower rest = SymValue 2 10 /\
  sym_token_parse id E t (pattern_try E lower lower) rest = SymUnknown 0 1.
Proof.
  exists (table_folding (table_map table_empty [0x61; 0x62] 10) AsciiFold), [0x61; 0x42].
  cbn zeta. split.
  - split; [exact I|]. cbn [table_folding table_map table_empty tb_entries app map fst]. intros s [<-|[]]; vm_compute; intuition discriminate.
  - split; [vm_compute; reflexivity|]. split; [vm_compute; intuition discriminate|].
    split; vm_compute; reflexivity.
Qed.
Print Assumptions C55_identifier_folding_refuted.
