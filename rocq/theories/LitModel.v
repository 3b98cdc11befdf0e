(** Model of literal rules, literal sets (the compile-time trie and its matcher)
    and the case folding readers.
    Source: include/lexy/dsl/literal.hpp, dsl/case_folding.hpp, dsl/symbol.hpp,
    dsl/operator.hpp, dsl/identifier.hpp (keywords).

    The C++ readers are class templates, so a reader is modelled by a state type
    together with its operations; a case folding reader is a transformer from
    operations to operations, as [CaseFolding<Reader>] is. *)
From Verif Require Import Prelude CodecModel.
Open Scope N_scope.

(** encoding.hpp:26-230: the character encodings.  [Default] stands for
    default_encoding and byte_encoding, whose int_type is [int] and whose eof is -1. *)
Inductive lenc := Default | Enc (e : encoding).
Definition leof (E : lenc) : N :=
  match E with Default => 0x1FFFFFFFF | Enc e => eof e end.
Definition lbound (E : lenc) : N :=
  match E with Default => 0x100 | Enc e => unit_bound e end.

(** The reader operations used by literals; [marker]s are unit offsets. *)
Record ops (S : Type) := Ops {
  o_peek : S -> N;
  o_bump : S -> S;
  o_current : S -> nat;
  o_reset : nat -> S -> S }.
Arguments o_peek {S}. Arguments o_bump {S}. Arguments o_current {S}. Arguments o_reset {S}.
Arguments Ops {S}.

(** input/base.hpp:14-68 [_rr]: a range reader over the units [inp]; the state is
    the position. *)
Definition raw (E : lenc) (inp : list N) : ops nat :=
  Ops (fun p => match nth_error inp p with Some c => c | None => leof E end)
      (fun p => S p)
      (fun p => p)
      (fun m _ => m).

(** dsl/case_folding.hpp:80-116 [_acfr]: the ASCII case folding reader. *)
Definition acf {S} (o : ops S) : ops S :=
  Ops (fun s => let c := o_peek o s in
                if (0x41 <=? c) && (c <=? 0x5A) then c + 0x20 else c)          (* l.89-96 *)
      (o_bump o) (o_current o) (o_reset o).

Section Unicode.
(** code_point.hpp:269-277 [simple_case_fold]: the offset table is an
    arbitrary function here (UniModel.v has the actual one); that invalid code points are returned
    unchanged (l.271-272) is. *)
Variable fold : N -> N.
Definition simple_case_fold (cp : N) : N := if cp_is_valid cp then fold cp else cp.

(** dsl/case_folding.hpp:145-180 [_sucfr32]. *)
Definition suc32 {S} (o : ops S) : ops S :=
  Ops (fun s => simple_case_fold (o_peek o s))                                 (* l.156-160 *)
      (o_bump o) (o_current o) (o_reset o).

(** The next (at most [n]) units a reader delivers before eof.  This is how
    [parse_code_point(reader)], which takes the reader by value and looks at no
    more than four units, sees a reader. *)
Fixpoint units {S} (n : nat) (E : lenc) (o : ops S) (s : S) : list N :=
  match n with
  | O => []
  | Datatypes.S n' =>
    if o_peek o s =? leof E then [] else o_peek o s :: units n' E o (o_bump o s)
  end.
Fixpoint bumps {S} (n : nat) (o : ops S) (s : S) : S :=
  match n with O => s | Datatypes.S n' => bumps n' o (o_bump o s) end.

(** dsl/case_folding.hpp:183-268 [_sucfrm].  State: [_impl], [_cur_pos] and the
    units [_buffer[_buffer_cur.._buffer_size)].  [position()] is [current()]'s. *)
Definition sucm_state (S : Type) : Type := (S * nat * list N)%type.
Definition sucm_fill (e : encoding) {S} (o : ops S) (impl : S) : sucm_state S :=
  let cur_pos := o_current o impl in                                           (* l.203 *)
  let result := parse_code_point e (units 4 (Enc e) o impl) in                 (* l.206 *)
  match cr_error result with
  | success =>                                                                 (* l.207-215 *)
    let folded := simple_case_fold (cr_cp result) in
    (o_reset o (o_current o (bumps (cr_end result) o impl)) impl, cur_pos,
     encode_code_point e folded)
  | _ =>                                                                       (* l.216-226 *)
    (bumps (cr_end result) o impl, cur_pos, firstn (cr_end result) (units 4 (Enc e) o impl))
  end.
Definition sucm (e : encoding) {S} (o : ops S) : ops (sucm_state S) :=
  Ops (fun s => match snd s with [] => eof e | c :: _ => c end)                (* l.229-236 *)
      (fun s => match s with                                                   (* l.238-243 *)
                | (impl, cur, b) =>
                  match tl b with
                  | [] => sucm_fill e o impl
                  | b' => (impl, cur, b')
                  end
                end)
      (fun s => snd (fst s))                                                   (* l.250-260 *)
      (fun m s => match s with (impl, cur, b) => (o_reset o m impl, cur, b) end). (* l.261-264 *)

(** ** match_literal on readers without word access *)
(** dsl/literal.hpp:50-59. *)
Fixpoint match_units {S} (o : ops S) (cs : list N) (s : S) : bool * S :=
  match cs with
  | [] => (true, s)
  | c :: cs' => if o_peek o s =? c then match_units o cs' (o_bump o s) else (false, s)
  end.

(** dsl/literal.hpp:359-364 [_lit::tp::try_parse]: success and [end]. *)
Definition lit_try {S} (o : ops S) (cs : list N) (s : S) : bool * nat :=
  let '(ok, s') := match_units o cs s in (ok, o_current o s').

(** dsl/literal.hpp:366-376 [_lit::tp::report_error]: the error's position, index
    and length. *)
Definition lit_error (begin_ : nat) (cs : list N) (end_ : nat) : nat * nat * nat :=
  (begin_, end_ - begin_, length cs)%nat.

(** dsl/literal.hpp:405-431 [_lcp::_string_t]: the units of [lit_cp]. *)
Definition lcp_string (e : encoding) (cps : list N) : list N :=
  concat (map (encode_code_point e) cps).

(** ** The trie *)
(** dsl/literal.hpp:67-98 [lit_trie].  [None] is node_no_match, resp. "no
    character class" (an index past the class list). *)
Record trie := Trie {
  node_value : list (option N);
  node_char_class : list (option nat);
  transition : list (N * nat * nat)  (* char, from, to *) }.
Definition empty_trie : trie := Trie [None] [None] [].
Definition node_count (t : trie) : nat := length (node_value t).

(** The search loop of l.107-112, starting at transition index [i]; [ts] are the
    transitions from there on. *)
Fixpoint find_transition (ts : list (N * nat * nat)) (from : nat) (c : N) : option nat :=
  match ts with
  | [] => None
  | (ch, fr, to) :: ts' =>
    if (fr =? from)%nat && (ch =? c) then Some to else find_transition ts' from c
  end.

(** dsl/literal.hpp:99-125 [insert(from, c)]; [c] is already transcoded. *)
Definition trie_insert (t : trie) (from : nat) (c : N) : trie * nat :=
  match find_transition (skipn from (transition t)) from c with
  | Some to => (t, to)
  | None =>
    let to := node_count t in
    (Trie (node_value t ++ [None]) (node_char_class t ++ [None])
          (transition t ++ [(c, from, to)]), to)
  end.

(** dsl/literal.hpp:127-131, 345-349, 431-440: inserting all the units of a literal. *)
Fixpoint trie_insert_all (t : trie) (pos : nat) (cs : list N) : trie * nat :=
  match cs with
  | [] => (t, pos)
  | c :: cs' => let '(t', to) := trie_insert t pos c in trie_insert_all t' to cs'
  end.

Fixpoint set_nth {A} (n : nat) (x : A) (l : list A) : list A :=
  match l, n with
  | [], _ => []
  | _ :: l', O => x :: l'
  | y :: l', S n' => y :: set_nth n' x l'
  end.

(** A literal as the trie builders see it: its units, the value of its node
    (0 in a literal set, its index in a symbol table or operator list) and, for a
    keyword, the class of characters that must not follow.  The class is the
    predicate "the token [H] matches here" on the next units (l.222-230). *)
Record literal := Literal {
  l_units : list N;
  l_value : N;
  l_class : option (list N -> bool) }.

(** dsl/literal.hpp:522-534 [_lset::_build_trie], dsl/operator.hpp:50-63
    [op_lit_list::_build_trie], dsl/symbol.hpp:211-220 [_symbol_table::_build_trie];
    dsl/identifier.hpp:335-342 [_kw::lit_insert] additionally stores the class index.
    [cls] is the running class index. *)
Fixpoint build_from (t : trie) (cls : nat) (ls : list literal) : trie :=
  match ls with
  | [] => t
  | l :: ls' =>
    let '(t1, n) := trie_insert_all t 0 (l_units l) in
    let t2 := match l_class l with
              | None => t1
              | Some _ => Trie (node_value t1) (set_nth n (Some cls) (node_char_class t1))
                               (transition t1)
              end in
    let t3 := Trie (set_nth n (Some (l_value l)) (node_value t2)) (node_char_class t2)
                   (transition t2) in
    build_from t3 (match l_class l with None => cls | Some _ => S cls end) ls'
  end.
Definition build_trie (ls : list literal) : trie := build_from empty_trie 0 ls.

(** dsl/literal.hpp:152-166, 197-210 [char_class_list], the merged class list. *)
Fixpoint class_list (ls : list literal) : list (list N -> bool) :=
  match ls with
  | [] => []
  | l :: ls' => match l_class l with Some k => k :: class_list ls' | None => class_list ls' end
  end.

(** dsl/literal.hpp:133-150 [node_transitions]: the transitions with index >= node
    leaving the node, in order. *)
Definition node_transitions (t : trie) (node : nat) : list (N * nat * nat) :=
  filter (fun '(_, fr, _) => (fr =? node)%nat) (skipn node (transition t)).

(** dsl/literal.hpp:168-195 and case_folding.hpp: the folding of a set. *)
Inductive folding := NoFold | AsciiFold | UnicodeFold.

(** Result of a match: the template recursion is over the trie's nodes; [NoFuel]
    is a distinct outcome which the theorems exclude. *)
Inductive tmatch (S : Type) := NoFuel | Match (value : option N) (reader : S).
Global Arguments NoFuel {S}. Global Arguments Match {S}.

(** dsl/literal.hpp:239-322 [lit_trie_matcher<Trie, CurNode>].
    [node_impl] is [_impl::try_match] (l.265-303) with the recursive call
    [rec child reader] for the child matchers. *)
Definition node_impl (E : lenc) (t : trie) (classes : list (list N -> bool)) {S}
  (o : ops S) (rec : nat -> S -> tmatch S) (node : nat) (s : S) : tmatch S :=
  let own (s : S) : tmatch S :=                                                (* l.289-302 *)
    match nth node (node_value t) None with
    | None => Match None s
    | Some v =>
      match nth node (node_char_class t) None with
      | None => Match (Some v) s
      | Some k =>
        match nth_error classes k with
        | None => Match (Some v) s
        | Some q => if q (units 4 E o s) then Match None s else Match (Some v) s
        end
      end
    end in
  match node_transitions t node with
  | [] => own s
  | ts =>                                                                      (* l.273-287 *)
    let cur := o_current o s in
    let c := o_peek o s in
    match find (fun '(ch, _, _) => c =? ch) ts with
    | None => own (o_reset o cur s)
    | Some (_, _, to) =>
      match rec to (o_bump o s) with
      | NoFuel => NoFuel
      | Match (Some v) s' => Match (Some v) s'
      | Match None s' => own (o_reset o cur s')
      end
    end
  end.

(** dsl/literal.hpp:306-321 [try_match]: the reader is wrapped at every node. *)
Fixpoint try_match (f : folding) (E : lenc) (t : trie) (classes : list (list N -> bool))
  (fuel : nat) {S} (o : ops S) (node : nat) (s : S) {struct fuel} : tmatch S :=
  match fuel with
  | O => NoFuel
  | Datatypes.S fuel' =>
    match f with
    | NoFold => node_impl E t classes o (fun n s => try_match f E t classes fuel' o n s) node s
    | AsciiFold =>
      match node_impl E t classes (acf o)
              (fun n s => try_match f E t classes fuel' (acf o) n s) node s with
      | NoFuel => NoFuel
      | Match v s' => Match v (o_reset o (o_current (acf o) s') s)
      end
    | UnicodeFold =>
      match E with
      | Enc Utf32 =>
        match node_impl E t classes (suc32 o)
                (fun n s => try_match f E t classes fuel' (suc32 o) n s) node s with
        | NoFuel => NoFuel
        | Match v s' => Match v (o_reset o (o_current (suc32 o) s') s)
        end
      | Enc e =>
        match node_impl E t classes (sucm e o)
                (fun n s => try_match f E t classes fuel' (sucm e o) n s) node
                (sucm_fill e o s) with
        | NoFuel => NoFuel
        | Match v s' => Match v (o_reset o (o_current (sucm e o) s') s)
        end
      | Default => NoFuel  (* parse_code_point does not compile for this encoding *)
      end
    end
  end.

(** dsl/literal.hpp:539-562 [_lset::tp::try_parse]; dsl/symbol.hpp:178-189
    [_symbol_table::try_parse]; dsl/operator.hpp:82-91 [parse_operator].  The result
    is the matched node's value (if any) and [end]. *)
Definition set_try (f : folding) (E : lenc) (ls : list literal) (inp : list N) (pos : nat)
  : tmatch nat :=
  let t := build_trie ls in
  try_match f E t (class_list ls) (node_count t) (raw E inp) 0 pos.

(** dsl/case_folding.hpp:22-68 [_cfl::tp::try_parse] around a literal. *)
Definition cfl_ascii (E : lenc) (inp : list N) (cs : list N) (pos : nat) : bool * nat :=
  lit_try (acf (raw E inp)) cs pos.
Definition cfl_unicode (e : encoding) (inp : list N) (cs : list N) (pos : nat) : bool * nat :=
  match e with
  | Utf32 => lit_try (suc32 (raw (Enc e) inp)) cs pos
  | _ => lit_try (sucm e (raw (Enc e) inp)) cs (sucm_fill e (raw (Enc e) inp) pos)
  end.
End Unicode.

(** dsl/identifier.hpp:353-364 [_kw::tp::try_parse]: a keyword on its own.  [q] is the
    trailing class on the next units. *)
Definition kw_try (E : lenc) (inp cs : list N) (q : list N -> bool) (pos : nat) : bool * nat :=
  let '(ok, s) := match_units (raw E inp) cs pos in
  if ok then (negb (q (units 4 E (raw E inp) s)), s) else (false, pos).
