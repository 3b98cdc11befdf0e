(** C76: comparing a parse tree with a description of it. *)
From Coq Require Import String Ascii.
From Verif Require Import Prelude CodecModel LitModel RuleModel PtModel PtSpec PtActSpec PtProps VisModel TvProps DtModel DtSpec DtProofs.
Close Scope string_scope.
Open Scope N_scope.

(** The comparison holds exactly if the tree is the one described: the same productions in the same
    places, by name, and the same tokens, by the names of their kinds and their characters.  The
    finish() calls at the end of the description may be left out.
    Missing: names with quotes or line breaks, and tokens with backslashes, with the byte 0xFF, and with
    other bytes from 0x80 if the character type is signed; see the refutations below. *)
Theorem C76_equal_partial : forall token_name production_name signed inp cap tr t b e d cs n,
  (4 <= cap)%nat -> made cap tr t b e ->
  good signed (described token_name production_name inp t) -> good signed d ->
  calls_of d = cs ++ repeat CFinish n ->
  exists r, equal token_name production_name signed inp (2 * nodes t) cs tr = Some r /\
    (r = true <-> described token_name production_name inp t = d).
Proof. exact equal_made. Qed.
Print Assumptions C76_equal_partial.

(** Refuted for backslashes: a line break is spelled like the four characters that denote
    it.  The tree with the token "LF??" is equal to two different descriptions. *)
Definition tree76 (last : list N) : dtree :=
  DNode (str "top")
    [DNode (str "mid") [DLeaf (str "word") (str "a"); DNode (str "low") [DLeaf (str "word") (str " b")]];
     DLeaf (str "error token") last].
Theorem C76_backslash_refuted : exists tr, made 511 tr some_tree 6 8 /\
  described tokens70 names70 text70 some_tree = tree76 (0x0A :: str "??") /\
  equal tokens70 names70 true text70 12 (calls_of (tree76 (str "\{a}??"))) tr = Some true /\
  tree76 (str "\{a}??") <> tree76 (0x0A :: str "??").
Proof.
  destruct some_made as (tr & E & H). exists tr. split; [exact H|]. clear H. vm_compute in E. injection E as <-.
  split; [vm_compute; reflexivity|]. split; [vm_compute; reflexivity|]. vm_compute. discriminate.
Qed.
Print Assumptions C76_backslash_refuted.

(** Refuted for the byte 0xFF: it is spelled like the byte 0. *)
Theorem C76_ff_refuted : exists tr, made 511 tr some_tree 6 8 /\
  described tokens70 names70 (str "a b" ++ [0xFF] ++ str "??") some_tree = tree76 (0xFF :: str "??") /\
  equal tokens70 names70 false (str "a b" ++ [0xFF] ++ str "??") 12 (calls_of (tree76 (0 :: str "??"))) tr = Some true /\
  equal tokens70 names70 true (str "a b" ++ [0xFF] ++ str "??") 12 (calls_of (tree76 (0 :: str "??"))) tr = Some true.
Proof.
  destruct some_made as (tr & E & H). exists tr. split; [exact H|]. clear H. vm_compute in E. injection E as <-.
  split; [vm_compute; reflexivity|]. split; vm_compute; reflexivity.
Qed.
Print Assumptions C76_ff_refuted.

(** With a signed character type, std::isprint is called with a negative value for the bytes of
    a non-ASCII character, here U+00E4: undefined behaviour. *)
Theorem C76_signed_refuted : exists tr, made 511 tr some_tree 6 8 /\
  (forall cs, equal tokens70 names70 true (str "a b" ++ [0xC3; 0xA4] ++ str "?") 12 cs tr = None) /\
  equal tokens70 names70 false (str "a b" ++ [0xC3; 0xA4] ++ str "?") 12 (calls_of (tree76 ([0xC3; 0xA4] ++ str "?"))) tr = Some true.
Proof.
  destruct some_made as (tr & E & H). exists tr. split; [exact H|]. clear H. vm_compute in E. injection E as <-.
  split; [|vm_compute; reflexivity]. intros cs. unfold equal.
  match goal with |- context [convert ?a ?b ?c ?d ?e ?f] =>
    replace (convert a b c d e f) with (@None (list N)) by (vm_compute; reflexivity) end.
  destruct (do_calls _ _ _); reflexivity.
Qed.
Print Assumptions C76_signed_refuted.

(** The tree of the examples of C70, described without the call of finish() at the end. *)
Example C76_example : exists tr, made 511 tr some_tree 6 8 /\
  good true (described tokens70 names70 text70 some_tree) /\ good true (tree76 (0x0A :: str "??")) /\
  calls_of (tree76 (0x0A :: str "??")) =
    [CProduction (str "top"); CProduction (str "mid"); CToken (str "word") (str "a"); CProduction (str "low");
     CToken (str "word") (str " b"); CFinish; CFinish; CToken (str "error token") (0x0A :: str "??")] ++ repeat CFinish 1 /\
  equal tokens70 names70 true text70 12
    [CProduction (str "top"); CProduction (str "mid"); CToken (str "word") (str "a"); CProduction (str "low");
     CToken (str "word") (str " b"); CFinish; CFinish; CToken (str "error token") (0x0A :: str "??")] tr = Some true /\
  equal tokens70 names70 true text70 12
    [CProduction (str "top"); CProduction (str "mid"); CToken (str "word") (str "a"); CProduction (str "low");
     CToken (str "word") (str " b"); CFinish; CToken (str "error token") (0x0A :: str "??")] tr = Some false /\
  convert tokens70 names70 true text70 12 tr = Some (
    [0x0A] ++ str "            top:" ++ [0x0A] ++ str "            - mid:" ++ [0x0A] ++
    str "              - word: ""a""" ++ [0x0A] ++ str "              - low:" ++ [0x0A] ++
    str "                - word: "" b""" ++ [0x0A] ++ str "            - error token: ""\{a}??""" ++ [0x0A] ++
    str "         ").
Proof.
  destruct some_made as (tr & E & H). exists tr. split; [exact H|]. clear H. vm_compute in E. injection E as <-.
  assert (G : good true (tree76 (0x0A :: str "??"))).
  { cbn [good tree76]. unfold good_name, good_char.
    repeat match goal with
           | |- _ /\ _ => split
           | |- True => exact I
           | |- Forall _ _ => vm_compute; repeat constructor; discriminate
           | |- ~ In _ _ => vm_compute; intuition discriminate
           end. }
  split; [|split; [exact G|]].
  - replace (described tokens70 names70 text70 some_tree) with (tree76 (0x0A :: str "??")) by (vm_compute; reflexivity). exact G.
  - repeat split; vm_compute; reflexivity.
Qed.
