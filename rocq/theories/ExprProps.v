(** Properties C45 (precedence), C46 (completeness and uniqueness) and C47 (nesting
    limit) of expression productions. *)
From Verif Require Import Prelude ExprModel ExprSpec ExprMain ExprSample.
Open Scope nat_scope.

(** ** C45 *)
(** Parsing an expression always ends, without dereferencing an empty value, whatever the
    atom rule and the operators' rules do. *)
Theorem C45_terminates : forall tbl max_nesting input atom op_rest start, table_ok tbl ->
  exists fuel ok s, expr tbl max_nesting input atom op_rest fuel tbl start = Some (ok, s) /\
    forall fuel' r, expr tbl max_nesting input atom op_rest fuel' tbl start = Some r -> r = (ok, s).
Proof.
  intros tbl m input atom op_rest start Hok.
  destruct (expr_terminates tbl Hok m input atom op_rest _ tbl start (le_n _)) as (ok & s & E).
  exists (4 * length input + 3), ok, s. split; [exact E|]. intros f r H. exact (expr_det _ _ _ _ _ _ _ _ _ _ _ H E).
Qed.
Print Assumptions C45_terminates.

(** If no error is reported, the value is a tree whose in-order traversal is the input
    consumed, that respects levels and associativity and does not mix groups; and no infix
    or postfix operator is left behind it. *)
Theorem C45_tree : forall tbl max_nesting input atom op_rest fuel start ok s, table_ok tbl ->
  expr tbl max_nesting input atom op_rest fuel tbl start = Some (ok, s) -> no_errors (evs s) ->
  ok = true /\ exists t, val s = Some t /\
    reads tbl input atom op_rest t start (pos s) /\ respects tbl t /\ unmixed tbl t /\
    forall d, declared tbl d -> is_pre (d_kind d) = false -> absent input d (pos s).
Proof. exact expr_tree. Qed.
Print Assumptions C45_tree.

(** The nodes of the parse tree are those of that tree. *)
Theorem C45_events : forall tbl max_nesting input atom op_rest fuel start ok s t, table_ok tbl ->
  expr tbl max_nesting input atom op_rest fuel tbl start = Some (ok, s) -> no_errors (evs s) ->
  val s = Some t -> replay (evs s) [[]] = [nodes t].
Proof. exact expr_events. Qed.
Print Assumptions C45_events.

(** A failing expression has reported an error. *)
Theorem C45_failure_reported : forall tbl max_nesting input atom op_rest fuel start s, table_ok tbl ->
  expr tbl max_nesting input atom op_rest fuel tbl start = Some (false, s) ->
  exists e, In e (evs s) /\ is_error e = true.
Proof. exact expr_failure. Qed.
Print Assumptions C45_failure_reported.

(** An expression rooted at one of the declared operations ([subexpr]) has only
    operators of that level and tighter ones, and leaves no tighter one behind. *)
Theorem C45_subexpression : forall tbl max_nesting input atom op_rest fuel d start ok s, table_ok tbl ->
  declared tbl d ->
  expr tbl max_nesting input atom op_rest fuel (OOp (d_id d) (d_kind d) (d_lits d) OAtom) start = Some (ok, s) ->
  no_errors (evs s) ->
  exists t, val s = Some t /\ reads tbl input atom op_rest t start (pos s) /\ respects tbl t /\
    Forall (fun q => exists d', declared tbl d' /\ d_id d' = q /\ d_level d <= d_level d') (ops t) /\
    (forall d', declared tbl d' -> is_pre (d_kind d') = false -> d_level d < d_level d' -> absent input d' (pos s)) /\
    (is_pre (d_kind d) = false -> absent input d (pos s)).
Proof. exact expr_sub. Qed.
Print Assumptions C45_subexpression.

(** C45 as stated fails: with a postfix operator [!] declared looser than [*], "a!*b" is
    accepted, and [*] has an operand with a looser operator in it. *)
Definition loose_postfix : operation := OOp 1 KPost [lit 33] (OOp 2 ILeft [lit 42] OAtom).
Theorem C45_postfix_refuted : exists input fuel s o l r,
  input = [97; 33; 42; 98]%N /\
  expr loose_postfix 256 input (letter input) no_rest fuel loose_postfix 0 = Some (true, s) /\
  no_errors (evs s) /\ val s = Some (Inf l o r) /\ o_id o = 2 /\ In 1 (ops l) /\
  tighter loose_postfix 2 1 /\ ~ grammar loose_postfix (Inf l o r).
Proof.
  exists [97; 33; 42; 98]%N, 30. do 4 eexists. split; [reflexivity|]. split; [vm_compute; reflexivity|].
  split; [intros e; cbn; intuition (subst; auto)|]. split; [reflexivity|]. split; [reflexivity|].
  split; [cbn; auto|]. split.
  - exists (Decl 2 ILeft [lit 42] 2 []), (Decl 1 KPost [lit 33] 1 []). unfold declared. cbn. repeat split; auto.
  - intros H. inversion H; subst; try discriminate.
    match goal with H : grammar (OOp 2 _ _ _) _ |- _ => inversion H; subst end.
    + match goal with H : grammar OAtom _ |- _ => inversion H end.
    + match goal with H : grammar (OOp 2 _ _ _) (Post _ _) |- _ => inversion H; subst end.
      match goal with H : grammar OAtom _ |- _ => inversion H end.
Qed.
Print Assumptions C45_postfix_refuted.

(** C45, where no infix or postfix operator is declared tighter than a postfix operator: the tree
    is one of the grammar with one nonterminal per operation, whose operands come
    from the operation's operand.  Missing from the full statement: loose postfix
    operators (refuted above). *)
Theorem C45_grammar_partial : forall tbl max_nesting input atom op_rest fuel start ok s,
  table_ok tbl -> groups_ok tbl -> tight_postfix tbl ->
  expr tbl max_nesting input atom op_rest fuel tbl start = Some (ok, s) -> no_errors (evs s) ->
  exists t, val s = Some t /\ reads tbl input atom op_rest t start (pos s) /\ grammar tbl t.
Proof. exact expr_grammar. Qed.
Print Assumptions C45_grammar_partial.

(** "a+-b^c!*d" is read as a + ((- (b ^ (c !))) * d). *)
Example C45_example : exists s,
  expr sample 256 text1 (letter text1) no_rest 60 sample 0 = Some (true, s) /\
  no_errors (evs s) /\ val s = Some tree1 /\ pos s = 9.
Proof.
  eexists. split; [vm_compute; reflexivity|]. split; [intros e; cbn; intuition (subst; auto)|]. split; reflexivity.
Qed.
Example C45_example_tight : groups_ok sample /\ tight_postfix sample.
Proof.
  split; [cbn; auto|]. intros dp d Hp Hd Kp Kd. unfold declared in *. cbn in Hp, Hd.
  repeat destruct Hp as [<-|Hp]; try contradiction; try discriminate;
  repeat destruct Hd as [<-|Hd]; try contradiction; cbn; lia.
Qed.
(** "a^b+c" rooted at [*] stops before [+]. *)
Example C45_example_sub : let input := [97; 94; 98; 43; 99]%N in exists s,
  declared sample (Decl 2 ILeft [lit 42] 2 []) /\
  expr sample 256 input (letter input) no_rest 60 (OOp 2 ILeft [lit 42] OAtom) 0 = Some (true, s) /\
  no_errors (evs s) /\ pos s = 3.
Proof.
  eexists. split; [unfold declared; cbn; auto|]. split; [vm_compute; reflexivity|].
  split; [intros e; cbn; intuition (subst; auto)|reflexivity].
Qed.
(** "a+" fails. *)
Example C45_example_failure : let input := [97; 43]%N in exists s,
  expr sample 256 input (letter input) no_rest 60 sample 1 = Some (false, s).
Proof. eexists. vm_compute. reflexivity. Qed.

(** ** C46 *)
(** Every tree of the declared grammar that reads the input, up to a position where no
    infix or postfix operator follows, is the value delivered, without an error, if
    operator literals are unambiguous, atoms do not begin with a prefix operator and groups
    are not mixed.  Missing from the full statement: the nesting limit is on the
    number of operators (see C47), not on their nesting. *)
Theorem C46_accepted_partial : forall tbl max_nesting input atom op_rest t start e,
  table_ok tbl -> unambiguous tbl ->
  (forall p n, atom p = (true, n) -> forall d, declared tbl d -> d_kind d = KPre -> absent input d p) ->
  grammar tbl t -> unmixed tbl t -> reads tbl input atom op_rest t start e ->
  (forall d, declared tbl d -> is_pre (d_kind d) = false -> absent input d e) ->
  applications t <= max_nesting ->
  exists fuel s, expr tbl max_nesting input atom op_rest fuel tbl start = Some (true, s) /\
    no_errors (evs s) /\ val s = Some t /\ pos s = e.
Proof. exact expr_accepts_grammar. Qed.
Print Assumptions C46_accepted_partial.

(** The same for all trees that respect levels and associativity, which also covers loose
    postfix operators; with C45 this says exactly which trees are delivered. *)
Theorem C46_exactly : forall tbl max_nesting input atom op_rest t start e,
  table_ok tbl -> unambiguous tbl ->
  (forall p n, atom p = (true, n) -> forall d, declared tbl d -> d_kind d = KPre -> absent input d p) ->
  (exists fuel s, expr tbl max_nesting input atom op_rest fuel tbl start = Some (true, s) /\
     no_errors (evs s) /\ val s = Some t /\ pos s = e) <->
  (reads tbl input atom op_rest t start e /\ respects tbl t /\ unmixed tbl t /\ applications t <= max_nesting /\
   forall d, declared tbl d -> is_pre (d_kind d) = false -> absent input d e).
Proof. exact expr_exactly. Qed.
Print Assumptions C46_exactly.

(** The reading is unique. *)
Theorem C46_unique : forall tbl input atom op_rest t t' start e e',
  table_ok tbl -> unambiguous tbl ->
  (forall p n, atom p = (true, n) -> forall d, declared tbl d -> d_kind d = KPre -> absent input d p) ->
  respects tbl t -> unmixed tbl t -> reads tbl input atom op_rest t start e ->
  (forall d, declared tbl d -> is_pre (d_kind d) = false -> absent input d e) ->
  respects tbl t' -> unmixed tbl t' -> reads tbl input atom op_rest t' start e' ->
  (forall d, declared tbl d -> is_pre (d_kind d) = false -> absent input d e') ->
  t = t' /\ e = e'.
Proof. exact expr_unique. Qed.
Print Assumptions C46_unique.

(** All hypotheses hold of "a+-b^c!*d". *)
Example C46_example : table_ok sample /\ unambiguous sample /\
  (forall p n, letter text1 p = (true, n) -> forall d, declared sample d -> d_kind d = KPre -> absent text1 d p) /\
  grammar sample tree1 /\ unmixed sample tree1 /\ reads sample text1 (letter text1) no_rest tree1 0 9 /\
  (forall d, declared sample d -> is_pre (d_kind d) = false -> absent text1 d 9) /\
  applications tree1 <= 256.
Proof.
  repeat (split; [auto using sample_ok, sample_unambiguous, sample_grammar, sample_unmixed, sample_reads; apply sample_atoms|]).
  split; [|cbn; lia]. intros d Hd _ x Hx. unfold declared in Hd. cbn in Hd.
  repeat destruct Hd as [<-|Hd]; try contradiction; (destruct Hx as [<-|[]]; reflexivity).
Qed.

(** Groups inside a group are not usable: an operator of the inner groups may not be used with
    one of the enclosing alternative, although the grammar has the tree. *)
Definition nested_groups : operation :=
  OGroups [OOp 1 ILeft [lit 43] (OGroups [OOp 2 ILeft [lit 42] OAtom; OOp 3 ILeft [lit 47] OAtom]); OOp 4 ILeft [lit 45] OAtom].
Theorem C46_nested_groups_refuted : exists input s t,
  input = [97; 43; 98; 42; 99]%N /\ table_ok nested_groups /\ grammar nested_groups t /\
  reads nested_groups input (letter input) no_rest t 0 5 /\
  expr nested_groups 256 input (letter input) no_rest 60 nested_groups 0 = Some (true, s) /\
  In (EGroup 3 4) (evs s).
Proof.
  exists [97; 43; 98; 42; 99]%N. eexists.
  exists (Inf (Leaf 0 1) (OpN 1 0 1 2 2) (Inf (Leaf 2 3) (OpN 2 0 3 4 4) (Leaf 4 5))).
  split; [reflexivity|]. split; [|split; [|split; [|split; [vm_compute; reflexivity|]]]].
  - split; [cbn; repeat constructor; cbn; intuition congruence|].
    intros d x Hd Hx. unfold declared in Hd. cbn in Hd. repeat destruct Hd as [<-|Hd]; try contradiction;
      (destruct Hx as [<-|[]]; discriminate).
  - eapply G_alternative; [left; reflexivity|]. constructor; [reflexivity| |].
    + apply G_operand. eapply G_alternative; [left; reflexivity|]. repeat constructor.
    + eapply G_alternative; [left; reflexivity|]. constructor; [reflexivity| |]; repeat constructor.
  - cbn [reads]. repeat match goal with |- _ /\ _ => split end;
    try reflexivity; try (eexists; split; reflexivity); text.
  - cbn. auto 12.
Qed.
Print Assumptions C46_nested_groups_refuted.

(** ** C47 *)
(** C47 as stated fails: the limit counts all operators of an expression.  In "a*b+c*d"
    operators nest two deep, but with a limit of two it is rejected. *)
Theorem C47_count_refuted : exists input s t,
  input = [97; 42; 98; 43; 99; 42; 100]%N /\ grammar sample t /\
  reads sample input (letter input) no_rest t 0 7 /\ nesting t = 2 /\
  expr sample 2 input (letter input) no_rest 60 sample 0 = Some (true, s) /\ nesting_error (evs s).
Proof.
  exists [97; 42; 98; 43; 99; 42; 100]%N. eexists.
  exists (Inf (Inf (Leaf 0 1) (OpN 2 0 1 2 2) (Leaf 2 3)) (OpN 1 0 3 4 4) (Inf (Leaf 4 5) (OpN 2 0 5 6 6) (Leaf 6 7))).
  split; [reflexivity|]. split; [|split; [|split; [reflexivity|split; [vm_compute; reflexivity|]]]].
  - constructor; [reflexivity| |].
    + apply G_operand. constructor; [reflexivity| |]; repeat constructor.
    + constructor; [reflexivity| |]; repeat constructor.
  - cbn [reads]. repeat match goal with |- _ /\ _ => split end;
    try reflexivity; try (eexists; split; reflexivity); text.
  - exists 5, 6. cbn. auto 20.
Qed.
Print Assumptions C47_count_refuted.

(** A flat chain counts in full: for every limit [n], the chain a+a+...+a of [n + 1]
    operators is rejected. *)
Theorem C47_flat_chain_refuted : forall n, exists fuel ok s,
  expr sample n (chain (S n)) (letter (chain (S n))) no_rest fuel sample 0 = Some (ok, s) /\ nesting_error (evs s).
Proof. exact chain_rejected. Qed.
Print Assumptions C47_flat_chain_refuted.

(** What does hold: for an input with a permitted reading, the nesting error is reported
    exactly when the reading has more operators than the limit, a list operation
    counting once; so it is reported whenever operators nest deeper than the limit.
    Missing from the full statement: that it is reported only then (refuted above). *)
Theorem C47_limit_partial : forall tbl max_nesting input atom op_rest t start e,
  table_ok tbl -> unambiguous tbl ->
  (forall p n, atom p = (true, n) -> forall d, declared tbl d -> d_kind d = KPre -> absent input d p) ->
  reads tbl input atom op_rest t start e -> respects tbl t -> unmixed tbl t ->
  (forall d, declared tbl d -> is_pre (d_kind d) = false -> absent input d e) ->
  forall fuel ok s, expr tbl max_nesting input atom op_rest fuel tbl start = Some (ok, s) ->
    (nesting_error (evs s) <-> max_nesting < applications t) /\
    (max_nesting < nesting t -> nesting_error (evs s)).
Proof. exact expr_nesting. Qed.
Print Assumptions C47_limit_partial.
(** Five operators in "a+-b^c!*d", nesting five deep: hypotheses as in [C46_example]. *)
Example C47_example : nesting tree1 = 5 /\ applications tree1 = 5 /\
  (exists s, expr sample 4 text1 (letter text1) no_rest 60 sample 0 = Some (true, s) /\ nesting_error (evs s)) /\
  (exists s, expr sample 5 text1 (letter text1) no_rest 60 sample 0 = Some (true, s) /\ no_errors (evs s)).
Proof.
  split; [reflexivity|]. split; [reflexivity|]. split; eexists; (split; [vm_compute; reflexivity|]).
  - exists 7, 8. cbn. auto 30.
  - intros e; cbn; intuition (subst; auto).
Qed.
