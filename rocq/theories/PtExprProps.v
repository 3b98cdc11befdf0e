(** Property C48 for expressions: the parse tree of an expression production. *)
From Verif Require Import Prelude RuleModel PtModel PtSpec PtActSpec PtNav PtProps PtExprModel PtExprSpec PtExprProofs
  ExprModel ExprSpec ExprProps ExprSample.
Close Scope N_scope.

(** The calls parse_as_tree makes for the events of an expression without errors are allowed wherever
    the expression is, and add the nodes of its value: one for every operator applied, around
    the nodes of the operands and the token of the operator.

    The atom rule and the rules of the operators are arbitrary, as long as their own calls add nodes,
    at least one for an atom; [C48_expression] itself is a reason for atoms that are
    expressions again, in parentheses. *)
Theorem C48_expression : forall tbl max_nesting input atom op_rest op_kind op_info atom_calls rest_calls
    atom_trees rest_trees fuel start ok s t,
  table_ok tbl ->
  (forall id idx, ignore_if_empty (op_kind id idx) = false) ->
  (forall id, i_transparent (op_info id) = false) ->
  (forall b n, atom b = (true, n) ->
    calls_add (atom_calls b (b + n)) (atom_trees b (b + n)) /\ atom_trees b (b + n) <> []) ->
  (forall b e, b <= e -> calls_add (rest_calls b e) (rest_trees b e)) ->
  expr tbl max_nesting input atom op_rest fuel tbl start = Some (ok, s) -> no_errors (evs s) ->
  val s = Some t ->
  calls_add (expr_calls op_kind op_info atom_calls rest_calls (evs s))
    (expr_trees op_kind op_info atom_trees rest_trees t) /\
  expr_trees op_kind op_info atom_trees rest_trees t <> [].
Proof.
  intros tbl max_nesting input atom op_rest op_kind op_info atom_calls rest_calls atom_trees rest_trees
    fuel start ok s t Ht Hk Hi Ha Hr He Hn Hv.
  destruct (C45_tree _ _ _ _ _ _ _ _ _ Ht He Hn) as (_ & t' & Hv' & Hreads & _).
  rewrite Hv in Hv'. injection Hv' as <-.
  assert (Hne : expr_trees op_kind op_info atom_trees rest_trees t <> []).
  { eapply trees_some; [|exact Hreads]. exact Ha. }
  split; [|exact Hne]. eapply expr_adds; eassumption.
Qed.
Print Assumptions C48_expression.

(** The tree of a production whose rule is such an expression: traversing it shows the nodes of the
    value, below the root. *)
Theorem C48_expression_tree : forall cap old root b e tbl max_nesting input atom op_rest op_kind op_info
    atom_calls rest_calls atom_trees rest_trees fuel start ok s t,
  4 <= cap -> wf_old old -> b <= e -> table_ok tbl ->
  (forall id idx, ignore_if_empty (op_kind id idx) = false) ->
  (forall id, i_transparent (op_info id) = false) ->
  (forall b n, atom b = (true, n) ->
    calls_add (atom_calls b (b + n)) (atom_trees b (b + n)) /\ atom_trees b (b + n) <> []) ->
  (forall b e, b <= e -> calls_add (rest_calls b e) (rest_trees b e)) ->
  expr tbl max_nesting input atom op_rest fuel tbl start = Some (ok, s) -> no_errors (evs s) ->
  val s = Some t ->
  let tree := TProd (i_id root) (i_token root) (expr_trees op_kind op_info atom_trees rest_trees t) in
  exists tr r l,
    build cap old root (expr_calls op_kind op_info atom_calls rest_calls (evs s)) b e = Some tr /\
    made cap tr tree b e /\
    p_root tr = Some r /\ traverse (2 * PtSpec.nodes tree) (b_mem (p_buf tr)) r = Some l /\
    map (show (b_mem (p_buf tr))) l = map Some (preorder tree).
Proof.
  intros cap old root b e tbl max_nesting input atom op_rest op_kind op_info atom_calls rest_calls
    atom_trees rest_trees fuel start ok s t Hcap Hw Hbe Ht Hk Hi Ha Hr He Hn Hv tree.
  destruct (C48_expression tbl max_nesting input atom op_rest op_kind op_info atom_calls rest_calls
    atom_trees rest_trees fuel start ok s t) as (H & _); try assumption.
  destruct (H (Frame (Some (i_id root, i_token root)) []) []) as (H1 & H2).
  destruct (C48_builder cap old root
    (expr_calls op_kind op_info atom_calls rest_calls (evs s)) b e tree Hcap Hw Hbe) as (tr & r & l & A); [|exact H2|].
  - unfold spec_tree. rewrite H1. reflexivity.
  - exists tr, r, l. tauto.
Qed.
Print Assumptions C48_expression_tree.

(** "a+-b^c!*d" of [sample]; the literal of operation i is a token of kind i, an atom is a token of kind 0. *)
Definition sample_kind (id idx : nat) : tkind := KUser id.
Definition sample_info (id : nat) : info := Info (10 + id) false false.
Example C48_expression_example : exists s tr r l,
  expr sample 100 text1 (letter text1) no_rest 100 sample 0 = Some (true, s) /\
  build 511 new_buffer (Info 9 false false)
    (expr_calls sample_kind sample_info (fun b e => [CToken (KUser 0) b e]) (fun _ _ => []) (evs s)) 9 9 = Some tr /\
  p_root tr = Some r /\ traverse 100 (b_mem (p_buf tr)) r = Some l /\
  map (show (b_mem (p_buf tr))) l = map Some
    [SEnter 9 false;
       SEnter 11 false; SLeaf (KUser 0) 0 1; SLeaf (KUser 1) 1 2;
         SEnter 12 false;
           SEnter 13 false; SLeaf (KUser 3) 2 3;
             SEnter 14 false; SLeaf (KUser 0) 3 4; SLeaf (KUser 4) 4 5;
               SEnter 15 false; SLeaf (KUser 0) 5 6; SLeaf (KUser 5) 6 7; SExit 15 false;
             SExit 14 false;
           SExit 13 false;
           SLeaf (KUser 2) 7 8; SLeaf (KUser 0) 8 9;
         SExit 12 false;
       SExit 11 false;
     SExit 9 false].
Proof. do 4 eexists. repeat (split; [vm_compute; reflexivity|]). vm_compute. reflexivity. Qed.
(** Its atoms and rests meet the hypotheses. *)
Example C48_expression_atoms :
  (forall b n, letter text1 b = (true, n) ->
    calls_add [CToken (KUser 0) b (b + n)] [TTok (KUser 0) b (b + n)] /\ [TTok (KUser 0) b (b + n)] <> []) /\
  (forall b e, b <= e -> calls_add [] []).
Proof.
  split.
  - intros b n _. split; [|discriminate]. apply token_add; [reflexivity|lia].
  - intros b e _ f st. split; [|reflexivity]. cbn. unfold add. rewrite app_nil_r. now destruct f.
Qed.
