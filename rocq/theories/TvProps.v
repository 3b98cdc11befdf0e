(** Property theorems C70, and C61 for parse trees. *)
From Coq Require Import String Ascii.
From Verif Require Import Prelude CodecModel CodecSpec LitModel ClassSpec LocSpec RuleModel PtModel PtSpec PtActSpec PtProps
  VisModel VisSpec VisProps RepSpec TvModel TvSpec TvMain TvRead.
Close Scope string_scope.
Open Scope N_scope.

(** ** C70 *)

(** Every node up to the maximal depth has one line, below the one of its parent and above the one
    of its next sibling, behind lines drawn for its ancestors.  The line has the name and for tokens
    the lexeme, with visible spaces; the children of productions at the maximal depth are replaced
    by an ellipsis.  Names have no escape characters, and the text is what a terminal
    displays of it, without the colors. *)
Theorem C70_drawn : forall cap tr t b e' token_name production_name e inp opts,
  (4 <= cap)%nat -> made cap tr t b e' ->
  (forall k, clean (token_name k)) -> (forall p, clean (production_name p)) -> vo_max_tree_depth opts <= 32 ->
  exists text,
    tree_text_output token_name production_name e inp opts (2 * nodes t) tr = Some text /\
    displayed false text = lines (drawn token_name production_name e inp opts (N.to_nat (vo_max_tree_depth opts)) t).
Proof. exact tree_drawn. Qed.
Print Assumptions C70_drawn.

(** As many lines as there are nodes up to the maximal depth. *)
Theorem C70_lines : forall token_name production_name e inp opts n t,
  length (drawn token_name production_name e inp opts n t) = shallow n t.
Proof. intros. apply drawn_length. Qed.
Print Assumptions C70_lines.

(** Drawings can be read: two trees for which the same is shown are the same up to the maximal
    depth, in structure, names and what is shown of the lexemes.  Names are on one line. *)
Theorem C70_readable : forall cap tr t b e' tr' inp inp' t' b' e'' token_name production_name e opts text text',
  (4 <= cap)%nat -> made cap tr t b e' -> made cap tr' t' b' e'' ->
  (forall k, clean (token_name k)) -> (forall p, clean (production_name p)) ->
  (forall k, ~ In LF (token_name k)) -> (forall p, ~ In LF (production_name p)) -> vo_max_tree_depth opts <= 32 ->
  tree_text_output token_name production_name e inp opts (2 * nodes t) tr = Some text ->
  tree_text_output token_name production_name e inp' opts (2 * nodes t') tr' = Some text' ->
  displayed false text = displayed false text' ->
  outlined token_name production_name e inp opts (N.to_nat (vo_max_tree_depth opts)) t =
  outlined token_name production_name e inp' opts (N.to_nat (vo_max_tree_depth opts)) t'.
Proof. exact drawings_read. Qed.
Print Assumptions C70_readable.

(** Nothing is drawn for an empty tree. *)
Theorem C70_empty : forall token_name production_name e inp opts fuel tr,
  p_root tr = None -> vo_max_tree_depth opts <= 32 ->
  tree_text_output token_name production_name e inp opts fuel tr = Some [].
Proof. exact tree_empty. Qed.
Print Assumptions C70_empty.

(** A tree of depth 3, with all of it and with one level only. *)
Definition names70 (p : nat) : list N := match p with O => str "top" | 1%nat => str "mid" | _ => str "low" end.
Definition tokens70 (k : tkind) : list N := match k with KUser _ => str "word" | KError => str "error token" | _ => str "other" end.
Definition utf8 : lexeme_encoding := VFlat (VText (Enc Utf8)).
Definition text70 : list N := str "a b" ++ [LF] ++ str "??".
Example C70_example : exists tr, made 511 tr some_tree 6 8 /\
  (forall k, clean (tokens70 k)) /\ (forall p, clean (names70 p)) /\
  drawn tokens70 names70 utf8 text70 (Options visualize_use_unicode 32 0 2) 32 some_tree =
    [str "top:"; str "├──mid:"; str "│  ├──word: a"; str "│  └──low:"; str "│     └──word: ⟨SP⟩b"; str "└──error token: ⟨LF⟩??"] /\
  tree_text_output tokens70 names70 utf8 text70 (Options visualize_use_color 1 0 2) 12 tr <> None /\
  drawn tokens70 names70 utf8 text70 (Options visualize_use_color 1 0 2) 1 some_tree =
    [str "top:"; str "- mid: ..."; str "- error token: \n??"] /\
  shallow 1 some_tree = 3%nat.
Proof.
  destruct some_made as (tr & E & H). exists tr. split; [exact H|].
  split; [intros []; vm_compute; intuition discriminate|]. split; [intros [|[]]; vm_compute; intuition discriminate|].
  clear H. vm_compute in E. injection E as <-. repeat split; try (vm_compute; reflexivity). vm_compute. discriminate.
Qed.

(** ** C61 for parse trees *)

(** What is written is the same as writing the text character by character.  Missing: output with
    colors, unless all copies of the iterator are interchangeable. *)
Theorem C61_tree_partial : forall W I (put : W -> I -> N -> W * I) token_name production_name e inp opts fuel out tr,
  is_set opts visualize_use_color = false \/ (forall i j : I, i = j) ->
  visualize_tree put token_name production_name e inp opts fuel out tr =
  option_map (written put out) (tree_text_output token_name production_name e inp opts fuel tr).
Proof. intros W I put tn pn e inp opts fuel out tr. exact (tree_written put tn pn e inp opts fuel out tr). Qed.
Print Assumptions C61_tree_partial.

Example C61_tree_example : exists tr, made 511 tr some_tree 6 8 /\
  is_set (Options 0 1 0 2) visualize_use_color = false /\
  match visualize_tree pointer_put tokens70 names70 utf8 text70 (Options 0 1 0 2) 12 (fun _ => 0, 10%nat) tr with
  | Some out => snd out = 46%nat
  | None => False
  end.
Proof.
  destruct some_made as (tr & E & H). exists tr. split; [exact H|]. split; [reflexivity|].
  clear H. vm_compute in E. injection E as <-. vm_compute. reflexivity.
Qed.
