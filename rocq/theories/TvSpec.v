(** How a tree is drawn; of the model of the visualization only flags and options are used,
    and [visualize_tree] to say what text it writes. *)
From Coq Require Import String Ascii.
From Verif Require Import Prelude CodecModel CodecSpec LitModel ClassSpec LocSpec RuleModel PtModel PtSpec VisModel VisSpec TvModel.
Close Scope string_scope.
Open Scope N_scope.

Section Draw.
Variables (token_name : tkind -> list N) (production_name : nat -> list N).
Variables (e : lexeme_encoding) (inp : list N) (opts : options).

(** Names and lexemes, without colors.  Spaces in lexemes are visible. *)
Definition token_row (k : tkind) (b e' : nat) : list N :=
  token_name k ++
  match firstn (e' - b) (skipn b inp) with
  | [] => []
  | units => str ": " ++ displayed false (lexeme_output e units (set_flag opts visualize_space))
  end.
Definition dots : list N := if is_set opts visualize_use_unicode then str "…" else str "...".

(** A node below another one: a connector in front of its own row, and a line in front of the rows
    below it, which goes on to its next sibling if there is one. *)
Definition unicode : bool := is_set opts visualize_use_unicode.
Definition connector (last : bool) : list N := if unicode then if last then str "└──" else str "├──" else str "- ".
Definition trunk (last : bool) : list N := if unicode then if last then str "   " else str "│  " else str "  ".
Definition hung (last : bool) (rows : list (list N)) : list (list N) :=
  match rows with
  | [] => []
  | row :: rows' => (connector last ++ row) :: map (app (trunk last)) rows'
  end.

(** The rows of a tree, [n] levels below its root; there the children of a production are
    replaced by an ellipsis. *)
Fixpoint drawn (n : nat) (t : ptree) {struct t} : list (list N) :=
  match t with
  | TTok k b e' => [token_row k b e']
  | TProd id _ kids =>
    match n with
    | O => [production_name id ++ str ": " ++ dots]
    | S n' =>
      (production_name id ++ str ":") ::
      (fix below l :=
         match l with
         | [] => []
         | k :: l' => hung (match l' with [] => true | _ => false end) (drawn n' k) ++ below l'
         end) kids
    end
  end.
End Draw.

(** The text, written with an appending iterator. *)
Definition tree_output (f : forall W I, (W -> I -> N -> W * I) -> W * I -> option (W * I)) : option (list N) :=
  option_map fst (f (list N) unit append_put ([], tt)).

(** What is drawn of a tree: the row of each node, without the lines in front of it. *)
Inductive outline := Node (row : list N) (kids : list outline).
Section Outline.
Variables (token_name : tkind -> list N) (production_name : nat -> list N).
Variables (e : lexeme_encoding) (inp : list N) (opts : options).
Fixpoint outlined (n : nat) (t : ptree) {struct t} : outline :=
  match t with
  | TTok k b e' => Node (token_row token_name e inp opts k b e') []
  | TProd id _ kids =>
    match n with
    | O => Node (production_name id ++ str ": " ++ dots opts) []
    | S n' => Node (production_name id ++ str ":") (map (outlined n') kids)
    end
  end.
End Outline.
(** How many nodes are at most [n] levels below the root. *)
Fixpoint shallow (n : nat) (t : ptree) {struct t} : nat :=
  match t with
  | TTok _ _ _ => 1
  | TProd _ _ kids => match n with O => 1 | S n' => S (list_sum (map (shallow n') kids)) end
  end.
(** The text written for a parse tree. *)
Definition tree_text_output tn pn e inp opts fuel t : option (list N) :=
  tree_output (fun W I put out => visualize_tree put tn pn e inp opts fuel out t).
