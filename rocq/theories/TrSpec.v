(** What a trace consists of; of the model only events, options and encodings are used, and
    [trace_to] to say what text it writes. *)
From Coq Require Import String Ascii.
From Verif Require Import Prelude CodecModel CodecSpec LitModel ClassSpec LocSpec RuleModel VisModel VisSpec
  RepModel RepSpec TvSpec TrModel.
Close Scope string_scope.
Open Scope N_scope.

(** ** Events in order, as a forest *)
Inductive leaf :=
| LToken (k : tkind) (b e : nat) | LBack (b e : nat) | LError (p : nat) (k : error_kind)
| LOperation (name : list N) (p : nat) | LDebug (p : nat) (s : list N)
| LGStart (p : nat) | LGFinish (p : nat) | LGCancel (p : nat).
Inductive tnode :=
| TLeaf (l : leaf)
| TProduction (name : list N) (p : nat) (kids : list tnode) (cancelled : bool) (q : nat)
| TChain (p : nat) (kids : list tnode) (q : nat)
| TRecovery (p : nat) (kids : list tnode) (cancelled : bool) (q : nat).

Definition leaf_event (l : leaf) : tevent :=
  match l with
  | LToken k b e => Token k b e
  | LBack b e => Back b e
  | LError p k => Err p k
  | LOperation name p => OOp name p
  | LDebug p s => Dbg p s
  | LGStart p => GStart p
  | LGFinish p => GFinish p
  | LGCancel p => GCancel p
  end.
Fixpoint flattened (t : tnode) : list tevent :=
  match t with
  | TLeaf l => [leaf_event l]
  | TProduction name p kids c q => PStart name p :: flat_map flattened kids ++ [if c then PCancel q else PFinish q]
  | TChain p kids q => OStart p :: flat_map flattened kids ++ [OFinish q]
  | TRecovery p kids c q => RStart p :: flat_map flattened kids ++ [if c then RCancel q else RFinish q]
  end.

(** ** Lines and columns *)

(** Columns of text are code units; a position between CR and LF counts as the one of the CR. *)
Definition text_before (inp : list N) (p : nat) : list N :=
  match nth_error inp (pred p), nth_error inp p with
  | Some c, Some c' => if (0 <? p)%nat && (c =? CR) && (c' =? LF) then firstn (p - 1) inp else firstn p inp
  | _, _ => firstn p inp
  end.
Definition column_of (e : input_encoding) (inp : list N) (p : nat) : nat :=
  match e with InText _ => 1 + length (last_line (text_before inp p)) | InBytes => 1 + p mod 16 end.
(** Where the line of a position begins. *)
Definition line_start (e : input_encoding) (inp : list N) (p : nat) : nat :=
  match e with InText _ => p - length (last_line (firstn p inp)) | InBytes => p / 16 * 16 end.

(** A number in a field of a width. *)
Definition field (w : nat) (n : N) (s : list N) : Prop :=
  exists num, decimal n num /\ s = repeat SP (w - length num) ++ num.
Definition place_of (e : input_encoding) (inp : list N) (p : nat) (s : list N) : Prop :=
  exists l c, s = l ++ str ":" ++ c /\ field 2 (N.of_nat (line_of e inp p)) l /\ field 3 (N.of_nat (column_of e inp p)) c.

(** ** Rows *)
Section Rows.
Variables (token_name : tkind -> list N) (e : input_encoding) (inp : list N) (opts : options).
Variable place : nat -> list N.
Definition limit : nat := N.to_nat (vo_max_tree_depth opts).

(** The line in front of a row at depth [d], and how it continues. *)
Inductive joint := Branch | Cancel | Finish.
Definition joint_text (j : joint) : list N :=
  if unicode opts then match j with Branch => str "├──" | Cancel => str "└╳" | Finish => str "┴" end
  else match j with Branch => str "- " | Cancel => str "-x" | Finish => str "- finish" end.
Definition row (d p : nat) (j : joint) (text : list N) : list N :=
  place p ++ str ": " ++
  match d with
  | O => []
  | S d' => concat (repeat (trunk opts false) d') ++ joint_text j
  end ++ text.

(** Tokens without a kind, whitespace and skipped input are left out if empty. *)
Definition left_out (k : tkind) : bool := match k with KUnknown | KError | KWhitespace => true | _ => false end.
Definition lexeme_of (b e' : nat) : list N := firstn (e' - b) (skipn b inp).
Definition spaced (us : list N) : list N := displayed false (lexeme_output (lexemes_of e) us (set_flag opts visualize_space)).
Definition leaf_row (l : leaf) : option (nat * list N) :=
  match l with
  | LToken k b e' =>
    match lexeme_of b e' with
    | [] => if left_out k then None else Some (b, token_name k)
    | us => Some (b, token_name k ++ str ": " ++ spaced us)
    end
  | LBack b e' => match lexeme_of b e' with [] => None | us => Some (b, str "backtracked: " ++ spaced us) end
  | LError p k => Some (p, str "error: " ++ error_message e opts k)
  | LOperation name p => Some (p, str "operation: " ++ name)
  | LDebug p s => Some (p, str "debug: " ++ s)
  | LGStart _ | LGFinish _ | LGCancel _ => None
  end.
(** What begins at the maximal depth is not shown in detail. *)
Definition heading (d : nat) (name : list N) : list N := name ++ str ":" ++ (if (d =? limit)%nat then str " " ++ dots opts else []).
Definition group (d p q : nat) (name : list N) (inner : list (list N)) (j : joint) : list (list N) :=
  row d p Branch (heading d name) :: (if (d <? limit)%nat then inner ++ [row (S d) q j []] else []).
Fixpoint rows (d : nat) (t : tnode) {struct t} : list (list N) :=
  if (d <=? limit)%nat then
    match t with
    | TLeaf l => match leaf_row l with Some (p, text) => [row d p Branch text] | None => [] end
    | TProduction name p kids c q => group d p q name (flat_map (rows (S d)) kids) (if c then Cancel else Finish)
    | TChain p kids q => group d p q (str "operation chain") (flat_map (rows (S d)) kids) Finish
    | TRecovery p kids c q => group d p q (str "error recovery") (flat_map (rows (S d)) kids) (if c then Cancel else Finish)
    end
  else [].
End Rows.

(** ** When a trace can be written *)

(** The productions that were started and not cancelled, neither they nor one around them. *)
Fixpoint live (t : tnode) : list nat :=
  match t with
  | TLeaf _ => []
  | TProduction _ p kids c _ => if c then [] else p :: flat_map live kids
  | TChain _ kids _ | TRecovery _ kids _ _ => flat_map live kids
  end.
Section Time.
Variables (e : input_encoding) (inp : list N).
(** A position in the input, not before the lines on which the productions [L] begin. *)
Definition not_before (L : list nat) (q : nat) : Prop :=
  (q <= length inp)%nat /\ forall s, In s L -> (line_start e inp s <= q)%nat.
Definition leaf_on_time (L : list nat) (l : leaf) : Prop :=
  match l with
  | LToken _ b _ | LBack b _ => not_before L b
  | LError p _ | LOperation _ p | LDebug p _ => not_before L p
  | LGStart _ | LGFinish _ | LGCancel _ => True
  end.
(** Each position in turn, with the productions that are live at that time. *)
Fixpoint on_time (L : list nat) (t : tnode) {struct t} : Prop :=
  let fix all L l := match l with [] => True | x :: l' => on_time L x /\ all (live x ++ L) l' end in
  match t with
  | TLeaf l => leaf_on_time L l
  | TProduction _ p kids _ q => not_before L p /\ all (p :: L) kids /\ not_before (flat_map live kids ++ p :: L) q
  | TChain p kids q | TRecovery p kids _ q => not_before L p /\ all L kids /\ not_before (flat_map live kids ++ L) q
  end.
End Time.

(** The positions of events, in order. *)
Definition event_position (ev : tevent) : list nat :=
  match ev with
  | GStart _ | GFinish _ | GCancel _ => []
  | PStart _ p | PFinish p | PCancel p | OStart p | OOp _ p | OFinish p | Token _ p _ | Back p _
  | Err p _ | RStart p | RFinish p | RCancel p | Dbg p _ => [p]
  end.
Definition positions (l : list tevent) : list nat := flat_map event_position l.
Inductive ascending : nat -> list nat -> Prop :=
| asc_nil p : ascending p []
| asc_cons p q l : (p <= q)%nat -> ascending q l -> ascending p (q :: l).

(** The events of a parse: a production, and the begin and the end of the grammar. *)
Inductive whole : list tevent -> tnode -> Prop :=
| whole_parse name p kids c q g g' :
    whole (GStart g :: flattened (TProduction name p kids c q) ++ [if c then GCancel g' else GFinish g'])
      (TProduction name p kids c q).

(** Where nothing fails and nothing is tried in vain. *)
Definition smooth (ev : event) : Prop :=
  match ev with EGStart _ | EGFinish _ | EPStart _ _ | EPFinish _ _ | EToken _ _ _ => True | _ => False end.

(** Texts without escape characters. *)
Definition clean_event (ev : tevent) : Prop :=
  match ev with
  | PStart name _ | OOp name _ => clean name
  | Err _ (ExpectedClass name) => clean name
  | Err _ (Generic m _) => clean m
  | Dbg _ s => clean s
  | _ => True
  end.

(** The text, written with an appending iterator. *)
Definition trace_output tn e inp opts (l : list tevent) : outcome (list N) :=
  appended_outcome (fun W I put out => trace_to put tn e inp opts out l).
