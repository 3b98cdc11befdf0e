(** Model of expression productions (Pratt parsing).
    Source: include/lexy/dsl/expression.hpp, dsl/operator.hpp. *)
From Verif Require Import Prelude.
Open Scope nat_scope.

(** The operation base classes (expression.hpp:37-50). *)
Inductive opkind := ILeft | IRight | IList | ISingle | KPost | KPre.

(** A literal of an operator: its text and, for keywords and [not_followed_by], whether
    the input behind it is acceptable. *)
Record literal := Literal { l_text : list N; l_ok : list N -> bool }.

(** An operation as the user declares it: [dsl::atom], [dsl::groups<...>], or a struct
    with a base class, the literals of its [op] (operator.hpp: [_op] has one,
    [_opc] several) and its [operand].  [id] stands for the type: the code
    compares operations with [std::is_same]. *)
Inductive operation :=
| OAtom
| OGroups (gs : list operation)
| OOp (id : nat) (k : opkind) (lits : list literal) (operand : operation).

(** ** Binding powers *)
Record bpow := BP { bg : nat; bl : nat; br : nat }.
(** expression.hpp:61-78, 98-115 [get_binding_power]. *)
Definition get_bp (k : opkind) (g l : nat) : bpow :=
  match k with
  | ILeft | IList | ISingle => BP g (2 * l) (2 * l + 1)
  | IRight => BP g (2 * l + 1) (2 * l)
  | KPre => BP g 0 (2 * l + 1)
  | KPost => BP g (2 * l + 1) 0
  end.
(** expression.hpp:80-95. *)
Definition bp_valid (p : bpow) : bool := (0 <? bl p) || (0 <? br p).
Definition bp_is_prefix (p : bpow) : bool := (bl p =? 0) && (0 <? br p).

(** expression.hpp:117-163 [_binding_power_of::transition], [get]. *)
Fixpoint bp_of (dest : nat) (o : operation) (g l : nat) : bpow :=
  match o with
  | OAtom => BP g 0 0                                                          (* l.120-125 *)
  | OOp id k _ operand =>                                                      (* l.126-131, 148-155 *)
    if id =? dest then get_bp k g (S l) else bp_of dest operand g (S l)
  | OGroups gs =>                                                              (* l.132-146 *)
    (fix go (gs : list operation) (g : nat) (result : bpow) : bpow :=
       match gs with
       | [] => result
       | o :: gs' =>
         let result := bp_of dest o (S g) l in
         if bp_valid result then result else go gs' (bg result) result
       end) gs g (BP g 0 0)
  end.

(** An operation in an operation list. *)
Record entry := Entry { e_id : nat; e_kind : opkind; e_lits : list literal }.
Definition is_pre (k : opkind) : bool := match k with KPre => true | _ => false end.

(** expression.hpp:211-238 [_operation_list_of<Pre, MinBindingPower>::get<CurLevel>]. *)
Fixpoint op_list (pre : bool) (min : nat) (o : operation) (level : nat) : list entry :=
  match o with
  | OAtom => []
  | OGroups gs => flat_map (fun o => op_list pre min o level) gs
  | OOp id k lits operand =>
    let bp := get_bp k 0 level in
    let tail := op_list pre min operand (S level) in
    if Bool.eqb (is_pre k) pre && ((is_pre k && (min <=? br bp)) || (negb (is_pre k) && (min <=? bl bp)))
    then tail ++ [Entry id k lits]
    else tail
  end.

(** ** Operators in the input *)
Fixpoint starts_with (s inp : list N) : bool :=
  match s, inp with
  | [], _ => true
  | c :: s', d :: inp' => N.eqb c d && starts_with s' inp'
  | _ :: _, [] => false
  end.
Definition matches (x : literal) (inp : list N) : bool :=
  starts_with (l_text x) inp && l_ok x (skipn (length (l_text x)) inp).

(** operator.hpp:82-91 [parse_operator]: the trie of the literals in order gives the
    longest match; of equal literals the last one wins, because
    [_build_trie] (operator.hpp:53-63) overwrites the node's value.  That the trie
    matcher computes this is C24.  The result is the index and the length. *)
Fixpoint best (lits : list literal) (i : nat) (inp : list N) (cur : option (nat * nat))
  : option (nat * nat) :=
  match lits with
  | [] => cur
  | x :: r =>
    let better := match cur with None => true | Some (_, n) => n <=? length (l_text x) end in
    best r (S i) inp (if matches x inp && better then Some (i, length (l_text x)) else cur)
  end.

(** expression.hpp:189-208 [operation_list::apply]: the operation an index belongs to
    and the index within its literals. *)
Fixpoint select (ops : list entry) (idx : nat) : option (entry * nat) :=
  match ops with
  | [] => None
  | o :: r => if idx <? length (e_lits o) then Some (o, idx) else select r (idx - length (e_lits o))
  end.
Definition parse_operator (ops : list entry) (inp : list N) : option (entry * nat * nat) :=
  match best (flat_map e_lits ops) 0 inp None with
  | None => None
  | Some (i, n) => match select ops i with Some (o, j) => Some (o, j, n) | None => None end
  end.

(** ** Values, events, state *)
(** An operator that was parsed: operation, literal, and the positions of the literal
    and of what belongs to the operator behind it (whitespace and the rules [R...] of a
    branch operator). *)
Record opn := OpN { o_id : nat; o_idx : nat; o_b : nat; o_m : nat; o_e : nat }.

(** The value: the callback is kept symbolic.  [Lst] is the finished sink of a list
    operation: the operands and operators added to it, and the operator
    added last if its operand could not be parsed. *)
Inductive tree :=
| Leaf (b e : nat)
| Pre (o : opn) (t : tree)
| Post (t : tree) (o : opn)
| Inf (l : tree) (o : opn) (r : tree)
| Lst (sp : spine) (dangling : option opn)
with spine := SOne (t : tree) | SMore (sp : spine) (o : opn) (t : tree).

Inductive ev :=
| EStart (pos : nat) | EFinish (pos : nat) | EOp (id pos : nat)  (* operation_chain_* *)
| EToken (id idx b e : nat)       (* token event of an operator literal *)
| ERest (b e : nat)               (* what else belongs to an operator *)
| EAtom (b e : nat)               (* whatever the atom rule raises when it succeeds *)
| EAtomError (b e : nat) | ERestError (b e : nat) (* ... when it fails *)
| ENesting (b e : nat) | EChain (b e : nat) | EGroup (b e : nat).

(** The reader position, expression.hpp:257-261 [_state], [context.value] and the
    events so far. *)
Record st := St { pos : nat; grp : nat; nest : nat; val : option tree; evs : list ev }.
Definition emit (e : ev) (s : st) : st := St (pos s) (grp s) (nest s) (val s) (evs s ++ [e]).
Definition set_pos (p : nat) (s : st) : st := St p (grp s) (nest s) (val s) (evs s).
Definition set_val (v : option tree) (s : st) : st := St (pos s) (grp s) (nest s) v (evs s).
Definition set_grp (g : nat) (s : st) : st := St (pos s) g (nest s) (val s) (evs s).
Definition inc_nest (s : st) : st := St (pos s) (grp s) (S (nest s)) (val s) (evs s).

(** [UB]: dereference of an empty value. *)
Inductive res := Done (ok : bool) (s : st) | UB | NoFuel.

Section Expr.
(** The production: its operation, max_operator_nesting, the input, the [atom] rule and
    what belongs to operator [id], [idx] behind its literal.  Both rules are
    arbitrary; from a position they give success and the units consumed. *)
Variable tbl : operation.
Variable max_nesting : nat.
Variable input : list N.
Variable atom : nat -> bool * nat.
Variable op_rest : nat -> nat -> nat -> bool * nat.

Definition at_ (p : nat) : list N := skipn p input.
Definition bp (id : nat) : bpow := bp_of id tbl 0 0.

(** expression.hpp:416-446: nesting limit and groups; [None]: the limit is
    exceeded. *)
Definition enter_op (e : entry) (b m : nat) (s : st) : bool * st :=
  if max_nesting <=? nest s
  then (false, set_pos b (emit (ENesting b m) (inc_nest s)))
  else
    let s := inc_nest s in
    let g := bg (bp (e_id e)) in
    (true,
     if g =? 0 then s
     else if grp s =? 0 then set_grp g s
     else if negb (grp s =? g) then emit (EGroup b m) s
     else s).

(** operator.hpp:110-131, 247-263 [op_finish] up to the continuation. *)
Definition op_finish (e : entry) (idx b m : nat) (s : st) : bool * opn * st :=
  let s := emit (EToken (e_id e) idx b m) s in
  let (ok, n) := op_rest (e_id e) idx m in
  (ok, OpN (e_id e) idx b m (m + n),
   set_pos (m + n) (emit (if ok then ERest m (m + n) else ERestError m (m + n)) s)).

(** [final_parser] behind the atom rule: the callback gives the value
    (action/base.hpp). *)
Definition parse_atom (s : st) : res :=
  let b := pos s in
  let (ok, n) := atom b in
  if ok then Done true (set_val (Some (Leaf b (b + n))) (set_pos (b + n) (emit (EAtom b (b + n)) s)))
  else Done false (set_pos (b + n) (emit (EAtomError b (b + n)) s)).

(** expression.hpp:485-525 [_parse], 454-483 [_parse_lhs], the loop 506-518, 266-407
    [_op_cont] with 409-450 [_continuation::parse], and the list loop 294-323. *)
Fixpoint parse (fuel min : nat) (s : st) : res :=
  match fuel with
  | O => NoFuel
  | S f =>
    match op_list false min tbl 1 with
    | [] => parse_lhs f min s                                                  (* l.491-495 *)
    | _ =>
      match parse_lhs f min (emit (EStart (pos s)) s) with
      | Done false s1 => Done false (emit (EFinish (pos s1)) s1)               (* l.499-503 *)
      | Done true s1 =>
        match post_loop f min s1 with
        | Done r s2 => Done r (emit (EFinish (pos s2)) s2)                     (* l.520-521 *)
        | r => r
        end
      | r => r
      end
    end
  end
with parse_lhs (fuel min : nat) (s : st) : res :=
  match fuel with
  | O => NoFuel
  | S f =>
    match parse_operator (op_list true min tbl 1) (at_ (pos s)) with
    | None => parse_atom s                                                     (* l.462-476 *)
    | Some (e, idx, n) =>
      match do_op f e idx (pos s) (set_pos (pos s + n) (emit (EStart (pos s)) s)) with
      | Done r s1 => Done r (emit (EFinish (pos s1)) s1)                       (* l.478-481 *)
      | r => r
      end
    end
  end
with post_loop (fuel min : nat) (s : st) : res :=
  match fuel with
  | O => NoFuel
  | S f =>
    match parse_operator (op_list false min tbl 1) (at_ (pos s)) with
    | None => Done true s                                                      (* l.508-513 *)
    | Some (e, idx, n) =>
      match do_op f e idx (pos s) (set_pos (pos s + n) s) with
      | Done true s1 => post_loop f min s1
      | r => r                                                                 (* l.515-517 *)
      end
    end
  end
with do_op (fuel : nat) (e : entry) (idx b : nat) (s : st) : res :=
  match fuel with
  | O => NoFuel
  | S f =>
    match enter_op e b (pos s) s with
    | (false, s) => Done false s
    | (true, s) =>
      match op_finish e idx b (pos s) s with
      | (false, _, s) => Done false s
      | (true, o, s) =>
        let finish r :=
          match r with
          | Done true s => Done true (emit (EOp (e_id e) (pos s)) s)           (* l.404-405 *)
          | r => r
          end in
        match e_kind e with
        | IList =>                                                             (* l.278-339 *)
          match val s with
          | None => UB
          | Some lhs => finish (list_loop f e (SOne lhs) o (set_val None s))
          end
        | KPre =>                                                              (* l.340-354 *)
          match parse f (br (bp (e_id e))) s with
          | Done true s1 =>
            match val s1 with
            | None => UB
            | Some v => finish (Done true (set_val (Some (Pre o v)) s1))
            end
          | r => r
          end
        | KPost =>                                                             (* l.391-402 *)
          match val s with
          | None => UB
          | Some v => finish (Done true (set_val (Some (Post v o)) s))
          end
        | ILeft | IRight | ISingle =>                                          (* l.355-390 *)
          let lhs := val s in
          match parse f (br (bp (e_id e))) (set_val None s) with
          | Done false s1 => Done false (set_val lhs s1)                       (* l.360-365 *)
          | Done true s1 =>
            match lhs, val s1 with
            | Some l, Some r =>
              let s2 := set_val (Some (Inf l o r)) s1 in
              finish (Done true
                (match e_kind e with
                 | ISingle =>                                                  (* l.377-389 *)
                   match parse_operator [e] (at_ (pos s2)) with
                   | Some (_, _, n) => emit (EChain (pos s2) (pos s2 + n)) s2
                   | None => s2
                   end
                 | _ => s2
                 end))
            | _, _ => UB
            end
          | r => r
          end
        end
      end
    end
  end
with list_loop (fuel : nat) (e : entry) (sp : spine) (o : opn) (s : st) : res :=
  match fuel with
  | O => NoFuel
  | S f =>
    match parse f (br (bp (e_id e))) s with
    | Done false s1 => Done false (set_val (Some (Lst sp (Some o))) s1)        (* l.297-301, 326-338 *)
    | Done true s1 =>
      match val s1 with
      | None => UB
      | Some v =>
        let sp := SMore sp o v in
        let s1 := set_val None s1 in
        match parse_operator [e] (at_ (pos s1)) with
        | None => Done true (set_val (Some (Lst sp None)) s1)                  (* l.309-314 *)
        | Some (_, idx, n) =>
          match op_finish e idx (pos s1) (pos s1 + n) s1 with
          | (false, _, s2) => Done false (set_val (Some (Lst sp None)) s2)     (* l.317-322 *)
          | (true, o, s2) => list_loop f e sp o s2
          end
        end
      end
    | r => r
    end
  end.

(** expression.hpp:535-543: the minimum binding power of the root operation. *)
Definition min_bp (root : operation) : nat :=
  match root with
  | OOp id _ _ _ => if bp_is_prefix (bp id) then br (bp id) else bl (bp id)
  | _ => 0
  end.

(** expression.hpp:530-550 [_expr::p::parse]: whether the rule succeeds, and the
    final state. *)
Definition expr (fuel : nat) (root : operation) (start : nat) : option (bool * st) :=
  match parse fuel (min_bp root) (St start 0 0 None []) with
  | Done _ s => Some (match val s with Some _ => true | None => false end, s)
  | _ => None
  end.
End Expr.
