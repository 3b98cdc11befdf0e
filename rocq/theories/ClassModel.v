(** Model of character classes and the operators that combine them.
    Source: include/lexy/dsl/char_class.hpp, dsl/code_point.hpp, dsl/ascii.hpp. *)
From Verif Require Import Prelude CodecModel SwarModel LitModel.
Open Scope N_scope.

(** char_class.hpp:14-71 [ascii_set]: the array [contains] as a predicate on
    0..127; [visit] enumerates the members in increasing order. *)
Definition ascii_set := N -> bool.
Definition ascii_codes : list N := map N.of_nat (seq 0 128).
(** char_class.hpp:21-26 [visit]. *)
Definition visit (s : ascii_set) : list N := filter s ascii_codes.
(** char_class.hpp:54-57 [insert(lower, upper)] into an empty set. *)
Definition set_range (lo hi : N) : ascii_set := fun c => in_range lo hi c.
(** char_class.hpp:62-65 [insert(other)], 66-69 [remove(other)]. *)
Definition set_insert (s o : ascii_set) : ascii_set := fun c => s c || o c.
Definition set_remove (s o : ascii_set) : ascii_set := fun c => s c && negb (o c).

(** char_class.hpp:28-48 [visit_range]: the loop over the members; the state is
    [range_begin] and [last_char] ([None] is -1), the result the calls of [fn]. *)
Fixpoint ranges_from (cs : list N) (cur : option (N * N)) : list (N * N) :=
  match cs with
  | [] => match cur with None => [] | Some r => [r] end
  | c :: cs' =>
    match cur with
    | None => ranges_from cs' (Some (c, c))
    | Some (lo, last) =>
      if last + 1 =? c then ranges_from cs' (Some (lo, c))
      else (lo, last) :: ranges_from cs' (Some (c, c))
    end
  end.
Definition visit_range (s : ascii_set) : list (N * N) := ranges_from (visit s) None.

(** char_class.hpp:73-131 [compress_ascii_set]: ranges and singles. *)
Record compressed := Compressed { c_ranges : list (N * N); c_singles : list N }.
Definition compress (s : ascii_set) : compressed :=
  Compressed (filter (fun r => negb (fst r =? snd r)) (visit_range s))
             (map fst (filter (fun r => fst r =? snd r) (visit_range s))).

(** char_class.hpp:141-161 [ascii_set_matcher::match]. *)
Definition matcher (k : compressed) (cur : N) : bool :=
  existsb (fun r => (fst r <=? cur) && (cur <=? snd r)) (c_ranges k)
  || existsb (fun s => cur =? s) (c_singles k).

(** The class types.  [KClass ascii cp] is a class with its own
    [char_class_ascii] and [char_class_match_cp]; [cp = None] is the default
    [std::false_type] (char_class.hpp:177-180). *)
Inductive cclass :=
| KClass (ascii : ascii_set) (cp : option (N -> bool))
| KCode (c : N)                        (* char_class.hpp:305-328 [_ccp<Cp>], 329-357 [_cb<Byte>] *)
| KAlt (l : list cclass)               (* 383-422 [_calt<Cs...>] *)
| KComp (c : cclass)                   (* 451-483 [_ccomp<C>] *)
| KMinus (s m : cclass)                (* 499-533 [_cminus<Set, Minus>] *)
| KAnd (l : list cclass).              (* 549-588 [_cand<Cs...>] *)

(** [char_class_ascii] of each class type. *)
Fixpoint class_ascii (k : cclass) : ascii_set :=
  match k with
  | KClass ascii _ => ascii
  | KCode c => fun x => (c <=? 0x7F) && (x =? c)                               (* l.313-319, 342-348 *)
  | KAlt l => fun x => existsb (fun c => class_ascii c x) l                    (* l.407-412 *)
  | KComp c => set_remove (set_range 0x00 0x7F) (class_ascii c)                (* l.464-470 *)
  | KMinus s m => set_remove (class_ascii s) (class_ascii m)                   (* l.512-517 *)
  | KAnd l => fun x => forallb (fun c => class_ascii c x) l                    (* l.565-572 *)
  end.

(** Whether [char_class_match_cp] returns [std::false_type]. *)
Fixpoint match_cp_false (k : cclass) : bool :=
  match k with
  | KClass _ None => true
  | KClass _ (Some _) => false
  | KCode c => c <=? 0x7F                                                      (* l.322-325 *)
  | KAlt l => forallb match_cp_false l                                         (* l.416-418 *)
  | KComp _ => false
  | KMinus s _ => match_cp_false s                                             (* l.521-522 *)
  | KAnd l => forallb match_cp_false l                                         (* l.576-578 *)
  end.

(** The value of [char_class_match_cp]. *)
Fixpoint match_cp (k : cclass) (cp : N) : bool :=
  match k with
  | KClass _ None => false
  | KClass _ (Some p) => p cp
  | KCode c => if c <=? 0x7F then false else cp =? c
  | KAlt l => if forallb match_cp_false l then false
              else existsb (fun c => match_cp c cp) l                          (* l.419-420 *)
  | KComp c => if cp <=? 0x7F then false                                       (* l.474-476 *)
               else if match_cp_false c then true else negb (match_cp c cp)    (* l.478-481 *)
  | KMinus s m =>
    if match_cp_false s then false
    else if match_cp_false m then (0x7F <? cp) && match_cp s cp                (* l.523-527 *)
    else (0x7F <? cp) && match_cp s cp && negb (match_cp m cp)                 (* l.528-530 *)
  | KAnd l => if forallb match_cp_false l then false
              else forallb (fun c => match_cp c cp) l                          (* l.579-580 *)
  end.

(** The unit a reader peeks at; [rest] are the remaining units. *)
Definition lpeek (E : lenc) (rest : list N) : N :=
  match rest with [] => leof E | c :: _ => c end.

(** char_class.hpp:204-268 [char_class_base::tp::try_parse]: the number of units of the
    match.  [Default] is a non-Unicode encoding (default_encoding,
    byte_encoding). *)
Definition class_try (E : lenc) (k : cclass) (rest : list N) : option nat :=
  if matcher (compress (class_ascii k)) (lpeek E rest) then Some 1%nat         (* l.215-221 *)
  else if match_cp_false k then None                                           (* l.223-227 *)
  else
    match E with
    | Enc e =>                                                                 (* l.228-244 *)
      let r := parse_code_point e rest in
      match cr_error r with
      | success => if match_cp k (cr_cp r) then Some (cr_end r) else None
      | _ => None
      end
    | Default =>                                                               (* l.245-261 *)
      if lpeek E rest =? leof E then None
      else if match_cp k (lpeek E rest) then Some 1%nat else None
    end.

(** ** The operators *)
(** char_class.hpp:424-446 [operator/]: unions are flattened. *)
Definition op_alt (a b : cclass) : cclass :=
  match a, b with
  | KAlt l, KAlt m => KAlt (l ++ m)
  | KAlt l, c => KAlt (l ++ [c])
  | c, KAlt m => KAlt (c :: m)
  | c, d => KAlt [c; d]
  end.
(** char_class.hpp:485-494 unary [operator-]: a double complement disappears. *)
Definition op_neg (a : cclass) : cclass :=
  match a with KComp c => c | c => KComp c end.
(** char_class.hpp:535-545 binary [operator-]: [(S - M) - O] becomes [S - (M / O)]. *)
Fixpoint op_minus (a b : cclass) : cclass :=
  match a with
  | KMinus s m => op_minus s (KAlt [m; b])
  | s => KMinus s b
  end.
(** char_class.hpp:590-612 [operator&]: intersections are flattened. *)
Definition op_and (a b : cclass) : cclass :=
  match a, b with
  | KAnd l, KAnd m => KAnd (l ++ m)
  | KAnd l, c => KAnd (l ++ [c])
  | c, KAnd m => KAnd (c :: m)
  | c, d => KAnd [c; d]
  end.

(** An expression as the user writes it, and the class type the operators build.
    [ECode] is a one-character literal, [dsl::lit_cp<C>] or [dsl::lit_b<C>]
    (char_class.hpp:359-379 [_make_char_class]). *)
Inductive cexpr :=
| EClass (ascii : ascii_set) (cp : option (N -> bool))
| ECode (c : N)
| EOr (a b : cexpr)
| ENot (a : cexpr)
| EMinus (a b : cexpr)
| EAnd (a b : cexpr).
Fixpoint build (e : cexpr) : cclass :=
  match e with
  | EClass ascii cp => KClass ascii cp
  | ECode c => KCode c
  | EOr a b => op_alt (build a) (build b)
  | ENot a => op_neg (build a)
  | EMinus a b => op_minus (build a) (build b)
  | EAnd a b => op_and (build a) (build b)
  end.

(** Named classes. *)
(** dsl/ascii.hpp, dsl/digit.hpp: ASCII classes have no code point part. *)
Definition named (k : ascii_class) : cexpr := EClass (class_table k) None.
(** dsl/code_point.hpp:11-47 [_cp<Predicate>], with [range] (57-74), [set] (76-93),
    [ascii] (95-110), [bmp] (111-126): the ASCII set is computed from the predicate. *)
Definition cp_if (p : N -> bool) : cexpr := EClass p (Some p).
Definition cp_any : cexpr := EClass (set_range 0x00 0x7F) (Some (fun _ => true)).
Definition cp_range (lo hi : N) : cexpr := cp_if (fun c => (lo <=? c) && (c <=? hi)).
Definition cp_set (l : list N) : cexpr := cp_if (fun c => existsb (fun x => c =? x) l).
(** dsl/ascii.hpp:476-492 [_alt<C...>], that is [ascii::one_of]. *)
Definition one_of (l : list N) : cexpr := EClass (fun c => existsb (fun x => c =? x) l) None.
