(** Theorems about parsing a parse tree: C74.

    [made cap tr t b e]: [tr] is a finished tree with the nodes [t], by a builder or a parse (PtMain.v).
    [la]: the handle of a node, [Sub lt s]: [s] is a node of [lt].  [F] bounds the steps of navigation. *)
From Verif Require Import Prelude RuleModel RuleSample PtModel PtSpec PtWalk PtActModel PtActSpec PtMain PtProps NdModel NdSpec NdProofs.
From Coq Require Import String List.
Close Scope string_scope.
Close Scope N_scope.

(** Any node [s] of a tree whose productions have children and whose tokens follow each other can be
    the input.  The parse never violates a precondition.  When it succeeds without an error the rule of the production matches the
    children of the node, whitespace nodes left out at every level, up to those that are left; every match is found.  A
    failure is reported.  The tokens that are produced cover the text from the beginning of the first child to where the parse
    stopped. *)
Theorem C74 : forall cap tr t b e p F prods ws lexrule, 4 <= cap -> made cap tr t b e ->
  full t = true -> in_a_row p (leaves t) b -> nodes t < F -> lex_ok lexrule ->
  let m := b_mem (p_buf tr) in
  exists lt, p_root tr = Some (la lt) /\ erase lt = t /\
  forall s, Sub lt s ->
    (forall fuel q, reparse m F prods ws lexrule fuel q (Some (la s)) <> UB) /\
    (forall fuel q x l, reparse m F prods ws lexrule fuel q (Some (la s)) = Ok x l ->
       exists pre post, kids_of s = pre ++ post /\ r_cur x = hda post /\
         (no_errors l -> takes prods lexrule (prods q) (children_of (strip ws (erase s))) (visible ws (map erase post)))) /\
    (forall fuel q x l, reparse m F prods ws lexrule fuel q (Some (la s)) = Fail x l -> ~ no_errors l) /\
    (forall q left, takes prods lexrule (prods q) (children_of (strip ws (erase s))) left ->
       exists n x l, (forall fuel, n <= fuel -> reparse m F prods ws lexrule fuel q (Some (la s)) = Ok x l) /\ no_errors l /\
         exists pre post, kids_of s = pre ++ post /\ r_cur x = hda post /\ visible ws (map erase post) = left) /\
    (forall fuel q x l, reparse m F prods ws lexrule fuel q (Some (la s)) = Ok x l \/
                        reparse m F prods ws lexrule fuel q (Some (la s)) = Fail x l ->
       exists x0 q0 q1, open_reader m (Some (la s)) = Some x0 /\ pos m F x0 = Some q0 /\ pos m F x = Some q1 /\
         in_a_row q0 (tokens_of l) q1).
Proof.
  intros cap tr t b e p F prods ws lexrule Hcap H Hfull Hrow HF Hlex m.
  destruct (made_whole _ _ _ _ _ Hcap H) as (lt & eof & H1 & H2 & HW & _).
  fold m in HW. exists lt. split; [exact H1|]. split; [exact H2|]. rewrite <- H2 in *. intros s Hs.
  pose proof (fun fuel q => reparse_sound m lt eof b e p F HW Hfull Hrow HF prods ws lexrule Hlex fuel q s Hs) as HR.
  split; [|split; [|split; [|split]]].
  - intros fuel q E. specialize (HR fuel q). now rewrite E in HR.
  - intros fuel q x l E. specialize (HR fuel q). rewrite E in HR. destruct HR as (pre & post & E1 & _ & E2 & _ & _ & T). eauto.
  - intros fuel q x l E. specialize (HR fuel q). rewrite E in HR. destruct HR as (q1 & _ & _ & T). exact T.
  - intros q left Ht. eapply reparse_complete; eauto.
  - intros fuel q x l E. destruct (open_ok m lt eof b e HW s Hs) as (x0 & E0 & A0). specialize (HR fuel q).
    exists x0. rewrite E0. exists (start_of s).
    destruct E as [E|E]; rewrite E in HR.
    + destruct HR as (pre & post & _ & _ & _ & E2 & R & _). eexists. split; [reflexivity|].
      split; [exact (At_pos m lt eof b e p F HW Hfull Hrow HF _ _ _ A0)|]. split; [exact E2|exact R].
    + destruct HR as (q1 & E2 & R & _). eexists. split; [reflexivity|].
      split; [exact (At_pos m lt eof b e p F HW Hfull Hrow HF _ _ _ A0)|]. split; [exact E2|exact R].
Qed.
Print Assumptions C74.

(** A sample: the tree of "a b" as a production 1 with two letters (kind 0) and spaces (kind 1) between them, and a semicolon. *)
Definition spaced_calls : list call :=
  [CStart (info1 1); CToken (KUser 0) 0 1; CToken (KUser 1) 1 2; CToken (KUser 0) 2 4; CFinish; CToken (KUser 1) 4 5; CToken (KUser 2) 5 6].
Definition spaced_tree : ptree :=
  TProd 0 false [TProd 1 false [TTok (KUser 0) 0 1; TTok (KUser 1) 1 2; TTok (KUser 0) 2 4]; TTok (KUser 1) 4 5; TTok (KUser 2) 5 6].
Lemma spaced_made : exists tr, build 511 new_buffer (info1 0) spaced_calls 6 6 = Some tr /\ made 511 tr spaced_tree 6 6.
Proof.
  eexists. split; [vm_compute; reflexivity|]. apply (made_builder _ new_buffer (info1 0) spaced_calls 6 6); vm_compute; auto; discriminate.
Qed.
(** The grammar: [pnode<1>(while_(tnode<0>)) + tnode<2> + eof]. *)
Definition letters (p : nat) : nrule :=
  RSeq (RProdIn 1 (RWhile (CNode (NTok (KUser 0))) RNothing)) (RSeq (RNode (NTok (KUser 2))) REof).
Definition no_lexemes (i b e : nat) : bool * nat * list nev := (true, e, [NToken KUnknown b e]).
Example C74_example : exists tr x,
  made 511 tr spaced_tree 6 6 /\ full spaced_tree = true /\ in_a_row 0 (leaves spaced_tree) 6 /\ lex_ok no_lexemes /\
  reparse (b_mem (p_buf tr)) 20 letters (Some (NTok (KUser 1))) no_lexemes 20 0 (p_root tr) =
    Ok x [NStart 0 0; NToken KWhitespace 0 0; NToken KWhitespace 0 0; NToken (KUser 0) 0 1; NToken KWhitespace 1 2;
          NToken (KUser 0) 2 4; NToken KWhitespace 4 4; NToken KWhitespace 4 5; NToken (KUser 2) 5 6; NToken KWhitespace 6 6;
          NToken KEof 6 6; NFinish 0 6] /\
  reparse (b_mem (p_buf tr)) 20 letters None no_lexemes 20 0 (p_root tr) =
    Fail (Rd (0, 0) (Some (0, 15)))
      [NStart 0 0; NToken (KUser 0) 0 1; NToken KError 1 4; NError TagProductionEnd 1 4;
       NToken KError 4 4; NError (TagClass (NTok (KUser 2))) 4 4; NCancel 0 4].
Proof.
  destruct spaced_made as (tr & E & H). exists tr. eexists. split; [exact H|]. split; [reflexivity|]. split; [repeat constructor; lia|].
  split; [intros i b e ok q d Hbe [= <- <- <-]; split; [repeat constructor; auto|split; [lia|discriminate]]|].
  revert E. vm_compute. intros [= <-]. split; reflexivity.
Qed.

(** The input of a tree whose root has no children, and of an empty tree or a default input. *)
Theorem C74_empty_production_refuted : exists prods vs tr r, 
  parse_as_tree 511 (str "x") prods opaque 100 0 none = Some (OTrue vs, tr) /\ p_root tr = Some r /\
  reparse (b_mem (p_buf tr)) 100 (fun _ => REof) None no_lexemes 100 0 (Some r) = UB.
Proof.
  exists (fun _ => plain (RuleModel.ROpt (lit "1"))). do 3 eexists. split; [vm_compute; reflexivity|].
  split; [vm_compute; reflexivity|]. vm_compute. reflexivity.
Qed.
Print Assumptions C74_empty_production_refuted.
Theorem C74_empty_input_refuted : forall m F ws lexrule fuel p, p_root none = None /\
  reparse m F (fun _ => REof) ws lexrule fuel p (p_root none) = UB.
Proof. intros. split; reflexivity. Qed.
Print Assumptions C74_empty_input_refuted.

(** "The rule then recovers by doing nothing": a child rule that fails makes the rule fail. *)
Theorem C74_recovery_refuted : exists tr x,
  made 511 tr spaced_tree 6 6 /\
  reparse (b_mem (p_buf tr)) 20 (fun _ => RProdIn 1 (RSeq (RNode (NTok (KUser 0))) (RNode (NTok (KUser 2))))) None no_lexemes 20 0 (p_root tr) =
    Fail x [NStart 0 0; NToken (KUser 0) 0 1; NToken KError 1 1; NError (TagClass (NTok (KUser 2))) 1 1; NToken KError 1 4; NCancel 0 4].
Proof.
  destruct spaced_made as (tr & E & H). exists tr. eexists. split; [exact H|]. revert E. vm_compute. intros [= <-]. reflexivity.
Qed.
Print Assumptions C74_recovery_refuted.
