(** Theorems about parse trees: C48 - C54 and C67.

    [cap] is the number of words of a block (511 in the library), at least four.
    Navigation that follows pointers gets a number of steps; twice the number of nodes suffices. *)
From Verif Require Import Prelude RuleModel RuleSpec RuleMain RuleSample PtModel PtSpec PtMem PtProofs PtNav PtWalk PtExtModel PtActModel PtActSpec PtAct PtMain.
From Coq Require Import String List.
Close Scope string_scope.
Close Scope N_scope.

(** ** Samples *)
(** Production 1 is a production 2 (a digit) and an exclamation mark; when it fails everything up
    to the semicolon is skipped. *)
Definition exclaim (p : nat) : production :=
  match p with
  | 0 => plain (RSeq [RTryT None (RProd 1) (Some (RFind (lit_finder (str ";") []))); lit ";"])
  | 1 => plain (RSeq [RProd 2; lit "!"])
  | _ => plain digit
  end.
Definition opaque (q : nat) : bool := false.
Definition pass_through (q : nat) : bool := q =? 1.
Definition none : tree := Tree new_buffer None 0 0.

(** Calls on a builder: a production with a production and a token. *)
Definition info1 (n : nat) : info := Info n false false.
Definition some_calls : list call :=
  [CStart (info1 1); CToken (KUser 0) 0 1; CStart (info1 2); CToken (KUser 1) 1 3; CFinish; CFinish; CToken KError 3 4; CToken KError 4 6].
Definition some_tree : ptree :=
  TProd 0 false [TProd 1 false [TTok (KUser 0) 0 1; TProd 2 false [TTok (KUser 1) 1 3]]; TTok KError 3 6].
Lemma some_made : exists tr, build 511 new_buffer (info1 0) some_calls 6 8 = Some tr /\ made 511 tr some_tree 6 8.
Proof.
  eexists. split; [vm_compute; reflexivity|]. apply (made_builder _ new_buffer (info1 0) some_calls 6 8).
  - discriminate.
  - lia.
  - reflexivity.
  - reflexivity.
  - vm_compute. reflexivity.
Qed.

(** ** C48: a tree stores what it was built from *)
(** Calls on a builder: traversing the tree shows the tree that the calls mean, for trees of any
    size and in the memory of any old tree. *)
Theorem C48_builder : forall cap old root cs b e t, 4 <= cap -> wf_old old -> b <= e ->
  spec_tree root cs = Some t ->
  careful_calls cs (Frame (Some (i_id root, i_token root)) [], []) = true ->
  exists tr r l, build cap old root cs b e = Some tr /\ made cap tr t b e /\
    p_root tr = Some r /\ traverse (2 * nodes t) (b_mem (p_buf tr)) r = Some l /\
    map (show (b_mem (p_buf tr))) l = map Some (preorder t) /\
    remaining_input tr = Some (b, e) /\ wf_old (p_buf tr).
Proof.
  intros cap old root cs b e t Hcap Hw Hbe Hs Hc.
  destruct (build_ok cap old root cs b e t Hcap Hw Hbe Hs Hc) as (tr & lt & eof & E & H1 & <- & H3 & _).
  exists tr, (la lt), (tevents lt). split; [exact E|]. split; [econstructor; eauto|]. split; [exact H1|].
  split; [eapply traverse_ok; eauto; [constructor|apply tevents_nodes]|]. split; [eapply show_ok; eauto; constructor|].
  split; [eapply whole_remaining; eauto|]. eapply build_wf; eauto.
Qed.
Print Assumptions C48_builder.

(** parse_as_tree: after a successful parse (with or without recovered errors) traversing the tree
    shows the productions and tokens of the parse events, nested and ordered as they were
    delivered.  [es]: the events of the parse. *)
Theorem C48_parse : forall cap inp prods transparent n p vs s k old, 4 <= cap -> wf_old (p_buf old) ->
  action inp prods n p = Res (OTrue vs) s k ->
  exists es, rev (trace s) = [EGStart 0; EPStart p 0] ++ es ++ [EPFinish p (pos s); EGFinish (pos s)] /\
  (one_grammar es = true ->
   exists tr kids lo r l, parse_as_tree cap inp prods transparent n p old = Some (OTrue vs, tr) /\
     grows (info_of prods transparent) [] es kids lo /\
     let t := TProd p (p_token (prods p)) kids in
     made cap tr t (pos s) (length inp) /\
     p_root tr = Some r /\ traverse (2 * nodes t) (b_mem (p_buf tr)) r = Some l /\
     map (show (b_mem (p_buf tr))) l = map Some (preorder t) /\
     remaining_input tr = Some (pos s, length inp) /\ wf_old (p_buf tr)).
Proof.
  intros cap inp prods transparent n p vs s k old Hcap Hw Ha.
  destruct (parse_as_tree_ok inp prods transparent cap Hcap n p vs s k old Hw Ha) as (es & He & H).
  exists es. split; [exact He|]. intros Hone. destruct (H Hone) as (tr & lt & eof & kids & lo & E & H1 & H2 & H3 & H4 & _).
  exists tr, kids, lo, (la lt), (tevents lt). split; [exact E|]. split; [exact H3|]. cbn zeta. rewrite <- H2.
  split; [rewrite H2; eapply made_parse; eauto|]. split; [exact H1|].
  split; [eapply traverse_ok; eauto; [constructor|apply tevents_nodes]|]. split; [eapply show_ok; eauto; constructor|].
  split; [eapply whole_remaining; eauto|]. eapply parse_wf; eauto.
Qed.
Print Assumptions C48_parse.

(** The events determine the tree: the relation is a function. *)
Theorem C48_deterministic : forall infos ts es ts1 n1 ts2 n2,
  grows infos ts es ts1 n1 -> grows infos ts es ts2 n2 -> ts1 = ts2 /\ n1 = n2.
Proof. exact grows_unique. Qed.
Print Assumptions C48_deterministic.

(** After a failed parse the tree is empty. *)
Theorem C48_failure : forall cap inp prods transparent n p s k old, 4 <= cap -> wf_old (p_buf old) ->
  action inp prods n p = Res OFalse s k ->
  exists es, rev (trace s) = [EGStart 0; EPStart p 0] ++ es ++ [EPCancel p (pos s); EGCancel (pos s)] /\
  (one_grammar es = true ->
   exists tr, parse_as_tree cap inp prods transparent n p old = Some (OFalse, tr) /\ tree_empty tr = true /\ wf_old (p_buf tr)).
Proof.
  intros cap inp prods transparent n p s k old Hcap Hw Ha.
  destruct (parse_as_tree_fails inp prods transparent cap Hcap n p s k old Hw Ha) as (es & He & H).
  exists es. split; [exact He|]. intros Hone. destruct (H Hone) as (tr & E & H1). exists tr. split; [exact E|].
  split; [exact H1|]. eapply parse_wf; eauto.
Qed.
Print Assumptions C48_failure.

(** A subgrammar inside the tree violates the handler's precondition (see also C34). *)
Theorem C48_subgrammar_refuted : exists inp prods vs s,
  action inp prods 100 0 = Res (OTrue vs) s 0 /\ parse_as_tree 511 inp prods opaque 100 0 none = None.
Proof. exists (str "[1]"), outer. do 2 eexists. split; vm_compute; reflexivity. Qed.
Print Assumptions C48_subgrammar_refuted.

Example C48_example : exists tr r l,
  parse_as_tree 511 (str "1?;2") exclaim opaque 100 0 none = Some (OTrue [], tr) /\
  p_root tr = Some r /\ traverse 20 (b_mem (p_buf tr)) r = Some l /\
  map (show (b_mem (p_buf tr))) l =
    map Some [SEnter 0 false; SLeaf KError 0 2; SLeaf (KUser 0) 2 3; SExit 0 false] /\
  remaining_input tr = Some (3, 4).
Proof. do 3 eexists. split; [vm_compute; reflexivity|]. split; [vm_compute; reflexivity|]. split; [vm_compute; reflexivity|]. split; vm_compute; reflexivity. Qed.

(** ** C49: nothing is lost *)
(** A transparent production that is cancelled after it consumed something: its nodes stay and an
    error token over the same range is added. *)
Theorem C49_refuted : exists inp prods transparent tr r l,
  parse_as_tree 511 inp prods transparent 100 0 none = Some (OTrue [], tr) /\
  p_root tr = Some r /\ PtExtModel.tokens 50 (b_mem (p_buf tr)) r = Some l /\
  flat_map (fun a => match lexeme (b_mem (p_buf tr)) a with Some (Some (b, e)) => slice inp b e | _ => [] end) l
    = str "11?;" /\ inp = str "1?;".
Proof.
  exists (str "1?;"), exclaim, pass_through. do 3 eexists. split; [vm_compute; reflexivity|]. split; [vm_compute; reflexivity|].
  split; vm_compute; auto.
Qed.
Print Assumptions C49_refuted.

(** Otherwise the lexemes of the tokens in order, followed by the remaining input, are the input.
    What is missing: transparent productions that are cancelled after they consumed input. *)
Theorem C49_partial : forall cap inp prods transparent n p vs s k old, 4 <= cap -> wf_old (p_buf old) ->
  action inp prods n p = Res (OTrue vs) s k ->
  exists es, rev (trace s) = [EGStart 0; EPStart p 0] ++ es ++ [EPFinish p (pos s); EGFinish (pos s)] /\
  (one_grammar es = true -> harmless (info_of prods transparent) es [] = true ->
   exists tr r l fuel b e, parse_as_tree cap inp prods transparent n p old = Some (OTrue vs, tr) /\
     p_root tr = Some r /\ PtExtModel.tokens fuel (b_mem (p_buf tr)) r = Some l /\
     remaining_input tr = Some (b, e) /\
     flat_map (fun a => match lexeme (b_mem (p_buf tr)) a with Some (Some (b, e)) => slice inp b e | _ => [] end) l
       ++ slice inp b e = inp).
Proof.
  intros cap inp prods transparent n p vs s k old Hcap Hw Ha.
  destruct (parse_as_tree_ok inp prods transparent cap Hcap n p vs s k old Hw Ha) as (es & He & H).
  exists es. split; [exact He|]. intros Hone Hh. destruct (H Hone) as (tr & lt & eof & kids & lo & E & H1 & H2 & H3 & H4 & _ & _ & _ & _ & Hrow).
  specialize (Hrow Hh). destruct (action_events _ _ _ _ _ _ _ Ha) as (_ & _ & _ & Hle).
  exists tr, (la lt), (map fst (toks lt)), (2 * nodes (erase lt)), (pos s), (length inp). split; [exact E|]. split; [exact H1|].
  split; [eapply tokens_ok; eauto; constructor|]. split; [eapply whole_remaining; eauto|].
  replace (flat_map _ _) with (flat_map (fun x => slice inp (snd (fst x)) (snd x)) (leaves (erase lt))).
  - unfold row in Hrow. rewrite H2. cbn [leaves]. rewrite (row_slices _ _ _ _ Hrow) by exact Hle. now apply slice_all.
  - rewrite <- toks_leaves. pose proof (toks_forall lt) as Hf. induction Hf as [|[a [[k0 b0] e0]] l Hx Hf IH]; [reflexivity|].
    cbn [map flat_map fst snd]. cbn [fst snd] in Hx. destruct (type_leaf _ _ _ _ _ H4 _ _ _ _ Hx) as (_ & _ & _ & ->). now rewrite IH.
Qed.
Print Assumptions C49_partial.

(** Without transparent productions the condition holds. *)
Theorem C49_opaque : forall prods transparent es stk, (forall q, transparent q = false) ->
  harmless (info_of prods transparent) es stk = true.
Proof.
  intros prods transparent es stk H. revert stk. induction es as [|e es IH]; intros stk; [reflexivity|].
  destruct e; cbn [harmless]; auto. unfold info_of. cbn [i_transparent]. rewrite H. cbn. apply IH.
Qed.
Print Assumptions C49_opaque.

Example C49_example : exists vs tr r l,
  parse_as_tree 511 (str "1, (?x),3") values opaque 200 0 none = Some (OTrue vs, tr) /\
  p_root tr = Some r /\ PtExtModel.tokens 100 (b_mem (p_buf tr)) r = Some l /\
  map (lexeme (b_mem (p_buf tr))) l =
    map (fun x => Some (Some x)) [(0, 1); (1, 2); (2, 3); (3, 4); (4, 6); (6, 7); (7, 8); (8, 9); (9, 9)].
Proof. do 4 eexists. split; [vm_compute; reflexivity|]. split; [vm_compute; reflexivity|]. split; vm_compute; reflexivity. Qed.

(** ** C50: size and depth *)
(** [depth] is the length of the longest path. *)
Theorem C50_depth : forall cap tr t b e, 4 <= cap -> made cap tr t b e -> tree_depth tr = Some (height t).
Proof.
  intros cap tr t b e Hcap H. destruct (made_whole _ _ _ _ _ Hcap H) as (lt & eof & H1 & H2 & _ & _ & H5 & _).
  unfold tree_depth, tree_empty. now rewrite H1, H5.
Qed.
Print Assumptions C50_depth.

(** [size] also counts nodes that no longer exist: those below the children of a cancelled
    production. *)
Theorem C50_size_refuted : exists inp prods tr r l,
  parse_as_tree 511 inp prods opaque 100 0 none = Some (OTrue [], tr) /\
  p_root tr = Some r /\ traverse 50 (b_mem (p_buf tr)) r = Some l /\
  map snd (filter (fun x => match fst x with Exit => false | _ => true end) l) = [(0, 0); (0, 3); (0, 6)] /\
  tree_size tr = 4.
Proof.
  exists (str "1?;"), exclaim. do 3 eexists. split; [vm_compute; reflexivity|]. split; [vm_compute; reflexivity|].
  split; [vm_compute; reflexivity|]. split; vm_compute; reflexivity.
Qed.
Print Assumptions C50_size_refuted.

(** Exactly those are counted in addition, for every sequence of calls. *)
Theorem C50_size_partial : forall cap old root cs b e t tr, 4 <= cap -> wf_old old -> b <= e ->
  spec_tree root cs = Some t ->
  careful_calls cs (Frame (Some (i_id root, i_token root)) [], []) = true ->
  build cap old root cs b e = Some tr ->
  tree_size tr = nodes t + lost_calls cs (Frame (Some (i_id root, i_token root)) [], []).
Proof.
  intros cap old root cs b e t tr Hcap Hw Hbe Hs Hc Hb.
  destruct (build_ok cap old root cs b e t Hcap Hw Hbe Hs Hc) as (tr' & lt & eof & E & _ & _ & _ & _ & H & _). rewrite Hb in E. injection E as <-. exact H.
Qed.
Print Assumptions C50_size_partial.

(** And for every parse; [lo]: the nodes below the children of cancelled productions. *)
Theorem C50_size_parse_partial : forall cap inp prods transparent n p vs s k old es kids lo tr, 4 <= cap -> wf_old (p_buf old) ->
  action inp prods n p = Res (OTrue vs) s k ->
  rev (trace s) = [EGStart 0; EPStart p 0] ++ es ++ [EPFinish p (pos s); EGFinish (pos s)] ->
  one_grammar es = true -> grows (info_of prods transparent) [] es kids lo ->
  parse_as_tree cap inp prods transparent n p old = Some (OTrue vs, tr) ->
  tree_size tr = nodes (TProd p (p_token (prods p)) kids) + lo.
Proof.
  intros cap inp prods transparent n p vs s k old es kids lo tr Hcap Hw Ha Hes Hone Hg Hp.
  destruct (parse_as_tree_ok inp prods transparent cap Hcap n p vs s k old Hw Ha) as (es' & He' & H).
  rewrite Hes in He'. apply app_inv_head in He'. apply app_tail_inv in He'; [|reflexivity]. destruct He' as [<- _].
  destruct (H Hone) as (tr' & lt & eof & kids' & lo' & E & H1 & H2 & H3 & H4 & H5 & H6 & H7 & _).
  destruct (grows_unique _ _ _ _ _ _ _ Hg H3) as [<- <-]. rewrite Hp in E. injection E as <-. rewrite <- H2. exact H7.
Qed.
Print Assumptions C50_size_parse_partial.

(** [size] of an empty tree, after clear or after a failed parse, is still that of the old tree. *)
Theorem C50_cleared_refuted :
  match parse_as_tree 511 (str "1!;") exclaim opaque 100 0 none with
  | Some (OTrue _, old) =>
      match parse_as_tree 511 (str "1?") exclaim opaque 100 0 old with
      | Some (OFalse, tr) => tree_empty tr = true /\ tree_size tr = 6
      | _ => False
      end /\
      tree_empty (clear old) = true /\ tree_size (clear old) = 6
  | _ => False
  end.
Proof. vm_compute. repeat split; reflexivity. Qed.
Print Assumptions C50_cleared_refuted.

Example C50_example : exists tr, made 511 tr some_tree 6 8 /\ tree_size tr = 6 /\ tree_depth tr = Some 3.
Proof. destruct some_made as (tr & E & H). exists tr. split; [exact H|]. revert E. vm_compute. intros [= <-]. auto. Qed.

(** ** C51: moving around *)
(** Every node of the tree has a handle of its own; [la]: the handle of a node, [Sub lt s]: [s] is
    a node of [lt]. *)
Theorem C51_navigation : forall cap tr t b e fuel, 4 <= cap -> made cap tr t b e -> 2 * nodes t <= fuel ->
  let m := b_mem (p_buf tr) in
  exists lt, p_root tr = Some (la lt) /\ erase lt = t /\ NoDup (handles lt) /\
    parent fuel m (la lt) = Some (la lt) /\
    (forall s, Sub lt s -> is_root m (la s) = Some (if addr_dec (la s) (la lt) then true else false)) /\
    (forall a k b e, Sub lt (LT a k b e) -> children fuel m a = Some [] /\ children_size m a = Some 0) /\
    (forall a id tok kids, Sub lt (LP a id tok kids) ->
       children fuel m a = Some (map la kids) /\ children_size m a = Some (length kids)) /\
    (forall a id tok pre s post, Sub lt (LP a id tok (pre ++ s :: post)) ->
       parent fuel m (la s) = Some a /\
       siblings fuel m (la s) = Some (map la (post ++ pre)) /\
       is_last_child m (la s) = Some (match post with [] => true | _ => false end)).
Proof.
  intros cap tr t b e fuel Hcap H Hf m. destruct (made_whole _ _ _ _ _ Hcap H) as (lt & eof & H1 & H2 & HW & _).
  fold m in HW. exists lt. split; [exact H1|]. split; [exact H2|]. rewrite <- H2 in Hf.
  split; [rewrite <- entered_handles; apply entered_nodup, (W_nodup _ _ _ _ _ HW)|].
  split; [eapply parent_root; eauto|]. split; [intros; eapply root_iff; eauto|]. split; [intros; eapply children_token; eauto|]. split.
  - intros a id tok kids Hs. eapply children_ok; eauto. pose proof (kids_nodes a id tok kids). pose proof (sub_nodes _ _ Hs). lia.
  - intros a id tok pre s post Hs. pose proof (kids_nodes a id tok (pre ++ s :: post)) as Hk. pose proof (sub_nodes _ _ Hs).
    rewrite app_length in Hk. cbn [length] in Hk. split; [eapply parent_ok; eauto; lia|]. split; [eapply siblings_ok; eauto; lia|].
    eapply is_last_ok; eauto.
Qed.
Print Assumptions C51_navigation.

(** The root has no siblings, but asking for them reads through a null pointer. *)
Theorem C51_root_siblings_refuted : exists tr r,
  made 511 tr some_tree 6 8 /\ p_root tr = Some r /\ siblings 100 (b_mem (p_buf tr)) r = None.
Proof. destruct some_made as (tr & E & H). exists tr. eexists. split; [exact H|]. revert E. vm_compute. intros [= <-]. split; reflexivity. Qed.
Print Assumptions C51_root_siblings_refuted.

Example C51_example : exists tr, made 511 tr some_tree 6 8 /\
  children 10 (b_mem (p_buf tr)) (0, 0) = Some [(0, 3); (0, 15)] /\
  siblings 10 (b_mem (p_buf tr)) (0, 9) = Some [(0, 6)] /\ parent 10 (b_mem (p_buf tr)) (0, 6) = Some (0, 3).
Proof. destruct some_made as (tr & E & H). exists tr. split; [exact H|]. revert E. vm_compute. intros [= <-]. repeat split; reflexivity. Qed.

(** ** C52: positions *)
(** As documented, every production needs a child and the tokens must follow each other. *)
Theorem C52_position : forall cap tr t b e fuel p, 4 <= cap -> made cap tr t b e ->
  full t = true -> in_a_row p (leaves t) b -> 2 * nodes t <= fuel ->
  let m := b_mem (p_buf tr) in
  exists lt, p_root tr = Some (la lt) /\ erase lt = t /\
  forall s, Sub lt s -> exists x y, first_begin (leaves (erase s)) = Some x /\ last_end (leaves (erase s)) = Some y /\
    position fuel m (la s) = Some x /\ covering_lexeme fuel m (la s) = Some (x, y).
Proof.
  intros cap tr t b e fuel p Hcap H Hfull Hrow Hf m. destruct (made_whole _ _ _ _ _ Hcap H) as (lt & eof & H1 & H2 & HW & _).
  fold m in HW. exists lt. split; [exact H1|]. split; [exact H2|]. rewrite <- H2 in *. intros s Hs.
  eapply covering_ok; eauto. pose proof (height_nodes (erase lt)). pose proof (nodes_pos (erase lt)). lia.
Qed.
Print Assumptions C52_position.

(** A parse gives such a tree if its root has a child and no transparent production is cancelled
    after it consumed input; the documentation promises it for every parse. *)
Theorem C52_parse_partial : forall cap inp prods transparent n p vs s k old, 4 <= cap -> wf_old (p_buf old) ->
  action inp prods n p = Res (OTrue vs) s k ->
  exists es, rev (trace s) = [EGStart 0; EPStart p 0] ++ es ++ [EPFinish p (pos s); EGFinish (pos s)] /\
  (one_grammar es = true -> harmless (info_of prods transparent) es [] = true ->
   exists tr kids, parse_as_tree cap inp prods transparent n p old = Some (OTrue vs, tr) /\
     let t := TProd p (p_token (prods p)) kids in
     made cap tr t (pos s) (length inp) /\ in_a_row 0 (leaves t) (pos s) /\ (kids <> [] -> full t = true)).
Proof.
  intros cap inp prods transparent n p vs s k old Hcap Hw Ha.
  destruct (parse_as_tree_ok inp prods transparent cap Hcap n p vs s k old Hw Ha) as (es & He & H).
  exists es. split; [exact He|]. intros Hone Hh. destruct (H Hone) as (tr & lt & eof & kids & lo & E & H1 & H2 & H3 & H4 & _ & _ & _ & Hfu & Hrow).
  exists tr, kids. split; [exact E|]. cbn zeta. split; [eapply made_parse; eauto|]. split; [exact (Hrow Hh)|].
  intros Hne. cbn [full]. apply andb_true_iff. split; [destruct kids; [easy|reflexivity]|exact Hfu].
Qed.
Print Assumptions C52_parse_partial.

(** A root without children: its position does not exist. *)
Theorem C52_empty_refuted : exists prods vs tr r,
  parse_as_tree 511 (str "x") prods opaque 100 0 none = Some (OTrue vs, tr) /\
  p_root tr = Some r /\ position 100 (b_mem (p_buf tr)) r = None /\ covering_lexeme 100 (b_mem (p_buf tr)) r = None.
Proof. exists (fun _ => plain (ROpt (lit "1"))). do 3 eexists. split; [vm_compute; reflexivity|]. split; [reflexivity|]. split; vm_compute; reflexivity. Qed.
Print Assumptions C52_empty_refuted.

Example C52_example : exists tr, made 511 tr some_tree 6 8 /\ full some_tree = true /\ in_a_row 0 (leaves some_tree) 6 /\
  covering_lexeme 20 (b_mem (p_buf tr)) (0, 3) = Some (0, 3).
Proof.
  destruct some_made as (tr & E & H). exists tr. split; [exact H|]. split; [reflexivity|]. split; [repeat constructor; lia|].
  revert E. vm_compute. intros [= <-]. reflexivity.
Qed.

(** ** C53: storage *)
(** The words of all nodes of a finished tree are different and lie in blocks that were
    allocated. *)
Theorem C53_storage : forall cap tr t b e, 4 <= cap -> made cap tr t b e ->
  exists lt eof, p_root tr = Some (la lt) /\ erase lt = t /\
    next_node (b_mem (p_buf tr)) (la lt) = Some (Some eof) /\
    NoDup (fp lt ++ node_words eof) /\
    forall w, In w (fp lt ++ node_words eof) -> fst w < b_blocks (p_buf tr) /\ snd w < cap.
Proof.
  intros cap tr t b e Hcap H. destruct (made_whole _ _ _ _ _ Hcap H) as (lt & eof & H1 & H2 & HW & H4 & _).
  exists lt, eof. split; [exact H1|]. split; [exact H2|]. split; [unfold next_node; now rewrite (W_root _ _ _ _ _ HW)|]. split; [|exact H4].
  apply NoDup_app_intro; [apply (W_nodup _ _ _ _ _ HW)| |apply (W_disjoint _ _ _ _ _ HW)].
  repeat constructor; cbn [In]; intros X; repeat destruct X as [X|X]; try tauto; revert X; aneq.
Qed.
Print Assumptions C53_storage.

(** A tree that was built in new memory gives all blocks back. *)
Theorem C53_released : forall cap root cs b e tr, build cap new_buffer root cs b e = Some tr ->
  destroyed (p_buf tr) = seq 0 (b_blocks (p_buf tr)).
Proof. exact build_released. Qed.
Print Assumptions C53_released.

(** Building a second tree in the memory of a tree with several blocks forgets blocks. *)
Theorem C53_reuse_refuted :
  let cs := repeat (CToken KPosition 0 0) 400 in
  match build 511 new_buffer (info1 0) cs 0 0 with
  | Some tr =>
      destroyed (p_buf tr) = [0; 1; 2] /\
      match build 511 (p_buf tr) (info1 0) cs 0 0 with
      | Some tr' => b_blocks (p_buf tr') = 5 /\ destroyed (p_buf tr') = [0; 3; 4]
      | None => False
      end
  | None => False
  end.
Proof. vm_compute. repeat split; reflexivity. Qed.
Print Assumptions C53_reuse_refuted.

(** Cancelling an empty container that was started at the very end of a block: the next nodes
    overwrite the root. *)
Theorem C53_cancel_refuted : exists cs t b,
  spec_tree (info1 0) cs = Some t /\
  start 511 new_buffer (info1 0) = Some b /\
  match do_calls 511 cs (b, []) with
  | Some (b', []) => type_of (mem_of b) (t_root b) = Some true /\ type_of (mem_of b') (t_root b') = Some false
  | _ => False
  end.
Proof.
  exists ([COpen] ++ repeat (CToken (KUser 0) 0 1) 169 ++ [COpen; CDrop; CToken (KUser 0) 1 2; CClose]). do 2 eexists.
  split; [vm_compute; reflexivity|]. split; [reflexivity|]. vm_compute. split; reflexivity.
Qed.
Print Assumptions C53_cancel_refuted.

(** Starting a second container in an empty production at the end of a block: the pointer is
    placed outside the block (an assertion of the library fails). *)
Theorem C53_container_refuted : exists cs t,
  spec_tree (info1 0) cs = Some t /\ build 511 new_buffer (info1 0) cs 0 0 = None.
Proof.
  exists (repeat (CToken (KUser 0) 0 1) 168 ++ [CStart (info1 1); COpen; CClose; COpen; CClose; CFinish]). eexists.
  split; [vm_compute; reflexivity|]. vm_compute. reflexivity.
Qed.
Print Assumptions C53_container_refuted.

Example C53_example : exists tr t, build 7 new_buffer (info1 0) (some_calls ++ [COpen; CStart (info1 5); CCancel; CToken (KUser 0) 6 7; CSet (info1 3); CClose]) 7 8 = Some tr /\
  made 7 tr t 7 8 /\ b_blocks (p_buf tr) = 5 /\
  t = TProd 0 false (match some_tree with TProd _ _ l => l | _ => [] end ++ [TProd 3 false [TTok (KUser 0) 6 7]]).
Proof.
  do 2 eexists. split; [vm_compute; reflexivity|]. split; [|split; [reflexivity|reflexivity]].
  eapply (made_builder _ new_buffer (info1 0) (some_calls ++ [COpen; CStart (info1 5); CCancel; CToken (KUser 0) 6 7; CSet (info1 3); CClose]));
    [discriminate|lia|reflexivity|reflexivity|vm_compute; reflexivity].
Qed.

(** ** C54: algorithms of lexy_ext *)
(** [tokens]: the token nodes below a node, in order. *)
Theorem C54_tokens : forall cap tr t b e fuel, 4 <= cap -> made cap tr t b e -> 2 * nodes t <= fuel ->
  let m := b_mem (p_buf tr) in
  exists lt, p_root tr = Some (la lt) /\ erase lt = t /\
  forall s, Sub lt s -> PtExtModel.tokens fuel m (la s) = Some (map fst (toks s)) /\ map snd (toks s) = leaves (erase s) /\
    (forall a k b e, In (a, (k, b, e)) (toks s) -> Sub lt (LT a k b e) /\ token_kind m a = Some k /\ lexeme m a = Some (Some (b, e))).
Proof.
  intros cap tr t b e fuel Hcap H Hf m. destruct (made_whole _ _ _ _ _ Hcap H) as (lt & eof & H1 & H2 & HW & _).
  fold m in HW. exists lt. split; [exact H1|]. split; [exact H2|]. rewrite <- H2 in *. intros s Hs.
  split; [eapply tokens_ok; eauto|]. split; [apply toks_leaves|]. intros a k b0 e0 Hi.
  pose proof (toks_sub lt s a k b0 e0 Hs Hi) as Ht. destruct (type_leaf _ _ _ _ _ HW _ _ _ _ Ht) as (_ & _ & X & Y). auto.
Qed.
Print Assumptions C54_tokens.

(** [find_covering_node]: the token that contains the position. *)
Theorem C54_find : forall cap tr t b e fuel p x, 4 <= cap -> made cap tr t b e ->
  in_a_row p (leaves t) b -> p <= x -> 2 * nodes t <= fuel ->
  let m := b_mem (p_buf tr) in
  exists lt, p_root tr = Some (la lt) /\ erase lt = t /\
  if x <? b
  then exists a k y z, Sub lt (LT a k y z) /\ find_covering_node fuel m (la lt) x = Some a /\ y <= x < z
  else find_covering_node fuel m (la lt) x = None.
Proof.
  intros cap tr t b e fuel p x Hcap H Hrow Hp Hf m. destruct (made_whole _ _ _ _ _ Hcap H) as (lt & eof & H1 & H2 & HW & _).
  fold m in HW. exists lt. split; [exact H1|]. split; [exact H2|]. rewrite <- H2 in *. eapply find_ok; eauto.
Qed.
Print Assumptions C54_find.

(** [children] and [child] with a token kind, a production, or any predicate. *)
Theorem C54_children : forall cap tr t b e fuel, 4 <= cap -> made cap tr t b e -> 2 * nodes t <= fuel ->
  let m := b_mem (p_buf tr) in
  exists lt, p_root tr = Some (la lt) /\ erase lt = t /\
  forall a id tok kids, Sub lt (LP a id tok kids) ->
    (forall k, children_if fuel m a (has_kind m k) = Some (map la (filter (fun c => token_is k (erase c)) kids)) /\
               child_if fuel m a (has_kind m k) = Some (option_map la (find (fun c => token_is k (erase c)) kids))) /\
    (forall q, children_if fuel m a (has_production m q) = Some (map la (filter (fun c => production_is q (erase c)) kids)) /\
               child_if fuel m a (has_production m q) = Some (option_map la (find (fun c => production_is q (erase c)) kids))) /\
    (forall pred, children_if fuel m a pred = Some (map la (filter (fun c => pred (la c)) kids))).
Proof.
  intros cap tr t b e fuel Hcap H Hf m. destruct (made_whole _ _ _ _ _ Hcap H) as (lt & eof & H1 & H2 & HW & _).
  fold m in HW. exists lt. split; [exact H1|]. split; [exact H2|]. rewrite <- H2 in *. intros a id tok kids Hs.
  assert (Hk : length kids <= fuel) by (pose proof (kids_nodes a id tok kids); pose proof (sub_nodes _ _ Hs); lia).
  split; [|split].
  - intros k. split; [eapply children_kind_ok; eauto|eapply child_ok; eauto].
  - intros q. split; [eapply children_production_ok; eauto|eapply child_production_ok; eauto].
  - intros pred. eapply children_if_ok; eauto.
Qed.
Print Assumptions C54_children.

(** [node_position]: the begin of the position token, otherwise of the first token. *)
Theorem C54_node_position : forall cap tr t b e fuel, 4 <= cap -> made cap tr t b e -> 2 * nodes t <= fuel ->
  exists lt, p_root tr = Some (la lt) /\ erase lt = t /\
  forall s, Sub lt s -> node_position fuel (b_mem (p_buf tr)) (la s) = Some (designated (erase s)).
Proof.
  intros cap tr t b e fuel Hcap H Hf. destruct (made_whole _ _ _ _ _ Hcap H) as (lt & eof & H1 & H2 & HW & _).
  exists lt. split; [exact H1|]. split; [exact H2|]. rewrite <- H2 in *. intros s Hs. eapply node_position_ok; eauto.
Qed.
Print Assumptions C54_node_position.

Example C54_example : exists tr, made 511 tr some_tree 6 8 /\
  PtExtModel.tokens 20 (b_mem (p_buf tr)) (0, 3) = Some [(0, 6); (0, 12)] /\
  find_covering_node 20 (b_mem (p_buf tr)) (0, 0) 2 = Some (0, 12) /\
  child_if 20 (b_mem (p_buf tr)) (0, 0) (has_kind (b_mem (p_buf tr)) KError) = Some (Some (0, 15)).
Proof. destruct some_made as (tr & E & H). exists tr. split; [exact H|]. revert E. vm_compute. intros [= <-]. repeat split; reflexivity. Qed.

(** ** C67: kinds of nodes *)
(** Comparing the kind of a token node with that of a production node reads through a null
    pointer; the documentation says that they are unequal. *)
Theorem C67_refuted : exists tr a b, made 511 tr some_tree 6 8 /\
  kind_is_token (b_mem (p_buf tr)) a = true /\ kind_is_production (b_mem (p_buf tr)) b = true /\
  kind_eq (b_mem (p_buf tr)) a b = None.
Proof. destruct some_made as (tr & E & H). exists tr, (0, 6), (0, 3). split; [exact H|]. revert E. vm_compute. intros [= <-]. repeat split; reflexivity. Qed.
Print Assumptions C67_refuted.

(** Two tokens or two productions are compared properly, and comparing with a token kind or with a
    production always works. *)
Theorem C67_partial : forall cap tr t b e, 4 <= cap -> made cap tr t b e ->
  let m := b_mem (p_buf tr) in
  exists lt, p_root tr = Some (la lt) /\ erase lt = t /\
  (forall s k, Sub lt s -> kind_eq_token m (la s) k = Some (token_is k (erase s))) /\
  (forall s q, Sub lt s -> kind_eq_production m (la s) q = Some (production_is q (erase s))) /\
  (forall s u, Sub lt s -> Sub lt u -> kind_is_token m (la s) = kind_is_token m (la u) ->
     kind_eq m (la s) (la u) = Some (same_kind (erase s) (erase u))).
Proof.
  intros cap tr t b e Hcap H m. destruct (made_whole _ _ _ _ _ Hcap H) as (lt & eof & H1 & H2 & HW & _).
  fold m in HW. exists lt. split; [exact H1|]. split; [exact H2|]. split; [intros; eapply kind_token_ok; eauto|].
  split; [intros; eapply kind_production_ok; eauto|]. intros s u Hs Hu Hk. rewrite (kind_eq_ok _ _ _ _ _ HW _ _ Hs Hu).
  destruct s as [a k x y|a id tok kids], u as [a' k' x' y'|a' id' tok' kids']; cbn [both]; auto; exfalso; cbn [la] in Hk.
  - destruct (type_leaf _ _ _ _ _ HW _ _ _ _ Hs) as (X & _), (type_prod _ _ _ _ _ HW _ _ _ _ Hu) as (Y & _). congruence.
  - destruct (type_prod _ _ _ _ _ HW _ _ _ _ Hs) as (X & _), (type_leaf _ _ _ _ _ HW _ _ _ _ Hu) as (Y & _). congruence.
Qed.
Print Assumptions C67_partial.

Example C67_example : exists tr, made 511 tr some_tree 6 8 /\
  kind_eq (b_mem (p_buf tr)) (0, 6) (0, 12) = Some false /\ kind_eq (b_mem (p_buf tr)) (0, 3) (0, 3) = Some true.
Proof. destruct some_made as (tr & E & H). exists tr. split; [exact H|]. revert E. vm_compute. intros [= <-]. split; reflexivity. Qed.
