(** Property theorems C71, and C61 for traces. *)
From Coq Require Import String Ascii.
From Verif Require Import Prelude CodecModel CodecSpec LitModel LitSpec ClassSpec TextSpec LocModel LocSpec
  RuleModel RuleSpec RuleSample VisModel VisSpec VisMain VisProps RepModel RepSpec PtModel TvModel TvSpec TrModel TrSpec TrProofs TrMain TrEnd.
Close Scope string_scope.
Open Scope N_scope.
Notation str := VisModel.str.

(** ** C71 *)

(** Every event has one row, in order, which begins with line and column of its position; what
    happens between the begin and the end of a production, an operation chain or a recovery is
    behind a line drawn for it, up to the maximal depth.  The text is what a terminal displays of
    it, without the colors; names have no escape characters. *)
Theorem C71_rows_partial : forall token_name e inp opts l t,
  text_units (unit_encoding e) inp -> N.of_nat (length inp) < 9999999 ->
  (forall k, clean (token_name k)) -> Forall clean_event l -> vo_max_tree_depth opts <= 32 ->
  whole l t -> on_time e inp [] t ->
  exists place text, (forall p, (p <= length inp)%nat -> place_of e inp p (place p)) /\
    trace_output token_name e inp opts l = Done text /\
    displayed false text = lines (rows token_name e inp opts place 0 t).
Proof.
  intros tn e inp opts l t Hi Hl Hn Hc Hm Hw Ho.
  destruct (trace_rows tn e inp opts l t Hi Hl Hn Hc Hm Hw) as [(_ & H)|(H & _)]; [exact H|contradiction].
Qed.
Print Assumptions C71_rows_partial.

(** Otherwise an assertion fails: for an event behind the end of the input, or before the line on
    which a production has begun that was not cancelled. *)
Theorem C71_assertion : forall token_name e inp opts l t,
  text_units (unit_encoding e) inp -> N.of_nat (length inp) < 9999999 ->
  (forall k, clean (token_name k)) -> Forall clean_event l -> vo_max_tree_depth opts <= 32 ->
  whole l t -> ~ on_time e inp [] t -> trace_output token_name e inp opts l = Asserts.
Proof.
  intros tn e inp opts l t Hi Hl Hn Hc Hm Hw Ho.
  destruct (trace_rows tn e inp opts l t Hi Hl Hn Hc Hm Hw) as [(H & _)|(_ & H)]; [contradiction|exact H].
Qed.
Print Assumptions C71_assertion.

(** Events at positions that do not go back are on time, and on a single line all events. *)
Theorem C71_forward : forall e inp t, ascending 0 (positions (flattened t)) ->
  Forall (fun p => (p <= length inp)%nat) (positions (flattened t)) -> on_time e inp [] t.
Proof. exact forward_on_time. Qed.
Print Assumptions C71_forward.
Theorem C71_single_line : forall E inp t, ~ In LF inp ->
  Forall (fun p => (p <= length inp)%nat) (positions (flattened t)) -> on_time (InText E) inp [] t.
Proof. exact single_line_on_time. Qed.
Print Assumptions C71_single_line.

(** The events of every parse form such a tree; if nothing fails and nothing is tried in vain,
    they are on time. *)
Theorem C71_parse : forall production_name describe inp prods n p o s m, action inp prods n p = Res o s m ->
  exists t, whole (map (seen production_name describe) (rev (trace s))) t /\
    forall e, Forall smooth (rev (trace s)) -> on_time e inp [] t.
Proof.
  intros pn describe inp prods n p o s m H. destruct (parse_whole pn describe inp prods n p o s m H) as (t & Ht).
  exists t. split; [exact Ht|]. intros e Hs. exact (smooth_parse pn describe e inp prods n p o s m t H Hs Ht).
Qed.
Print Assumptions C71_parse.

(** A trace on two lines with all there is. *)
Definition names71 (k : tkind) : list N := match k with KUser _ => str "word" | KError => str "error token" | KWhitespace => str "whitespace" | _ => str "token" end.
Definition text71 : list N := str "ab" ++ [CR; LF] ++ str "c ?" ++ [LF].
Definition tree71 : tnode :=
  TProduction (str "top") 0
    [TProduction (str "sub") 0 [TLeaf (LToken (KUser 0) 0 2); TLeaf (LToken KWhitespace 2 4); TLeaf (LToken KWhitespace 4 4)] false 4;
     TProduction (str "alt") 4 [TLeaf (LBack 4 5); TLeaf (LBack 4 4)] true 4;
     TChain 4 [TLeaf (LOperation (str "minus") 4); TLeaf (LToken (KUser 0) 4 4)] 4;
     TLeaf (LDebug 3 (str "here")); TLeaf (LToken (KUser 0) 4 6);
     TLeaf (LError 6 (ExpectedLiteral (str "x") 0));
     TRecovery 6 [TLeaf (LToken KError 6 8)] false 8;
     TRecovery 8 [] true 8] true 8.
Definition events71 : list tevent := GStart 0 :: flattened tree71 ++ [GCancel 8].
Example C71_example : whole events71 tree71 /\ on_time (InText (Enc Utf8)) text71 [] tree71 /\
  text_units (Enc Utf8) text71 /\ (forall k, clean (names71 k)) /\ Forall clean_event events71 /\
  (exists text, trace_output names71 (InText (Enc Utf8)) text71 (Options (visualize_use_unicode + visualize_use_color) 32 0 4) events71 = Done text /\
   displayed false text = lines [
     str " 1:  1: top:";
     str " 1:  1: ├──sub:";
     str " 1:  1: │  ├──word: ab";
     str " 1:  3: │  ├──whitespace: ⟨CR⟩⟨LF⟩";
     str " 2:  1: │  ┴";
     str " 2:  1: ├──alt:";
     str " 2:  1: │  ├──backtracked: c";
     str " 2:  1: │  └╳";
     str " 2:  1: ├──operation chain:";
     str " 2:  1: │  ├──operation: minus";
     str " 2:  1: │  ├──word";
     str " 2:  1: │  ┴";
     str " 1:  3: ├──debug: here";
     str " 2:  1: ├──word: c⟨SP⟩";
     str " 2:  3: ├──error: expected 'x'";
     str " 2:  3: ├──error recovery:";
     str " 2:  3: │  ├──error token: ?⟨LF⟩";
     str " 3:  1: │  ┴";
     str " 3:  1: ├──error recovery:";
     str " 3:  1: │  └╳";
     str " 3:  1: └╳"]) /\
  trace_output names71 (InText (Enc Utf8)) text71 (Options 0 1 0 4) events71 = Done (lines [
     str " 1:  1: top:";
     str " 1:  1: - sub: ...";
     str " 2:  1: - alt: ...";
     str " 2:  1: - operation chain: ...";
     str " 1:  3: - debug: here";
     str " 2:  1: - word: c\u0020";
     str " 2:  3: - error: expected 'x'";
     str " 2:  3: - error recovery: ...";
     str " 3:  1: - error recovery: ...";
     str " 3:  1: -x"]).
Proof.
  split; [exact (whole_parse (str "top") 0 _ true 8 0 8)|].
  split.
  { unfold tree71. cbn [on_time live flat_map leaf_on_time app].
    repeat split; try (vm_compute; lia); intros s Hs; cbn [In] in Hs; repeat destruct Hs as [<-|Hs]; try contradiction; vm_compute; lia. }
  split; [split; [repeat constructor|vm_compute; intuition discriminate]|].
  split; [intros []; vm_compute; intuition discriminate|].
  split; [repeat (constructor; [vm_compute; intuition discriminate|]); constructor|].
  split; [eexists; split; [vm_compute; reflexivity|vm_compute; reflexivity]|]. vm_compute. reflexivity.
Qed.

(** ... and bytes; a parse without errors. *)
Example C71_bytes_example :
  trace_output names71 InBytes (repeat 0x41 20) (Options 0 32 0 4)
    [GStart 0; PStart (str "top") 0; Token (KUser 0) 0 18; Token (KUser 0) 18 20; PFinish 20; GFinish 20] =
  Done (lines [str " 1:  1: top:"; str " 1:  1: - word: \41\41\41\41\41\41\41\41\41\41\41\41\41\41\41\41\41\41";
               str " 2:  3: - word: \41\41"; str " 2:  5: - finish"]).
Proof. vm_compute. reflexivity. Qed.
Definition pair71 (p : nat) : production :=
  match p with O => plain (RSeq [RProd 1; lit ","; RProd 1; REof]) | _ => plain digit end.
Example C71_parse_example : exists o s m,
  action (str "1,2") pair71 30 0 = Res o s m /\ Forall smooth (rev (trace s)) /\ (10 < length (rev (trace s)))%nat.
Proof.
  do 3 eexists. split; [vm_compute; reflexivity|]. cbn. split; [|lia]. repeat constructor.
Qed.

(** Events that go back to an earlier line are not on time: an error that is reported for a
    combination begins before the begin of the last item.  (The message is an assertion about the
    location.) *)
Definition twice (p : nat) : production :=
  match p with
  | O => plain (RComb TDup None [RBr (RTok (lit_tok (KUser 0) (TUser 0) (str "a" ++ [LF]))) [RProd 1];
                                 RBr (RTok (lit_tok (KUser 0) (TUser 0) (str "b"))) []])
  | _ => plain digit
  end.
Definition kids71 : list tnode :=
  [TLeaf (LToken (KUser 0) 0 2); TProduction (str "p") 2 [TLeaf (LToken (KUser 1) 2 3)] false 3;
   TLeaf (LToken (KUser 0) 3 5); TProduction (str "p") 5 [TLeaf (LToken (KUser 1) 5 6)] false 6;
   TLeaf (LError 3 (Generic (str "message") 0)); TLeaf (LError 6 (Generic (str "message") 0))].
Theorem C71_refuted : exists inp prods n o s m t,
  action inp prods n 0 = Res o s m /\
  whole (map (seen (fun _ => str "p") (fun _ _ _ => Generic (str "message") 0)) (rev (trace s))) t /\
  Forall (fun p => (p <= length inp)%nat) (positions (flattened t)) /\
  text_units Default inp /\
  trace_output (fun _ => str "token") (InText Default) inp (Options 0 32 0 4)
    (map (seen (fun _ => str "p") (fun _ _ _ => Generic (str "message") 0)) (rev (trace s))) = Asserts.
Proof.
  exists (str "a" ++ [LF] ++ str "1a" ++ [LF] ++ str "2"), twice, 30%nat.
  do 3 eexists.
  exists (TProduction (str "p") 0 kids71 true 6).
  split; [vm_compute; reflexivity|]. split; [exact (whole_parse (str "p") 0 kids71 true 6 0 6)|].
  split; [repeat (constructor; [vm_compute; lia|]); constructor|].
  split; [split; [repeat constructor|vm_compute; intuition discriminate]|]. vm_compute. reflexivity.
Qed.
Print Assumptions C71_refuted.

(** Places of more than fifteen characters, in inputs of ten million units or more: a token of ten
    million lines and columns. *)
Theorem C71_large_refuted : forall token_name opts name k n, N.of_nat n = 9999999 -> 1 <= vo_max_tree_depth opts ->
  trace_output token_name (InText Default) (large n) opts
    [GStart 0; PStart name 0; Token k 0 (length (large n)); PFinish (length (large n)); GFinish (length (large n))] = Asserts.
Proof. exact large_asserts. Qed.
Print Assumptions C71_large_refuted.

(** ** C61 for traces *)

(** What is written is the same as writing the text character by character.  Missing: output with
    colors, unless all copies of the iterator are interchangeable. *)
Theorem C61_trace_partial : forall W I (put : W -> I -> N -> W * I) token_name e inp opts out l,
  is_set opts visualize_use_color = false \/ (forall i j : I, i = j) ->
  trace_to put token_name e inp opts out l =
  match trace_output token_name e inp opts l with
  | Done text => Done (written put out text) | Hangs => Hangs | Asserts => Asserts
  end.
Proof.
  intros W I put tn e inp opts out l H. rewrite (trace_text tn e inp put opts H), trace_output_eq.
  destruct (t_trace tn e inp opts l); [|reflexivity|reflexivity]. cbn. now rewrite written_str.
Qed.
Print Assumptions C61_trace_partial.

Example C61_trace_example : is_set (Options 0 1 0 4) visualize_use_color = false /\
  match trace_to pointer_put names71 (InText (Enc Utf8)) text71 (Options 0 1 0 4) (fun _ => 0, 10%nat) events71 with
  | Done out => snd out = 239%nat
  | _ => False
  end.
Proof. split; [reflexivity|]. vm_compute. reflexivity. Qed.
