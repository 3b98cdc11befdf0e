(** Property theorems C62, and C61 for reports. *)
From Coq Require Import String Ascii.
From Verif Require Import Prelude CodecModel CodecSpec LitModel ClassSpec TextSpec LocModel LocSpec LocText VisModel VisSpec
  RepModel RepSpec RepMain RepEnd.
Close Scope string_scope.
Open Scope N_scope.

(** ** C62 *)

(** The report of an error, without colors: the headline, the path, the line on which the
    production began if it is another one, and the line of the error with its number.  The part
    marked begins at the column of the error and goes up to its end, rounded up to complete
    characters, but not behind the newline of the line.  There are as many marks as the marked
    part has columns, at least one, and one more if the range goes on behind the end of the
    input.  The marks are below the marked part if the line number has at most four digits.
    Missing: marks below the marked part on later lines. *)
Theorem C62_report_partial : forall e inp err o path t,
  text_units (unit_encoding e) inp -> error_in inp err ->
  N.of_nat (length inp) + 1 < 2 ^ 32 -> clean_error err -> match path with Some p => clean p | None => True end ->
  error_output e inp err o path = Done t -> report e o inp err path (displayed false t).
Proof. exact error_shown. Qed.
Print Assumptions C62_report_partial.

(** The same for annotations written by hand, whatever the columns count. *)
Theorem C62_annotation_partial : forall u E inp pos l r o k m t,
  text_units E inp -> (pos <= length inp)%nat ->
  N.of_nat (length inp) + 1 < 2 ^ 32 -> clean m ->
  get_input_location E (policy u) inp pos input_anchor = Loc l -> (lo_column_begin l <= end_of r (lo_column_begin l))%nat ->
  annotation_output (InText E) (policy u) inp o k l r m = Done t ->
  exists b a x beyond row1 row2,
    displayed false t = lines [row1; row2] /\
    text_pieces u (InText E) inp pos (lo_column_begin l) (end_of r (lo_column_begin l)) b a x beyond /\
    snippet (N.of_nat (line_of (InText E) inp pos) <? 10000) o (N.of_nat (line_of (InText E) inp pos))
      (shown (InText E) o inp b) (shown (InText E) o inp a) (shown (InText E) o inp x) k beyond m row1 row2.
Proof. exact text_annotation_shown. Qed.
Print Assumptions C62_annotation_partial.

(** Reports are finished, for inputs of less than a million units. *)
Theorem C62_ends : forall e inp err o path,
  text_units (unit_encoding e) inp -> error_in inp err ->
  N.of_nat (length inp) < 2 ^ 20 -> vo_tab_width o < 256 -> exists t, error_output e inp err o path = Done t.
Proof. exact error_ends. Qed.
Print Assumptions C62_ends.
Theorem C62_annotation_ends : forall u E inp pos l r o k m,
  text_units E inp -> (pos <= length inp)%nat ->
  N.of_nat (length inp) < 2 ^ 20 -> vo_tab_width o < 256 ->
  get_input_location E (policy u) inp pos input_anchor = Loc l -> (lo_column_begin l <= end_of r (lo_column_begin l))%nat ->
  exists t, annotation_output (InText E) (policy u) inp o k l r m = Done t.
Proof. exact text_annotation_ends. Qed.
Print Assumptions C62_annotation_ends.

(** The sink writes the reports one after the other and then an empty line, and returns how many
    errors there were. *)
Theorem C62_sink : forall W I (put : W -> I -> N -> W * I) e inp opts path out errs ts,
  is_set opts visualize_use_color = false \/ (forall i j : I, i = j) ->
  Forall2 (fun err t => error_output e inp err opts path = Done t) errs ts ->
  report_errors put e inp opts path out errs =
  Done (written put out (concat ts ++ match errs with [] => [] | _ => [LF] end), N.of_nat (length errs)).
Proof. intros W I put e inp opts path out errs ts. exact (sink_written put e inp opts path out errs ts). Qed.
Print Assumptions C62_sink.

(** On line 10000 the marks are one column to the left: the error is at "b", marked is "a". *)
Theorem C62_refuted : exists inp err row1 row2,
  text_units (Enc Utf8) inp /\ error_in inp err /\
  error_output (InText (Enc Utf8)) inp err default_options None =
    Done (lines [str "error: while parsing p"; str "     |"; row1; row2]) /\
  nth_error inp (er_position err) = Some 0x62 /\
  row1 = str "10000 | ab" /\ row2 = str "     |  ^ m" /\ nth_error row1 8 = Some 0x61 /\ nth_error row2 8 = Some 0x5E.
Proof.
  exists far_input, (Error (str "p") (N.to_nat 10000) (N.to_nat 10000) (Generic (str "m") (N.to_nat 10001))),
    (str "10000 | ab"), (str "     |  ^ m").
  split; [|split; [|split; [exact far_report|]]].
  - assert (H : forall c, In c far_input -> c < 128).
    { intros c Hc. apply in_app_or in Hc. destruct Hc as [Hc|Hc].
      - apply repeat_spec in Hc. subst c. reflexivity.
      - destruct Hc as [<-|[<-|[]]]; reflexivity. }
    split; [apply Forall_forall; intros c Hc; specialize (H c Hc); change (lbound (Enc Utf8)) with 256; lia|].
    intros Hc. specialize (H _ Hc). vm_compute in H. discriminate.
  - assert (length far_input = N.to_nat 10001) as E.
    { unfold far_input. rewrite app_length, repeat_length. change (length (str "ab")) with 2%nat. lia. }
    split; [|reflexivity || (cbn [er_kind er_position]; lia)]. rewrite E. cbn [er_context er_position]. lia.
  - split; [|repeat split; reflexivity]. vm_compute. reflexivity.
Qed.
Print Assumptions C62_refuted.

(** Two errors of one input, one with the line where the production began; a tab is shown as two
    spaces. *)
Definition sample62 : list N := str "let é =" ++ [0x0A; 0x09] ++ str "éx y".
Definition error62a : error := Error (str "decl") 0 14 (ExpectedLiteral (str ";") 0).
Definition error62b : error := Error (str "name") 10 11 (Generic (str "reserved") 17).
Example C62_example :
  text_units (Enc Utf8) sample62 /\ error_in sample62 error62a /\ error_in sample62 error62b /\
  clean_error error62a /\ clean_error error62b /\
  error_output (InText (Enc Utf8)) sample62 error62a (Options 1 32 0 2) (Some (str "a.txt")) = Done (lines
    [ str "error: while parsing decl"; str "a.txt"; str "     │";
      str "   1 │ let ⟨U+00E9⟩ ="; str "     │ ~ beginning here"; str "     │";
      str "   2 │   ⟨U+00E9⟩x y"; str "     │             ^ expected ';'"]) /\
  error_output (InText (Enc Utf8)) sample62 error62b (Options 0 32 0 2) None = Done (lines
    [ str "error: while parsing name"; str "     |"; str "   2 |   \xC3\xA9x y"; str "     |       ^^^^^^^^ reserved"]) /\
  report_errors append_put (InText (Enc Utf8)) sample62 (Options 0 32 0 2) None ([], tt) [error62b; error62b] = Done (lines
    [ str "error: while parsing name"; str "     |"; str "   2 |   \xC3\xA9x y"; str "     |       ^^^^^^^^ reserved";
      str "error: while parsing name"; str "     |"; str "   2 |   \xC3\xA9x y"; str "     |       ^^^^^^^^ reserved"; [] ], tt, 2).
Proof.
  split.
  { split; [repeat constructor|]. intros H. cbn in H. repeat destruct H as [H|H]; (discriminate || contradiction). }
  split; [split; [cbn; lia|exact I]|]. split; [split; cbn; lia|].
  split; [split; [|exact I]; intros H; cbn in H; repeat destruct H as [H|H]; (discriminate || contradiction)|].
  split; [split; intros H; cbn in H; repeat destruct H as [H|H]; (discriminate || contradiction)|].
  split; [vm_compute; reflexivity|]. split; vm_compute; reflexivity.
Qed.

(** ** C61 for reports *)

(** What is written by reports is the same as writing the text character by character.  Missing:
    output with colors, unless all copies of the iterator are interchangeable. *)
Theorem C61_report_partial : forall W I (put : W -> I -> N -> W * I) e inp out err opts path,
  is_set opts visualize_use_color = false \/ (forall i j : I, i = j) ->
  write_error put e inp out err opts path =
  match error_output e inp err opts path with
  | Done t => Done (written put out t)
  | Hangs => Hangs
  | Asserts => Asserts
  end.
Proof. intros W I put e inp out err opts path. exact (error_written put e inp out err opts path). Qed.
Print Assumptions C61_report_partial.
Theorem C61_annotation_partial : forall W I (put : W -> I -> N -> W * I) e c inp out opts k l r m,
  is_set opts visualize_use_color = false \/ (forall i j : I, i = j) ->
  write_annotation put e c inp out opts k l r (fun out _ => written put out m) =
  match annotation_output e c inp opts k l r m with
  | Done t => Done (written put out t)
  | Hangs => Hangs
  | Asserts => Asserts
  end.
Proof. intros W I put e c inp out opts k l r m. exact (annotation_written put e c inp out opts k l r m). Qed.
Print Assumptions C61_annotation_partial.
Theorem C61_message_partial : forall W I (put : W -> I -> N -> W * I) out opts kind m,
  is_set opts visualize_use_color = false \/ (forall i j : I, i = j) ->
  write_message put out opts kind (fun out _ => written put out m) =
  written put out (fst (write_message append_put ([], tt) opts kind (fun out _ => written append_put out m))).
Proof. intros W I put out opts kind m. exact (message_written put out opts kind m). Qed.
Print Assumptions C61_message_partial.

(** A pointer after the second report above: its text is 85 characters. *)
Example C61_report_example :
  is_set (Options 0 32 0 2) visualize_use_color = false /\
  match write_error pointer_put (InText (Enc Utf8)) sample62 (fun _ => 0, 10%nat) error62b (Options 0 32 0 2) None with
  | Done out => snd out = 95%nat
  | _ => False
  end.
Proof. split; [reflexivity|]. vm_compute. reflexivity. Qed.
