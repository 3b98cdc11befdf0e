(** The text of traces. *)
From Coq Require Import String Ascii.
From Verif Require Import Prelude CodecModel CodecSpec LitModel ClassSpec LocModel LocSpec LocProofs RuleModel
  VisModel VisSpec VisProofs VisText VisShow VisInj VisMain RepModel RepSpec RepProofs RepMain PtModel TvModel TvSpec TvProofs TrModel TrSpec.
Close Scope string_scope.
Open Scope N_scope.

(** ** The text, as a list *)
Section Names.
Variables (token_name : tkind -> list N) (e : input_encoding) (inp : list N).

Definition place_text (loc : location) : outcome (list N) :=
  formatted (format_dec 2 (lo_line_nr loc) ++ str ":" ++ format_dec 3 (lo_column_nr loc)).
Definition t_joint (opts : options) (p : prefix) : list N :=
  match p with
  | Event => if is_set opts visualize_use_unicode then str "├──" else str "- "
  | Cancelled => (if is_set opts visualize_use_unicode then str "└" else str "-") ++ t_color opts Yellow []
                 ++ (if is_set opts visualize_use_unicode then str "╳" else str "x") ++ t_color opts Reset []
  | Finished => if is_set opts visualize_use_unicode then str "┴" else str "- finish"
  end.
Definition t_bar (opts : options) : list N := if is_set opts visualize_use_unicode then str "│  " else str "  ".
Definition t_prefix (opts : options) (d : nat) (loc : location) (p : prefix) : outcome (list N) :=
  omap (fun s => (if (0 <? d)%nat then [0x0A] else []) ++ t_color opts Faint [] ++ s ++ str ": " ++ t_color opts Reset [] ++
                 (if (0 <? d)%nat then concat (repeat (t_bar opts) (d - 1)) ++ t_joint opts p else []))
    (place_text loc).

Definition t_heading opts d (name : list N) : list N :=
  t_color opts Bold [] ++ name ++ t_color opts Reset [] ++
  (if (d =? max_depth opts)%nat then str ": " ++ t_ellipsis opts else str ":").
Definition t_recovery opts d : list N :=
  t_color opts Yellow [Bold] ++ str "error recovery" ++ t_color opts Reset [] ++ t_color opts Yellow [] ++ str ":" ++
  t_color opts Reset [] ++ (if (d =? max_depth opts)%nat then str " " ++ t_ellipsis opts else []).
(** The position, whether something is written, and behind which prefix what. *)
Definition position (ev : tevent) : option nat :=
  match ev with
  | GStart _ | GFinish _ | GCancel _ => None
  | PStart _ p | PFinish p | PCancel p | OStart p | OOp _ p | OFinish p | Token _ p _ | Back p _
  | Err p _ | RStart p | RFinish p | RCancel p | Dbg p _ => Some p
  end.
Definition is_empty (us : list N) : bool := match us with [] => true | _ => false end.
Definition visible (ev : tevent) : bool :=
  match ev with
  | Token k b e' => negb (ignore_if_empty k && is_empty (units_in inp (b, e')))
  | Back b e' => negb (is_empty (units_in inp (b, e')))
  | _ => true
  end.
Definition kind (ev : tevent) : prefix :=
  match ev with
  | PFinish _ | OFinish _ | RFinish _ => Finished
  | PCancel _ | RCancel _ => Cancelled
  | _ => Event
  end.
Definition body opts (d : nat) (ev : tevent) : list N :=
  match ev with
  | PStart name _ => t_heading opts d name
  | OStart _ => t_heading opts d (str "operation chain")
  | RStart _ => t_recovery opts d
  | Token k b e' =>
    t_color opts Bold [] ++ token_name k ++ t_color opts Reset [] ++
    (if negb (is_empty (units_in inp (b, e'))) then
       str ": " ++ t_lexeme (lexemes_of e) (units_in inp (b, e')) (set_flag opts visualize_space) else [])
  | Back b e' =>
    t_color opts Yellow [Bold] ++ str "backtracked" ++ t_color opts Reset [] ++ str ": " ++ t_color opts Yellow [] ++
    t_lexeme (lexemes_of e) (units_in inp (b, e')) (set_flag (VisModel.reset opts visualize_use_color) visualize_space) ++ t_color opts Reset []
  | Err _ k =>
    t_color opts Red [Bold] ++ str "error" ++ t_color opts Reset [] ++ t_color opts Red [] ++ str ": " ++
    t_error_message e opts k ++ t_color opts Reset []
  | OOp name _ => t_color opts Bold [] ++ str "operation" ++ t_color opts Reset [] ++ str ": " ++ name
  | Dbg _ s => t_color opts Blue [Bold] ++ str "debug" ++ t_color opts Reset [] ++ t_color opts Blue [] ++ str ": " ++ s ++ t_color opts Reset []
  | _ => []
  end.
Definition tst : Type := nat * anchor * list anchor.
Definition moves (u : tst) (lo : location) (ev : tevent) : option tst :=
  let '(d, a, l) := u in
  match ev with
  | PStart _ _ => Some (S d, anchor_of lo, a :: l)
  | PFinish _ => Some (pred d, a, tl l)
  | PCancel _ => match l with a' :: l' => Some (pred d, a', l') | [] => None end
  | OStart _ | RStart _ => Some (S d, a, l)
  | OFinish _ | RFinish _ | RCancel _ => Some (pred d, a, l)
  | _ => Some (d, a, l)
  end.
Definition find_place (a : anchor) (p : nat) : outcome location :=
  located (get_input_location (unit_encoding e) (default_counting e) inp p a).
Definition t_event opts (u : tst) (ev : tevent) : outcome (list N * tst) :=
  match position ev with
  | None => Done ([], u)
  | Some p =>
    bind (find_place (snd (fst u)) p) (fun lo =>
    bind (if (fst (fst u) <=? max_depth opts)%nat && visible ev
          then omap (fun s => s ++ body opts (fst (fst u)) ev) (t_prefix opts (fst (fst u)) lo (kind ev))
          else Done []) (fun t =>
    match moves u lo ev with Some u' => Done (t, u') | None => Asserts end))
  end.
Fixpoint t_events opts (u : tst) (l : list tevent) : outcome (list N * tst) :=
  match l with
  | [] => Done ([], u)
  | ev :: l' => bind (t_event opts u ev) (fun r => omap (fun r' => (fst r ++ fst r', snd r')) (t_events opts (snd r) l'))
  end.
Definition t_trace opts (l : list tevent) : outcome (list N) :=
  if (max_tree_depth_limit <? max_depth opts)%nat then Asserts
  else omap (fun r => fst r ++ [0x0A]) (t_events opts (0%nat, input_anchor, []) l).

Section Out.
Context {W I : Type} (put : W -> I -> N -> W * I).
Notation plain_or_shared := (plain_or_shared (I := I)).
Variable opts : options.
Hypothesis Hps : plain_or_shared opts.

Lemma bars_text n : forall o, write_bars put opts o n = write_str put o (concat (repeat (t_bar opts) n)).
Proof.
  induction n as [|n IH]; intros o; [reflexivity|]. cbn [write_bars repeat concat]. rewrite IH, str_app. reflexivity.
Qed.
Lemma prefix_text o d loc p : write_prefix put opts o d loc p = omap (write_str put o) (t_prefix opts d loc p).
Proof.
  unfold write_prefix, t_prefix, place_text. cbv zeta. destruct (formatted _) as [s| |]; [|reflexivity|reflexivity].
  cbn [bind omap]. f_equal. rewrite bars_text. unfold t_joint.
  destruct (0 <? d)%nat; [|rewrite !color_text1, !str_app, <- ?app_assoc, app_nil_r; reflexivity].
  destruct p; rewrite !color_text1, ?put_str, !str_app, <- ?app_assoc; reflexivity.
Qed.

Definition wrote (o : W * I) (r : outcome (list N * tst)) : outcome (th (W := W) (I := I)) :=
  omap (fun r => Th (write_str put o (fst r), fst (fst (snd r))) (snd (fst (snd r))) (snd (snd r))) r.
Definition wrote_line (o : W * I) (d' : nat) (r : outcome (list N)) : outcome (W * I * nat) :=
  omap (fun t => (write_str put o t, d')) r.

Notation shown_line d loc ev := (if (d <=? max_depth opts)%nat && visible ev
  then omap (fun s => s ++ body opts d ev) (t_prefix opts d loc (kind ev)) else Done []).

Ltac solve_text :=
  unfold bind, omap, wrote_line; rewrite ?str_nil;
  match goal with |- context [t_prefix ?a ?b ?c ?d] => destruct (t_prefix a b c d); [|reflexivity|reflexivity] | _ => idtac end;
  cbv [bind omap wrote_line]; rewrite ?str_nil; f_equal; f_equal; rewrite ?color_text1, ?(color_text put _ _ _ _ Hps), ?ellipsis_text, ?str_app, <- ?app_assoc; try reflexivity.

Lemma start_text o d loc name p : 
  write_production_start put opts (o, d) loc name = wrote_line o (S d) (shown_line d loc (PStart name p)).
Proof.
  unfold write_production_start. cbn [visible kind body]. rewrite andb_true_r. destruct (d <=? max_depth opts)%nat; [|now solve_text].
  rewrite prefix_text. unfold t_heading. destruct (d =? max_depth opts)%nat; solve_text.
Qed.
Lemma token_text o d loc k b e' :
  write_token put token_name e opts (o, d) loc k (units_in inp (b, e')) = wrote_line o d (shown_line d loc (Token k b e')).
Proof.
  unfold write_token. cbn [visible kind body]. rewrite Nat.ltb_antisym.
  fold (is_empty (units_in inp (b, e'))).
  destruct (d <=? max_depth opts)%nat; [|now solve_text]. cbn [negb orb andb].
  destruct (ignore_if_empty k && is_empty (units_in inp (b, e'))); [now solve_text|]. cbn [negb].
  rewrite prefix_text. destruct (negb (is_empty (units_in inp (b, e')))); [|solve_text; rewrite app_nil_r; reflexivity].
  destruct (t_prefix opts d loc Event) as [t| |]; [|reflexivity|reflexivity]. cbv [bind omap wrote_line]. f_equal. f_equal.
  rewrite lexeme_text by (apply set_shared; [reflexivity|exact Hps]).
  rewrite !color_text1, !str_app, <- ?app_assoc. reflexivity.
Qed.
Lemma back_text o d loc b e' :
  write_backtrack put e opts (o, d) loc (units_in inp (b, e')) = wrote_line o d (shown_line d loc (Back b e')).
Proof.
  unfold write_backtrack. cbn [visible kind body]. rewrite Nat.ltb_antisym.
  fold (is_empty (units_in inp (b, e'))).
  destruct (d <=? max_depth opts)%nat; [|now solve_text]. cbn [negb orb andb].
  destruct (is_empty (units_in inp (b, e'))); [now solve_text|]. cbn [negb].
  rewrite prefix_text. destruct (t_prefix opts d loc Event) as [t| |]; [|reflexivity|reflexivity]. cbv [bind omap wrote_line]. f_equal. f_equal.
  rewrite lexeme_text by (apply set_shared; [reflexivity|apply reset_shared]).
  rewrite ?color_text1, ?(color_text put _ _ _ _ Hps), !str_app, <- ?app_assoc. reflexivity.
Qed.
Lemma err_text o d loc p k :
  write_error put e opts (o, d) loc k = wrote_line o d (shown_line d loc (Err p k)).
Proof.
  unfold write_error. cbn [visible kind body]. rewrite Nat.ltb_antisym, andb_true_r.
  destruct (d <=? max_depth opts)%nat; [|now solve_text]. cbn [negb].
  rewrite prefix_text. destruct (t_prefix opts d loc Event) as [t| |]; [|reflexivity|reflexivity]. cbv [bind omap wrote_line]. f_equal. f_equal.
  destruct k; cbn [t_error_message]; rewrite ?(lexeme_text put _ _ _ _ Hps), ?color_text1, ?(color_text put _ _ _ _ Hps), !str_app, <- ?app_assoc; reflexivity.
Qed.
Lemma recovery_text o d loc p :
  write_recovery_start put opts (o, d) loc = wrote_line o (S d) (shown_line d loc (RStart p)).
Proof.
  unfold write_recovery_start. cbn [visible kind body]. rewrite andb_true_r.
  destruct (d <=? max_depth opts)%nat; [|now solve_text].
  rewrite prefix_text. unfold t_recovery. destruct (d =? max_depth opts)%nat; solve_text. rewrite app_nil_r. reflexivity.
Qed.
Lemma operation_text o d loc name p :
  write_operation put opts (o, d) loc name = wrote_line o d (shown_line d loc (OOp name p)).
Proof.
  unfold write_operation. cbn [visible kind body]. rewrite Nat.ltb_antisym, andb_true_r.
  destruct (d <=? max_depth opts)%nat; [|now solve_text]. cbn [negb]. rewrite prefix_text. solve_text.
Qed.
Lemma debug_text o d loc p s :
  write_debug put opts (o, d) loc s = wrote_line o d (shown_line d loc (Dbg p s)).
Proof.
  unfold write_debug. cbn [visible kind body]. rewrite Nat.ltb_antisym, andb_true_r.
  destruct (d <=? max_depth opts)%nat; [|now solve_text]. cbn [negb]. rewrite prefix_text. solve_text.
Qed.
Lemma end_text o d loc pr : 
  write_end put opts (o, d) loc pr =
  wrote_line o (pred d) (if (d <=? max_depth opts)%nat && true then omap (fun s => s ++ []) (t_prefix opts d loc pr) else Done []).
Proof.
  unfold write_end. rewrite andb_true_r. destruct (d <=? max_depth opts)%nat; [|now solve_text].
  rewrite prefix_text. solve_text. now rewrite app_nil_r.
Qed.

Lemma event_text o d a l ev :
  on_event put token_name e inp opts (Th (o, d) a l) ev = wrote o (t_event opts (d, a, l) ev).
Proof.
  unfold on_event, t_event, get_location, on_writer. cbn [th_writer th_anchor th_previous fst snd].
  destruct ev; cbn [position]; try (cbn [wrote omap bind fst snd]; now rewrite str_nil);
    fold (find_place a p) || fold (find_place a b);
    (match goal with |- context [find_place a ?q] => destruct (find_place a q) as [lo| |]; [|reflexivity|reflexivity] end); cbn [bind];
    erewrite ?start_text, ?token_text, ?back_text, ?err_text, ?recovery_text, ?operation_text, ?debug_text, ?end_text;
    unfold wrote_line; cbn [moves visible kind body];
    (match goal with |- context [if ?b then ?x else Done []] => set (shown := if b then x else Done []) in *; destruct shown; [|reflexivity|reflexivity] end);
    try reflexivity.
  destruct l; reflexivity.
Unshelve. all: exact O.
Qed.
Lemma events_text l : forall o d a pr,
  on_events put token_name e inp opts (Th (o, d) a pr) l = wrote o (t_events opts (d, a, pr) l).
Proof.
  induction l as [|ev l IH]; intros o d a pr; [cbn [on_events t_events wrote omap bind fst snd]; now rewrite str_nil|].
  cbn [on_events t_events]. rewrite event_text. destruct (t_event opts (d, a, pr) ev) as [[t [[d' a'] pr']]| |]; [|reflexivity|reflexivity].
  cbn [wrote omap bind fst snd]. rewrite IH. destruct (t_events opts (d', a', pr') l) as [[t' u']| |]; [|reflexivity|reflexivity].
  cbn [wrote omap bind fst snd]. now rewrite str_app.
Qed.
Lemma trace_text o l : trace_to put token_name e inp opts o l = omap (write_str put o) (t_trace opts l).
Proof.
  unfold trace_to, t_trace. destruct (_ <? _)%nat; [reflexivity|]. rewrite events_text.
  destruct (t_events opts _ l) as [[t u]| |]; [|reflexivity|reflexivity]. cbn [wrote omap bind fst snd th_writer].
  now rewrite put_str, str_app.
Qed.
End Out.

(** ** Colors are not displayed *)
Hypothesis clean_tokens : forall k, clean (token_name k).
Definition Dt (x y : outcome (list N * tst)) : Prop :=
  match x, y with
  | Done (t, u), Done (t', u') => D t t' /\ u = u'
  | Hangs, Hangs => True
  | Asserts, Asserts => True
  | _, _ => False
  end.
Lemma D_place lo : Do (place_text lo) (place_text lo).
Proof.
  unfold place_text, formatted. set (s := format_dec 2 (lo_line_nr lo) ++ str ":" ++ format_dec 3 (lo_column_nr lo)).
  assert (H : Forall (fun c => c <> 0x1B) s).
  { unfold s. apply Forall_app. split; [eapply Forall_impl; [|apply format_dec_chars]; cbn; intros; lia|].
    apply Forall_app. split; [repeat constructor; vm_compute; discriminate|].
    eapply Forall_impl; [|apply format_dec_chars]; cbn; intros; lia. }
  destruct (length s <=? 15)%nat; [now apply D_chars|]. destruct (length s <=? 16)%nat; [|exact I].
  cbn [Do]. apply D_chars. apply Forall_app. split; [|repeat constructor; discriminate].
  apply Forall_firstn. exact H.
Qed.
Lemma D_prefix o d lo p : Do (t_prefix o d lo p) (t_prefix (VisModel.reset o visualize_use_color) d lo p).
Proof.
  unfold t_prefix. pose proof (D_place lo) as H. destruct (place_text lo) as [s| |]; [|exact I|exact I]. cbn [omap bind Do] in *.
  apply D_app; [destruct (0 <? d)%nat; [now apply D_str|exact D_nil]|].
  apply D_app; [apply D_color'|]. apply D_app; [exact H|]. apply D_app; [now apply D_str|]. apply D_app; [apply D_color'|].
  destruct (0 <? d)%nat; [|exact D_nil]. unfold t_bar, t_joint. rewrite !reset_unicode.
  apply D_app; [apply D_repeat; destruct (is_set o visualize_use_unicode); now apply D_str|].
  destruct p; try (destruct (is_set o visualize_use_unicode); now apply D_str).
  apply D_app; [destruct (is_set o visualize_use_unicode); now apply D_str|].
  apply D_app; [apply D_color'|]. apply D_app; [destruct (is_set o visualize_use_unicode); now apply D_str|apply D_color'].
Qed.
Lemma max_reset o : max_depth (VisModel.reset o visualize_use_color) = max_depth o.
Proof. reflexivity. Qed.
Lemma D_body o d ev : clean_event ev -> D (body o d ev) (body (VisModel.reset o visualize_use_color) d ev).
Proof.
  intros Hc. destruct ev; cbn [body]; try exact D_nil; unfold t_heading, t_recovery; rewrite ?max_reset.
  all: repeat first [apply D_app; [first [apply D_color' | now apply D_str | now apply D_clean | apply D_clean, clean_tokens]|]
       | apply D_color' | now apply D_str | now apply D_clean].
  - destruct (d =? max_depth o)%nat; [apply D_app; [now apply D_str|apply D_ellipsis']|now apply D_str].
  - destruct (d =? max_depth o)%nat; [apply D_app; [now apply D_str|apply D_ellipsis']|now apply D_str].
  - destruct (negb _); [|exact D_nil]. apply D_app; [now apply D_str|]. rewrite <- reset_set. apply D_lexeme.
  - apply D_app; [|apply D_color']. rewrite <- reset_set. rewrite reset_reset.
    rewrite <- reset_set at 1. rewrite <- (reset_reset (set_flag o visualize_space)). apply D_lexeme'.
  - apply D_app; [|apply D_color']. destruct k; cbn [t_error_message].
    1, 2: repeat apply D_app; try (now apply D_str); apply D_lexeme.
    + apply D_app; [now apply D_str|now apply D_clean].
    + now apply D_clean.
  - destruct (d =? max_depth o)%nat; [apply D_app; [now apply D_str|apply D_ellipsis']|exact D_nil].
Qed.
Lemma D_event o u ev : clean_event ev -> Dt (t_event o u ev) (t_event (VisModel.reset o visualize_use_color) u ev).
Proof.
  intros Hc. unfold t_event. destruct (position ev) as [p|]; [|split; [exact D_nil|reflexivity]].
  destruct (find_place (snd (fst u)) p) as [lo| |]; [|exact I|exact I]. cbn [bind]. rewrite max_reset.
  destruct (_ && _).
  - pose proof (D_prefix o (fst (fst u)) lo (kind ev)) as H.
    destruct (t_prefix o _ _ _), (t_prefix (VisModel.reset o visualize_use_color) _ _ _); try contradiction; try exact I.
    cbn [omap bind]. destruct (moves u lo ev); [|exact I]. split; [|reflexivity]. apply D_app; [exact H|now apply D_body].
  - cbn [bind]. destruct (moves u lo ev); [|exact I]. split; [exact D_nil|reflexivity].
Qed.
Lemma D_events o l : Forall clean_event l -> forall u, Dt (t_events o u l) (t_events (VisModel.reset o visualize_use_color) u l).
Proof.
  induction 1 as [|ev l Hc _ IH]; intros u; [split; [exact D_nil|reflexivity]|]. cbn [t_events].
  pose proof (D_event o u ev Hc) as H.
  destruct (t_event o u ev) as [[t u1]| |], (t_event (VisModel.reset o visualize_use_color) u ev) as [[t' u1']| |]; try contradiction; try exact I.
  destruct H as (Ht & <-). cbn [bind fst snd]. specialize (IH u1).
  destruct (t_events o u1 l) as [[v u2]| |], (t_events (VisModel.reset o visualize_use_color) u1 l) as [[v' u2']| |]; try contradiction; try exact I.
  destruct IH as (Hv & <-). cbn [omap bind fst snd]. split; [now apply D_app|reflexivity].
Qed.
Lemma D_trace o l : Forall clean_event l -> Do (t_trace o l) (t_trace (VisModel.reset o visualize_use_color) l).
Proof.
  intros H. unfold t_trace. rewrite max_reset. destruct (_ <? _)%nat; [exact I|].
  pose proof (D_events o l H (0%nat, input_anchor, [])) as HE.
  destruct (t_events o _ l) as [[t u]| |], (t_events (VisModel.reset o visualize_use_color) _ l) as [[t' u']| |]; try contradiction; try exact I.
  cbn [omap bind fst Do]. apply D_app; [apply HE|now apply D_str].
Qed.
End Names.

Lemma trace_output_eq tn e inp opts l : trace_output tn e inp opts l = t_trace tn e inp opts l.
Proof.
  unfold trace_output, appended_outcome. rewrite (trace_text tn e inp append_put opts (shared_unit opts)).
  destruct (t_trace _ _ _ _ _); [|reflexivity|reflexivity]. cbn [omap bind]. now rewrite append_str.
Qed.
