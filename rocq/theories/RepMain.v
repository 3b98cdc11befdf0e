(** The lemmas behind the property theorems about error reports. *)
From Coq Require Import String Ascii.
From Verif Require Import Prelude CodecModel CodecSpec CodecProofs LitModel ClassSpec TextSpec LocModel LocSpec LocProofs LocText LocAnn LocWf
  VisModel VisSpec VisProofs VisText VisShow VisInj VisMain RepModel RepSpec RepProofs RepText.
Close Scope string_scope.
Open Scope N_scope.

Definition end_of (r : range_end) (m : nat) : nat := match r with EndAt p => p | Size n => m + n end.

Lemma beyond_iff E inp lb le ne b w end_ a : wanted b end_ le ne w -> (b <= le)%nat -> (le <= ne)%nat ->
  annotates E inp lb le ne b w a -> (an_truncated a = true <-> (ne < end_)%nat) ->
  (an_truncated a && negb (an_newline a) = true <-> le = ne /\ (ne < end_)%nat).
Proof.
  intros Hw Hb Hl (r & e & x & Hr & _ & _ & _ & _ & _ & Hc & _) Ht.
  destruct Hr as (Hr1 & _ & Hr2). rewrite andb_true_iff, Ht, negb_true_iff. split.
  - intros (H1 & H2). split; [|exact H1]. destruct Hc as [(H3 & _)|(_ & _ & _ & H3)]; [|congruence].
    destruct Hw as [(H4 & ->)|[(-> & _)|(-> & _)]]; lia.
  - intros (H1 & H2). split; [exact H2|]. destruct Hc as [(_ & _ & _ & H3)|(H3 & _)]; [exact H3|]. lia.
Qed.

Lemma text_found u E inp pos l r : text_units E inp -> (pos <= length inp)%nat ->
  get_input_location E (policy u) inp pos input_anchor = Loc l -> (lo_column_begin l <= end_of r (lo_column_begin l))%nat ->
  exists a, get_annotation E (policy u) inp l r = Some a /\
    text_pieces u (InText E) inp pos (lo_column_begin l) (end_of r (lo_column_begin l))
      (an_before a) (an_annotated a) (an_after a) (an_truncated a && negb (an_newline a)).
Proof.
  intros Hi Hp Hl He.
  destruct (text_annotation u E inp Hi pos l _ Hp Hl He) as (le & ne & w & a & Ha & Hline & Hcl & Hw & Han & Ht).
  exists a. split.
  { destruct r as [p|n]; cbn [get_annotation end_of] in *; [exact Ha|]. now rewrite (text_annotation_size u E inp Hi pos l n Hp Hl). }
  destruct (text_location u E inp Hi pos Hp) as (l' & Hl' & _ & Hlb & _ & Hlm & Hrd).
  rewrite Hl in Hl'. injection Hl' as <-.
  pose proof (beyond_iff _ _ _ _ _ _ _ _ _ Hw Hcl (proj2 (proj1 Hline)) Han Ht) as Hbey.
  destruct Han as (r' & x & y & Hr & Hb & Hd & Hf & _ & _ & Hcase & _).
  exists (lo_line_begin l), le, ne, w, r', x. cbn [unit_encoding].
  split; [exact Hlb|]. split; [exact Hrd|]. split; [exact Hlm|]. split; [exact Hline|]. split; [exact Hcl|].
  split; [exact Hw|]. split; [exact Hr|]. split; [exact Hb|]. split; [exact Hd|]. split; [|exact Hbey].
  destruct Hcase as [(H1 & -> & -> & _)|(H1 & -> & -> & _)]; [left|right]; auto.
Qed.
Lemma byte_found inp pos l r : text_units Default inp -> (pos <= length inp)%nat ->
  get_input_location Default (CBytes 16) inp pos input_anchor = Loc l -> (lo_column_begin l <= end_of r (lo_column_begin l))%nat ->
  exists a, get_annotation Default (CBytes 16) inp l r = Some a /\
    byte_pieces inp pos (lo_column_begin l) (end_of r (lo_column_begin l))
      (an_before a) (an_annotated a) (an_after a) (an_truncated a && negb (an_newline a)).
Proof.
  intros Hi Hp Hl He.
  destruct (byte_annotation Default inp 16 pos l _ Hi ltac:(lia) Hp Hl He) as (le & ne & w & a & Ha & Hline & Hle & Hcl & Hw & Han & Ht).
  exists a. split.
  { destruct r as [p|n]; cbn [get_annotation end_of] in *; [exact Ha|]. now rewrite (byte_annotation_size Default inp 16 pos l n Hi ltac:(lia) Hp Hl). }
  rewrite (byte_location Default inp 16 Hi ltac:(lia) pos Hp) in Hl. injection Hl as <-. cbn [lo_line_begin lo_column_begin] in *.
  pose proof (beyond_iff _ _ _ _ _ _ _ _ _ Hw Hcl ltac:(lia) Han Ht) as Hbey.
  destruct Han as (r' & x & y & Hr & Hb & Hd & Hf & _ & _ & Hcase & _).
  assert (r' = w) as ->.
  { destruct Hr as (H1 & H2 & _). destruct (Nat.eq_dec w r') as [E|Hn]; [auto|].
    destruct (H2 w ltac:(lia)) as (c & _ & []). }
  exists (pos / 16 * 16)%nat, le, ne, w, x.
  split; [reflexivity|]. split; [reflexivity|]. split; [exact Hline|]. split; [exact Hle|]. split; [exact Hcl|].
  split; [exact Hw|]. split; [exact Hb|]. split; [exact Hd|]. split; [|exact Hbey].
  destruct Hcase as [(H1 & -> & -> & _)|(H1 & -> & -> & _)]; [left|right]; auto.
Qed.

(** ** An annotation *)
Lemma shown_eq e o inp r : shown e o inp r = t_lexeme (lexemes_of e) (units_in inp r) (reset o visualize_use_color).
Proof. unfold shown. rewrite lexeme_output_eq. apply displayed_lexeme. Qed.
Lemma bar_reset o : bar (reset o visualize_use_color) = bar o.
Proof. unfold bar. now rewrite reset_unicode. Qed.
Lemma snippet_reset al o nr b a t k bey m r1 r2 :
  snippet al (reset o visualize_use_color) nr b a t k bey m r1 r2 -> snippet al o nr b a t k bey m r1 r2.
Proof. unfold snippet, left_part. now rewrite bar_reset. Qed.

Lemma annotation_rows e c inp o k l r line m t : lo_line_nr l < 2 ^ 32 ->
  get_annotation (unit_encoding e) c inp l r = Some line ->
  t_annotation e c inp (reset o visualize_use_color) k l r m = Done t ->
  exists row1 row2, t = lines [row1; row2] /\
    snippet (lo_line_nr l <? 10000) o (lo_line_nr l) (shown e o inp (an_before line))
      (shown e o inp (an_annotated line)) (shown e o inp (an_after line))
      k (an_truncated line && negb (an_newline line)) m row1 row2.
Proof.
  intros Hn Hg H. destruct (plain_annotation _ _ _ _ _ _ _ _ _ _ (reset_color o) Hn Hg H) as (r1 & r2 & Ht & Hs).
  exists r1, r2. split; [exact Ht|]. rewrite !shown_eq. now apply snippet_reset.
Qed.

Lemma as_unsigned_lt n : as_unsigned n < 2 ^ 32.
Proof. unfold as_unsigned. apply N.mod_lt. discriminate. Qed.
Lemma newlines_le l : (newlines l <= length l)%nat.
Proof. unfold newlines. induction l as [|c l IH]; [auto|]. cbn [filter length]. destruct (c =? LF); cbn [length]; lia. Qed.

Lemma text_annotation_shown u E inp pos l r o k m t : text_units E inp -> (pos <= length inp)%nat ->
  N.of_nat (length inp) + 1 < 2 ^ 32 -> clean m ->
  get_input_location E (policy u) inp pos input_anchor = Loc l -> (lo_column_begin l <= end_of r (lo_column_begin l))%nat ->
  annotation_output (InText E) (policy u) inp o k l r m = Done t ->
  exists b a x beyond row1 row2,
    displayed false t = lines [row1; row2] /\
    text_pieces u (InText E) inp pos (lo_column_begin l) (end_of r (lo_column_begin l)) b a x beyond /\
    snippet (N.of_nat (line_of (InText E) inp pos) <? 10000) o (N.of_nat (line_of (InText E) inp pos))
      (shown (InText E) o inp b) (shown (InText E) o inp a) (shown (InText E) o inp x) k beyond m row1 row2.
Proof.
  intros Hi Hp Hlen Hm Hl He H. rewrite annotation_output_eq in H.
  destruct (text_found u E inp pos l r Hi Hp Hl He) as (line & Hg & Hpc).
  pose proof (D_annotation (InText E) (policy u) inp o k l r m m (D_clean m Hm)) as HD. rewrite H in HD.
  destruct (t_annotation (InText E) (policy u) inp (reset o visualize_use_color) k l r m) as [t'| |] eqn:Et; try contradiction.
  cbn [Do] in HD. rewrite (D_displayed _ _ HD).
  destruct (text_location u E inp Hi pos Hp) as (l' & Hl' & Hnr & _). rewrite Hl in Hl'. injection Hl' as <-.
  assert (Hnr' : lo_line_nr l = N.of_nat (line_of (InText E) inp pos)).
  { rewrite Hnr. unfold as_unsigned. cbn [line_of]. apply N.mod_small.
    pose proof (newlines_le (firstn pos inp)). rewrite firstn_length in *. lia. }
  destruct (annotation_rows (InText E) (policy u) inp o k l r line m t') as (r1 & r2 & Ht & Hs);
    [rewrite Hnr; apply as_unsigned_lt|exact Hg|exact Et|].
  rewrite Hnr' in Hs. do 4 eexists. exists r1, r2. split; [exact Ht|]. split; [exact Hpc|exact Hs].
Qed.

(** ** A report *)
Definition counted (e : input_encoding) (inp : list N) (pos : nat) (l : location) : Prop :=
  get_input_location (unit_encoding e) (default_counting e) inp pos input_anchor = Loc l.
Lemma counted_line e inp pos l : text_units (unit_encoding e) inp -> (pos <= length inp)%nat ->
  N.of_nat (length inp) + 1 < 2 ^ 32 -> counted e inp pos l ->
  lo_line_nr l = N.of_nat (line_of e inp pos) /\ lo_line_nr l < 2 ^ 32 /\ (lo_column_begin l <= pos)%nat /\ (lo_line_begin l <= lo_column_begin l)%nat.
Proof.
  intros Hi Hp Hlen Hl. destruct e as [E|]; cbn [unit_encoding] in Hi; unfold counted in Hl; cbn [unit_encoding default_counting] in Hl.
  - destruct (text_location PerUnit E inp Hi pos Hp) as (l' & Hl' & Hnr & _ & _ & Hc & _).
    cbn [policy] in Hl'. rewrite Hl in Hl'. injection Hl' as <-. rewrite Hnr. split; [|split; [apply as_unsigned_lt|lia]].
    unfold as_unsigned. cbn [line_of]. apply N.mod_small.
    pose proof (newlines_le (firstn pos inp)). rewrite firstn_length in *. lia.
  - rewrite (byte_location Default inp 16 Hi ltac:(lia) pos Hp) in Hl. injection Hl as <-. cbn [lo_line_nr lo_column_begin lo_line_begin].
    split; [|split; [apply as_unsigned_lt|split; [lia|]]].
    + unfold as_unsigned, line_of. apply N.mod_small. assert (pos / 16 <= pos)%nat by (apply Nat.div_le_upper_bound; lia). lia.
    + change (pos / 16 * 16 <= pos)%nat. rewrite Nat.mul_comm. apply Nat.mul_div_le. lia.
Qed.
Lemma counted_exists e inp pos : text_units (unit_encoding e) inp -> (pos <= length inp)%nat -> exists l, counted e inp pos l.
Proof.
  intros Hi Hp. destruct e as [E|]; unfold counted; cbn [unit_encoding default_counting] in *.
  - destruct (text_location PerUnit E inp Hi pos Hp) as (l' & Hl' & _). now exists l'.
  - rewrite (byte_location Default inp 16 Hi ltac:(lia) pos Hp). eauto.
Qed.
Lemma found e inp pos l r : text_units (unit_encoding e) inp -> (pos <= length inp)%nat ->
  counted e inp pos l -> (lo_column_begin l <= end_of r (lo_column_begin l))%nat ->
  exists a, get_annotation (unit_encoding e) (default_counting e) inp l r = Some a /\
    pieces e inp pos (lo_column_begin l) (end_of r (lo_column_begin l))
      (an_before a) (an_annotated a) (an_after a) (an_truncated a && negb (an_newline a)).
Proof.
  intros Hi Hp Hl He. destruct e as [E|]; [exact (text_found PerUnit E inp pos l r Hi Hp Hl He)|exact (byte_found inp pos l r Hi Hp Hl He)].
Qed.
Lemma rows_of e inp pos l r o k m t : text_units (unit_encoding e) inp -> (pos <= length inp)%nat ->
  N.of_nat (length inp) + 1 < 2 ^ 32 -> counted e inp pos l ->
  (lo_column_begin l <= end_of r (lo_column_begin l))%nat ->
  t_annotation e (default_counting e) inp (reset o visualize_use_color) k l r m = Done t ->
  exists rows, t = lines rows /\ annotated_rows e o inp pos (end_of r) k m rows.
Proof.
  intros Hi Hp Hlen Hl He H. destruct (found e inp pos l r Hi Hp Hl He) as (line & Hg & Hpc).
  destruct (counted_line e inp pos l Hi Hp Hlen Hl) as (Hnr & Hlt & _).
  destruct (annotation_rows _ _ _ _ _ _ _ _ _ _ Hlt Hg H) as (r1 & r2 & Ht & Hs).
  exists [r1; r2]. split; [exact Ht|]. rewrite Hnr in Hs.
  exists (lo_column_begin l). do 4 eexists. exists r1, r2. split; [reflexivity|]. split; [exact Hpc|exact Hs].
Qed.
Lemma lines_app a b : lines (a ++ b) = lines a ++ lines b.
Proof. unfold lines. now rewrite map_app, concat_app. Qed.
Lemma empty_line o : t_empty (reset o visualize_use_color) = lines [empty_row o].
Proof. unfold t_empty, lines, empty_row. rewrite column_reset. cbn [map concat]. rewrite app_nil_r, <- app_assoc. reflexivity. Qed.

Lemma Done_eq (x y : list N) : Done x = Done y -> x = y.
Proof. now injection 1. Qed.

Lemma error_shown e inp err o path t : text_units (unit_encoding e) inp -> error_in inp err ->
  N.of_nat (length inp) + 1 < 2 ^ 32 -> clean_error err -> match path with Some p => clean p | None => True end ->
  error_output e inp err o path = Done t -> report e o inp err path (displayed false t).
Proof.
  intros Hi (Hp & Hend) Hlen Hc Hpath H. rewrite error_output_eq in H.
  pose proof (D_error e inp err o path Hc Hpath) as HD. rewrite H in HD.
  destruct (t_error e inp err (reset o visualize_use_color) path) as [t'| |] eqn:Et; try contradiction.
  cbn [Do] in HD. rewrite (D_displayed _ _ HD). clear H HD t.
  destruct (counted_exists e inp (er_context err) Hi ltac:(lia)) as (cl & Hcl).
  destruct (counted_exists e inp (er_position err) Hi ltac:(lia)) as (loc & Hloc).
  destruct (counted_line e inp (er_context err) cl Hi ltac:(lia) Hlen Hcl) as (Hn1 & _ & Hb1 & Hb1').
  destruct (counted_line e inp (er_position err) loc Hi ltac:(lia) Hlen Hloc) as (Hn2 & _ & Hb2 & Hb2').
  unfold t_error in Et. cbv zeta in Et. unfold counted in Hcl. rewrite Hcl in Et. cbn [located bind] in Et.
  rewrite (from_anchor (unit_encoding e) (default_counting e) inp Hi (er_context err) (er_position err) cl) in Et;
    [|destruct e; cbn; lia|lia|lia|exact Hcl|lia].
  unfold counted in Hloc. rewrite Hloc in Et. cbn [located bind] in Et.
  destruct (t_context e inp (reset o visualize_use_color) cl loc (er_context err)) as [cx| |] eqn:Ex; [|discriminate|discriminate].
  cbn [bind] in Et. rewrite reset_reset in Et.
  destruct (t_annotation e (default_counting e) inp (reset o visualize_use_color) Primary loc (range_of (er_kind err))
              (t_error_message e (reset o visualize_use_color) (er_kind err))) as [a| |] eqn:Ea; [|discriminate|discriminate].
  cbn [omap bind] in Et. apply Done_eq in Et. subst t'.
  apply (rows_of e inp (er_position err)) in Ea; [|exact Hi|lia|exact Hlen|exact Hloc|
    clear -Hend Hb2; destruct (er_kind err); cbn [range_of end_of]; lia].
  destruct Ea as (rows & -> & Hrows).
  assert (HX : exists ctx, cx = lines ctx /\ context_rows e o inp err ctx).
  { unfold t_context in Ex. rewrite Hn1, Hn2 in Ex.
    destruct (N.eqb_spec (N.of_nat (line_of e inp (er_position err))) (N.of_nat (line_of e inp (er_context err)))) as [E|E].
    - injection Ex as <-. exists []. split; [reflexivity|]. left. split; [lia|reflexivity].
    - cbn [negb] in Ex.
      destruct (t_annotation _ _ _ _ Secondary _ _ _) as [ca| |] eqn:Eca; [|discriminate|discriminate].
      cbn [omap bind] in Ex. apply Done_eq in Ex. subst cx.
      apply (rows_of e inp (er_context err)) in Eca; [|exact Hi|lia|exact Hlen|exact Hcl|cbn [end_of]; lia].
      destruct Eca as (crows & -> & Hcr). exists (crows ++ [empty_row o]).
      split; [now rewrite empty_line, lines_app|]. right. split; [lia|]. exists crows. split; [reflexivity|exact Hcr]. }
  destruct HX as (ctx & -> & Hctx).
  exists ctx, rows. split; [|split; [exact Hctx|]].
  - rewrite !lines_app, <- empty_line. unfold t_message, t_path, t_kind. rewrite !(no_color _ (reset_color o)).
    assert (HP : (match path with Some p => [] ++ p ++ [] ++ [0x0A] | None => [] end) =
                 lines (match path with Some p => [p] | None => [] end)).
    { destruct path; [|reflexivity]. unfold lines. cbn [map concat app]. now rewrite app_nil_r. }
    rewrite HP. unfold headline. replace (lines [str "error: while parsing " ++ er_production err])
      with (([] ++ str "error: ") ++ [] ++ (str "while parsing " ++ er_production err) ++ [0x0A]).
    + generalize (t_empty (reset o visualize_use_color)) (str "error: ") (str "while parsing "). intros.
      cbn [app]. rewrite <- ?app_assoc. reflexivity.
    + unfold lines. cbn [map concat]. rewrite app_nil_r. reflexivity.
  - replace (error_message e o (er_kind err)) with (t_error_message e (reset o visualize_use_color) (er_kind err)).
    + destruct Hrows as (m & Hr). exists m. destruct (er_kind err); exact Hr.
    + destruct (er_kind err); cbn [t_error_message error_message]; rewrite ?lexeme_output_eq, ?displayed_lexeme; reflexivity.
Qed.
