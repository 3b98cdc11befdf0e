(** Proofs about symbol tables. *)
From Verif Require Import Prelude CodecModel LitModel LitSpec LitProofs ClassModel ClassSpec ClassProofs
  TextModel TextSpec TextProofs SymModel SymSpec.
Open Scope N_scope.

(** ** Sets of plain literals, with several values for the same text *)

Lemma plain_classes ls : (forall l, In l ls -> l_class l = None) -> class_list ls = [].
Proof.
  induction ls as [|l ls IH]; intros H; cbn; [reflexivity|]. rewrite (H l (or_introl eq_refl)).
  apply IH. intros l' Hl'. apply H. now right.
Qed.

Lemma plain_set_spec fold E ls inp pos :
  (forall l, In l ls -> l_class l = None /\ no_eof E (l_units l)) -> no_eof E inp -> (pos <= length inp)%nat ->
  (exists s v, starts_with s (skipn pos inp) /\ last_val ls s None = Some v /\
     (forall l, In l ls -> starts_with (l_units l) (skipn pos inp) -> (length (l_units l) <= length s)%nat) /\
     set_try fold NoFold E ls inp pos = Match (Some v) (pos + length s)%nat) \/
  ((forall l, In l ls -> ~ starts_with (l_units l) (skipn pos inp)) /\
   set_try fold NoFold E ls inp pos = Match None pos).
Proof.
  intros Hpl Hin Hp. unfold set_try. cbn zeta.
  destruct (build_spec ls empty_trie 0 empty_wf) as (W & Hval & _ & _ & A & I). fold (build_trie ls) in *.
  assert (Htr : forall x f g, In (x, f, g) (transition (build_trie ls)) -> x <> leof E).
  { intros x f g H. destruct (I _ _ _ H) as [[]|(l & Hl & Hx)]. intros ->. now apply (proj2 (Hpl l Hl)). }
  assert (H0 : (0 < node_count (build_trie ls))%nat) by (destruct W as (_ & -> & _); lia).
  destruct (try_match_good E (build_trie ls) (class_list ls) inp W Hin Htr fold (node_count (build_trie ls)) 0 pos H0 ltac:(lia) Hp)
    as (v & e & Ev & Hg).
  rewrite Ev.
  assert (Hk : class_list ls = []) by (apply plain_classes; intros l Hl; apply (Hpl l Hl)).
  assert (Hacc : forall s m rest, walk (build_trie ls) 0 s = Some m ->
            accept (build_trie ls) (class_list ls) m rest = last_val ls s None).
  { intros s m rest Hw. specialize (Hval s). unfold val in Hval. rewrite Hw in Hval. unfold accept. rewrite Hk.
    assert (Hempty : match walk empty_trie 0 s with Some n => nth n (node_value empty_trie) None | None => None end = None)
      by (destruct s as [|c [|]]; cbn; auto; unfold child; cbn; auto).
    rewrite Hempty in Hval. rewrite Hval. destruct (last_val ls s None); [|reflexivity].
    destruct (nth m (node_char_class _) None) as [k|]; [|reflexivity]. now destruct k. }
  assert (Hlit : forall l, In l ls -> exists m, walk (build_trie ls) 0 (l_units l) = Some m).
  { intros l Hl. destruct (walk (build_trie ls) 0 (l_units l)) as [m|] eqn:Em; [eauto|exfalso; now apply (A l Hl)]. }
  assert (Hlv : forall l, In l ls -> last_val ls (l_units l) None <> None).
  { intros l Hl Hn. now apply (last_val_none _ _ _ Hn l Hl). }
  destruct v as [x|]; cbn [good] in Hg.
  - destruct Hg as (s & m & Hw & Hs & -> & Ha & Hmax). left. exists s, x.
    split; [exact Hs|]. split; [rewrite <- Ha; symmetry; now apply Hacc|]. split; [|reflexivity].
    intros l Hl Hsl. destruct (Hlit l Hl) as (m' & Hm'). eapply Hmax; eauto. rewrite (Hacc _ _ _ Hm'). now apply Hlv.
  - destruct Hg as [-> Hnone]. right. split; [|reflexivity]. intros l Hl Hsl.
    destruct (Hlit l Hl) as (m & Hm). specialize (Hnone _ _ Hm Hsl). rewrite (Hacc _ _ _ Hm) in Hnone. now apply (Hlv l Hl).
Qed.

(** ** Tables *)
Section Table.
Context {V : Type}.
Implicit Types (es : list (list N * V)) (t : table V).

Lemma indexed_in es : forall i l, In l (indexed i es) -> l_class l = None /\ In (l_units l) (map fst es).
Proof.
  induction es as [|(s, v) es IH]; intros i l; cbn [indexed map]; [easy|].
  intros [<-|H]; [split; [reflexivity|now left]|]. destruct (IH _ _ H). split; [assumption|now right].
Qed.
Lemma indexed_names es : forall i s, In s (map fst es) -> exists l, In l (indexed i es) /\ l_units l = s.
Proof.
  induction es as [|(s', v) es IH]; intros i s; cbn [indexed map]; [easy|].
  intros [<-|H]; [eexists; split; [now left|reflexivity]|]. destruct (IH (i + 1) s H) as (l & H1 & H2).
  exists l. split; [now right|exact H2].
Qed.

Lemma last_indexed s : forall es i d,
  (exists pre v post, es = pre ++ (s, v) :: post /\ ~ In s (map fst post) /\
     last_val (indexed i es) s d = Some (i + N.of_nat (length pre))) \/
  (unmapped es s /\ last_val (indexed i es) s d = d).
Proof.
  induction es as [|(s', v) es IH]; intros i d.
  - right. split; [easy|reflexivity].
  - unfold last_val. cbn [indexed fold_left l_units l_value].
    destruct (list_eq_dec N.eq_dec s' s) as [->|Hne].
    + destruct (IH (i + 1) (Some i)) as [(pre & v' & post & -> & Hn & Hl)|(Hn & Hl)]; unfold last_val in Hl; rewrite Hl.
      * left. exists ((s, v) :: pre), v', post. split; [reflexivity|]. split; [exact Hn|]. cbn [length]. f_equal. lia.
      * left. exists [], v, es. split; [reflexivity|]. split; [exact Hn|]. cbn. f_equal. lia.
    + destruct (IH (i + 1) d) as [(pre & v' & post & -> & Hn & Hl)|(Hn & Hl)]; unfold last_val in Hl; rewrite Hl.
      * left. exists ((s', v) :: pre), v', post. split; [reflexivity|]. split; [exact Hn|]. cbn [length]. f_equal. lia.
      * right. split; [|reflexivity]. intros [H|H]; cbn in H; [congruence|]. now apply Hn.
Qed.

Lemma mapped_fun es s v v' : mapped es s v -> mapped es s v' -> v = v'.
Proof.
  intros (pre & post & -> & Hn) (pre' & post' & He & Hn').
  revert pre' He. induction pre as [|x pre IH]; intros [|y pre'] He; cbn in He; injection He as H1 H2.
  - now inversion H1.
  - exfalso. apply Hn. rewrite H2, map_app. apply in_or_app. right. now left.
  - exfalso. apply Hn'. rewrite <- H2, map_app. apply in_or_app. right. now left.
  - eapply IH; eauto.
Qed.

Lemma mapped_in es s : In s (map fst es) -> exists v, mapped es s v.
Proof.
  intros H. destruct (last_indexed s es 0 None) as [(pre & v & post & He & Hn & _)|(Hn & _)].
  - exists v, pre, post. auto.
  - contradiction.
Qed.
Lemma mapped_names es s v : mapped es s v -> In s (map fst es).
Proof. intros (pre & post & -> & _). rewrite map_app. apply in_or_app. right. now left. Qed.

Lemma mapped_distinct es s v : NoDup (map fst es) -> (mapped es s v <-> In (s, v) es).
Proof.
  intros Hd. split.
  - intros (pre & post & -> & _). apply in_or_app. right. now left.
  - intros H. apply in_split in H as (pre & post & ->). exists pre, post. split; [reflexivity|].
    rewrite map_app in Hd. cbn in Hd. apply NoDup_remove_2 in Hd. intros Hi. apply Hd. apply in_or_app. now right.
Qed.

Lemma seen_firstn fold f n (l : list N) : folded fold f (firstn n l) = firstn n (folded fold f l).
Proof. destruct f; cbn; try reflexivity; apply eq_sym, firstn_map. Qed.
Lemma folded_length fold f l : length (folded fold f l) = length l.
Proof. destruct f; cbn; try reflexivity; apply map_length. Qed.
Lemma folded_eof fold E f l : foldable fold E f -> no_eof E l -> no_eof E (folded fold f l).
Proof.
  intros Hf H. destruct f; cbn in *; [exact H|exact (seen_eof E AsciiFold l H)|].
  destruct Hf as (-> & Hf). intros Hi. apply in_map_iff in Hi as (c & Hc & Hi). apply H.
  unfold simple_case_fold, cp_is_valid in Hc. destruct (N.leb_spec c 0x10FFFF) as [Hle|Hgt].
  - destruct (Hf c Hle) as (Hb & _). cbn in Hc. lia.
  - now subst c.
Qed.
Lemma fold_idem fold E : foldable fold E UnicodeFold ->
  forall c, simple_case_fold fold (simple_case_fold fold c) = simple_case_fold fold c.
Proof.
  intros (_ & Hf) c. unfold simple_case_fold, cp_is_valid.
  destruct (N.leb_spec c 0x10FFFF) as [Hle|Hgt].
  - destruct (Hf c Hle) as (Hb & Hi). destruct (N.leb_spec (fold c) 0x10FFFF); [exact Hi|lia].
  - destruct (N.leb_spec c 0x10FFFF); [lia|reflexivity].
Qed.

Lemma table_set fold E t inp pos : usable fold E t ->
  set_try fold (tb_fold t) E (indexed 0 (tb_entries t)) inp pos
  = set_try fold NoFold E (indexed 0 (tb_entries t)) (folded fold (tb_fold t) inp) pos.
Proof.
  intros (Hf & _). destruct (tb_fold t); cbn; [reflexivity|apply LitProofs.ascii_set|].
  pose proof (fold_idem fold E Hf) as Hid. destruct Hf as (-> & _). now apply utf32_set.
Qed.

Lemma table_try_spec fold E t rest : usable fold E t -> no_eof E rest ->
  let L := folded fold (tb_fold t) rest in
  (exists n v k, longest_symbol (tb_entries t) L n v /\ nth_error (tb_entries t) k = Some (firstn n L, v) /\
     table_try fold E t rest 0 = Found (Some k) n) \/
  (no_symbol (tb_entries t) L /\ table_try fold E t rest 0 = Found None 0).
Proof.
  intros Hu He L. unfold table_try. rewrite (table_set fold E t rest 0 Hu). fold L.
  destruct (plain_set_spec fold E (indexed 0 (tb_entries t)) L 0) as [(s & v & Hs & Hv & Hmax & ->)|(Hn & ->)].
  - intros l Hl. destruct (indexed_in _ _ _ Hl) as (Hc & Hin). split; [exact Hc|]. now apply (proj2 Hu).
  - apply folded_eof; [apply Hu|exact He].
  - lia.
  - left. cbn [skipn] in *. apply starts_with_firstn in Hs.
    destruct (last_indexed s (tb_entries t) 0 None) as [(pre & x & post & Hes & Hn & Hl)|(_ & Hl)]; [|congruence].
    assert (Hlen : (length s <= length L)%nat) by (rewrite <- Hs, firstn_length; lia).
    exists (length s), x, (length pre). split; [|split].
    + split; [exact Hlen|]. rewrite Hs. split; [now exists pre, post|].
      intros m (Hm1 & Hm2) Hin. destruct (indexed_names (tb_entries t) 0 _ Hin) as (l & Hil & Hlu).
      assert (Hp : starts_with (l_units l) L) by (rewrite Hlu; exists (skipn m L); now rewrite firstn_skipn).
      specialize (Hmax l Hil Hp). rewrite Hlu, firstn_length in Hmax. lia.
    + rewrite Hs, Hes. rewrite nth_error_app2 by lia. now rewrite Nat.sub_diag.
    + rewrite Hl in Hv. injection Hv as <-. cbn [option_map]. rewrite N.add_0_l, Nat2N.id. reflexivity.
  - right. split; [|reflexivity]. intros n Hin. destruct (indexed_names (tb_entries t) 0 _ Hin) as (l & Hil & Hlu).
    apply (Hn l Hil). rewrite Hlu. cbn [skipn]. exists (skipn n L). now rewrite firstn_skipn.
Qed.

Lemma key_nth t k x : nth_error (tb_entries t) k = Some x -> key_valid t (Some k) = true.
Proof. intros H. cbn. apply Nat.ltb_lt. apply nth_error_Some. congruence. Qed.
Lemma sym_value_nth t k s v n : nth_error (tb_entries t) k = Some (s, v) -> sym_value t (Some k) n = SymValue n v.
Proof. intros H. unfold sym_value, table_get. now rewrite H. Qed.

Lemma table_parse_spec fold E t lexeme : usable fold E t -> no_eof E lexeme ->
  let L := folded fold (tb_fold t) lexeme in
  (exists v k, mapped (tb_entries t) L v /\ nth_error (tb_entries t) k = Some (L, v) /\
     table_parse fold E t lexeme = Some (Some k)) \/
  (unmapped (tb_entries t) L /\ table_parse fold E t lexeme = Some None).
Proof.
  intros Hu He L. unfold table_parse.
  assert (HL : length L = length lexeme) by apply folded_length.
  pose proof (table_try_spec fold E t lexeme Hu He) as HH. cbv zeta in HH. fold L in HH. destruct HH as [(n & v & k & (Hn & Hm & Hmax) & Hk & ->)|(Hn & ->)].
  - rewrite (at_eof_spec E lexeme n He). destruct (Nat.leb_spec (length lexeme) n) as [Hle|Hlt].
    + left. rewrite firstn_all2 in * by lia. exists v, k. auto.
    + right. split; [|reflexivity]. assert (Hall : L = firstn (length L) L) by now rewrite firstn_all.
      rewrite Hall. apply Hmax. lia.
  - right. split; [|now destruct (at_eof E lexeme 0)].
    assert (Hall : L = firstn (length L) L) by now rewrite firstn_all. rewrite Hall. apply Hn.
Qed.

(** Looking up the text of a key. *)
Lemma lookup fold E t lexeme : usable fold E t -> no_eof E lexeme ->
  exists key, table_parse fold E t lexeme = Some key /\
    (forall v, table_get t key = Some v <-> mapped (tb_entries t) (folded fold (tb_fold t) lexeme) v) /\
    (key_valid t key = true <-> In (folded fold (tb_fold t) lexeme) (map fst (tb_entries t))).
Proof.
  intros Hu He. destruct (table_parse_spec fold E t lexeme Hu He) as [(v & k & Hm & Hk & ->)|(Hn & ->)].
  - exists (Some k). split; [reflexivity|]. split.
    + intros v'. cbn [table_get]. rewrite Hk. cbn. split.
      * now intros [= <-].
      * intros H. f_equal. exact (mapped_fun _ _ _ _ Hm H).
    + split; [intros _; now apply (mapped_names _ _ v)|intros _; now apply (key_nth t k _ Hk)].
  - exists None. split; [reflexivity|]. split.
    + intros v. cbn. split; [discriminate|]. intros H. apply mapped_names in H. contradiction.
    + cbn. split; [discriminate|contradiction].
Qed.

Lemma longest_fun es rest n v n' v' : longest_symbol es rest n v -> longest_symbol es rest n' v' -> n = n' /\ v = v'.
Proof.
  intros (Hn & Hm & Hx) (Hn' & Hm' & Hx').
  assert (n = n') as <-.
  { destruct (Nat.lt_trichotomy n n') as [H|[H|H]]; [exfalso|exact H|exfalso].
    - apply (Hx n' ltac:(lia)). now apply (mapped_names _ _ v').
    - apply (Hx' n ltac:(lia)). now apply (mapped_names _ _ v). }
  split; [reflexivity|]. exact (mapped_fun _ _ _ _ Hm Hm').
Qed.

Lemma longest_none es rest n v : longest_symbol es rest n v -> ~ no_symbol es rest.
Proof. intros (_ & H & _) Hn. apply mapped_names in H. exact (Hn _ H). Qed.

(** [dsl::symbol<table>]. *)
Lemma void_exact fold E t rest : usable fold E t -> no_eof E rest ->
  let L := folded fold (tb_fold t) rest in
  (forall n v, sym_void_try fold E t rest = SymValue n v <-> longest_symbol (tb_entries t) L n v) /\
  (sym_void_try fold E t rest = SymNo <-> no_symbol (tb_entries t) L) /\
  (forall n v, sym_void_parse fold E t rest = SymValue n v <-> longest_symbol (tb_entries t) L n v) /\
  (sym_void_parse fold E t rest = SymUnknown 0 0 <-> no_symbol (tb_entries t) L).
Proof.
  intros Hu He L. unfold sym_void_parse, sym_void_try.
  pose proof (table_try_spec fold E t rest Hu He) as HH. cbv zeta in HH. fold L in HH. destruct HH as [(n & v & k & Hlong & Hk & ->)|(Hn & ->)].
  - rewrite (key_nth t k _ Hk), (sym_value_nth t k _ v n Hk).
    assert (Hiff : forall n' v', @SymValue V n v = SymValue n' v' <-> longest_symbol (tb_entries t) L n' v').
    { intros n' v'. split; [now intros [= <- <-]|]. intros H. now destruct (longest_fun _ _ _ _ _ _ Hlong H) as (-> & ->). }
    split; [exact Hiff|]. split; [|split; [exact Hiff|]].
    + split; [discriminate|]. intros H. now apply longest_none in Hlong.
    + split; [discriminate|]. intros H. now apply longest_none in Hlong.
  - cbn [key_valid]. split; [|split; [|split]].
    + intros n v. split; [discriminate|]. intros H. now apply longest_none in H.
    + now split.
    + intros n v. split; [discriminate|]. intros H. now apply longest_none in H.
    + now split.
Qed.

(** [dsl::symbol<table>(token)]. *)
Lemma token_exact fold E t token rest : usable fold E t -> no_eof E rest -> token_ok token ->
  let sees n := folded fold (tb_fold t) (firstn n rest) in
  (forall n v, sym_token_try fold E t token rest = SymValue n v <->
     token rest = TYes n /\ mapped (tb_entries t) (sees n) v) /\
  (sym_token_try fold E t token rest = SymNo <->
     forall n, token rest = TYes n -> unmapped (tb_entries t) (sees n)) /\
  (forall n v, sym_token_parse fold E t token rest = SymValue n v <->
     token rest = TYes n /\ mapped (tb_entries t) (sees n) v) /\
  (forall b e, sym_token_parse fold E t token rest = SymUnknown b e <->
     b = 0%nat /\ token rest = TYes e /\ unmapped (tb_entries t) (sees e)) /\
  (sym_token_parse fold E t token rest = SymTokenError <-> token rest = TNo).
Proof.
  intros Hu He Ht sees. unfold sym_token_try, sym_token_parse.
  destruct (token rest) as [| |n] eqn:Htok.
  - exfalso. now apply (proj1 (Ht rest)).
  - repeat split; intros; try discriminate; try (destruct H; discriminate); try (destruct H as (_ & H & _); discriminate).
  - destruct (table_parse_spec fold E t (firstn n rest) Hu (eof_firstn E rest n He)) as [(v & k & Hm & Hk & ->)|(Hn & ->)].
    + rewrite (key_nth t k _ Hk), (sym_value_nth t k _ v n Hk).
      assert (Hiff : forall n' v', @SymValue V n v = SymValue n' v' <-> TYes n = TYes n' /\ mapped (tb_entries t) (sees n') v').
      { intros n' v'. split; [intros [= <- <-]; auto|]. intros ([= <-] & H). now rewrite (mapped_fun _ _ _ _ Hm H). }
      split; [exact Hiff|]. split; [|split; [exact Hiff|split]].
      * split; [discriminate|]. intros H. specialize (H n eq_refl). exfalso. apply H. now apply (mapped_names _ _ v).
      * intros b e. split; [discriminate|]. intros (_ & [= <-] & H). exfalso. apply H. now apply (mapped_names _ _ v).
      * split; discriminate.
    + cbn [key_valid].
      assert (Hiff : forall r n' v', r <> @SymValue V n' v' ->
                (r = @SymValue V n' v' <-> TYes n = TYes n' /\ mapped (tb_entries t) (sees n') v')).
      { intros r n' v' Hr. split; [congruence|]. intros ([= <-] & H). apply mapped_names in H. contradiction. }
      split; [intros; apply Hiff; discriminate|]. split; [|split; [intros; apply Hiff; discriminate|split]].
      * split; [|reflexivity]. intros _ n' [= <-]. exact Hn.
      * intros b e. split; [intros [= <- <-]; auto|]. now intros (-> & [= <-] & _).
      * split; discriminate.
Qed.

(** The optimisation for identifiers. *)
Lemma chars_stop E e l n m : Forall (fun u => u < lbound E) l ->
  chars E e l n -> no_char E e (skipn n l) -> chars E e l m -> (m <= n)%nat.
Proof.
  intros Hu H. revert Hu m. induction H as [l|l a b Hc Hr IH]; intros Hu m Hs Hm.
  - destruct Hm as [|l a b Ha Hb]; [lia|]. destruct (Hs _ Ha).
  - destruct Hm as [|l a' b' Ha Hb]; [lia|]. pose proof (a_char_fun E e e l a a' Hc Ha) as <-.
    rewrite skipn_add in Hs. specialize (IH (units_skipn E l a Hu) b' Hs Hb). lia.
Qed.
Lemma id_stop E lead trail l n m : Forall (fun u => u < lbound E) l ->
  id_at E lead trail l n -> id_text E lead trail l m -> (m <= n)%nat.
Proof.
  intros Hu ((a & b & Ha & Hb & ->) & Hs) (a' & b' & Ha' & Hb' & ->).
  pose proof (a_char_fun E lead lead l a a' Ha Ha') as <-. rewrite skipn_add in Hs.
  pose proof (chars_stop E trail _ _ _ (units_skipn E l a Hu) Hb Hs Hb'). lia.
Qed.

Lemma id_equal fold E t lead trail rest :
  usable fold E t -> text_units E rest -> sane lead -> sane trail ->
  (forall n, (n <= length rest)%nat -> In (folded fold (tb_fold t) (firstn n rest)) (map fst (tb_entries t)) -> id_text E lead trail rest n) ->
  sym_id_try fold E t (build lead) (build trail) rest
    = sym_token_try fold E t (pattern_try E (build lead) (build trail)) rest /\
  sym_id_parse fold E t (build lead) (build trail) rest
    = sym_token_parse fold E t (pattern_try E (build lead) (build trail)) rest.
Proof.
  intros Hu (Hru & Hre) Hl Ht Hid. unfold sym_id_try, sym_id_parse, sym_token_try, sym_token_parse.
  pose proof (folded_length fold (tb_fold t) rest) as HL.
  destruct (table_try_spec fold E t rest Hu Hre) as [(n & v & k & (Hn & Hm & Hmax) & Hk & ->)|(Hn & ->)].
  - rewrite (key_nth t k _ Hk), (sym_value_nth t k _ v n Hk). cbn [negb orb].
    rewrite <- seen_firstn in Hm, Hk.
    assert (Hidn : id_text E lead trail rest n) by (apply Hid; [lia|now apply (mapped_names _ _ v)]).
    destruct (class_try E (build trail) (skipn n rest)) as [m|] eqn:Hc.
    + apply (class_char E trail _ m (units_skipn E rest n Hru) Ht) in Hc.
      destruct (pattern_spec E lead trail rest Hl Ht Hru) as [(p & -> & Hp)|(-> & Hno)].
      * assert (Hnp : (n < p)%nat).
        { pose proof (id_stop E lead trail rest p n Hru Hp Hidn). assert (n <> p); [|lia].
          intros ->. exact (proj2 Hp _ Hc). }
        assert (Hpl : (p <= length rest)%nat) by exact (proj2 (id_at_len E lead trail rest p Hru Hp)).
        destruct (table_parse_spec fold E t (firstn p rest) Hu (eof_firstn E rest p Hre)) as [(v' & k' & Hm' & _)|(_ & ->)].
        -- exfalso. rewrite seen_firstn in Hm'. apply (Hmax p); [lia|]. now apply (mapped_names _ _ v').
        -- split; reflexivity.
      * exfalso. destruct Hidn as (a & b & Ha & _). exact (Hno _ Ha).
    + assert (Hno : no_char E trail (skipn n rest)) by (apply (class_none E trail _ (units_skipn E rest n Hru) Ht); exact Hc).
      assert (Hat : id_at E lead trail rest n) by (split; assumption).
      rewrite (proj2 (proj1 (pattern_exact E lead trail rest Hl Ht Hru) n) Hat).
      destruct (table_parse_spec fold E t (firstn n rest) Hu (eof_firstn E rest n Hre)) as [(v' & k' & Hm' & Hk' & ->)|(Hn' & _)].
      * rewrite (key_nth t k' _ Hk'), (sym_value_nth t k' _ v' n Hk'). rewrite (mapped_fun _ _ _ _ Hm Hm'). split; reflexivity.
      * exfalso. apply Hn'. now apply (mapped_names _ _ v).
  - cbn [key_valid negb orb]. destruct (pattern_spec E lead trail rest Hl Ht Hru) as [(p & -> & Hp)|(-> & Hno)]; [|split; reflexivity].
    destruct (table_parse_spec fold E t (firstn p rest) Hu (eof_firstn E rest p Hre)) as [(v' & k' & Hm' & _)|(_ & ->)].
    + exfalso. rewrite seen_firstn in Hm'. apply (Hn p). now apply (mapped_names _ _ v').
    + split; reflexivity.
Qed.

Lemma id_equal_plain fold E t lead trail rest :
  tb_fold t = NoFold -> (forall s, In s (map fst (tb_entries t)) -> text_units E s /\ id_text E lead trail s (length s)) ->
  text_units E rest -> sane lead -> sane trail ->
  sym_id_try fold E t (build lead) (build trail) rest
    = sym_token_try fold E t (pattern_try E (build lead) (build trail)) rest /\
  sym_id_parse fold E t (build lead) (build trail) rest
    = sym_token_parse fold E t (pattern_try E (build lead) (build trail)) rest.
Proof.
  intros Hf Hs Hr Hl Ht. apply id_equal; auto.
  - split; [rewrite Hf; exact I|]. intros s Hi. apply (Hs s Hi).
  - intros n Hn Hi. rewrite Hf in Hi. cbn in Hi. destruct (Hs _ Hi) as ((Hu & _) & Hid).
    rewrite firstn_length, Nat.min_l in Hid by lia. rewrite <- (firstn_skipn n rest). now apply id_text_app.
Qed.

(** Iteration. *)
Lemma table_walk_spec t : forall fuel i, (i <= table_size t)%nat -> (table_size t - i < fuel)%nat ->
  table_walk fuel t i = Some (skipn i (tb_entries t)).
Proof.
  induction fuel as [|fuel IH]; intros i Hi Hf; [lia|]. cbn [table_walk]. unfold it_end.
  destruct (Nat.eqb_spec i (table_size t)) as [->|Hne].
  - unfold table_size. now rewrite skipn_all.
  - unfold it_deref, it_increment. rewrite (proj2 (Nat.eqb_neq _ _) Hne).
    destruct (nth_error (tb_entries t) i) as [x|] eqn:Hx.
    + rewrite IH by lia. cbn [option_map]. f_equal.
      apply nth_error_split in Hx as (a & b & He & <-). rewrite He.
      change (x :: b) with ([x] ++ b) at 1. rewrite app_assoc.
      replace (S (length a)) with (length (a ++ [x])) by (rewrite app_length; cbn; lia).
      rewrite skipn_app, skipn_all, Nat.sub_diag. rewrite skipn_app, skipn_all, Nat.sub_diag. reflexivity.
    + exfalso. apply nth_error_None in Hx. unfold table_size in *. lia.
Qed.

Definition add_all (t : table V) (es : list (list N * V)) : table V :=
  fold_left (fun t e => table_map t (fst e) (snd e)) es t.
Lemma add_all_spec es : forall t, add_all t es = Table (tb_fold t) (tb_entries t ++ es).
Proof.
  induction es as [|(s, v) es IH]; intros t; cbn.
  - rewrite app_nil_r. now destruct t.
  - unfold add_all in IH. rewrite IH. cbn. now rewrite <- app_assoc.
Qed.
Lemma iterate_spec es : table_iterate (add_all table_empty es) = Some es.
Proof.
  unfold table_iterate. rewrite table_walk_spec.
  - rewrite add_all_spec. reflexivity.
  - unfold it_begin. lia.
  - unfold it_begin. lia.
Qed.
End Table.
