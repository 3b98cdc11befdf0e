(** Proofs about identifiers, until, newline and delimited. *)
From Verif Require Import Prelude CodecModel CodecSpec CodecProofs SwarModel SwarSpec LitModel
  LitSpec LitProofs ClassModel ClassSpec ClassProofs TextModel TextSpec.
Open Scope N_scope.

(** ** Reading a character looks at no more than its own units *)

Lemma parse_app e l r c n : (n <= length l)%nat ->
  parse_code_point e (l ++ r) = CpResult c success n <-> parse_code_point e l = CpResult c success n.
Proof.
  destruct l as [|a [|b [|x [|d l]]]]; destruct e;
    cbn [app length]; intros Hn; unfold parse_code_point; cbn [peek tl];
    repeat match goal with
    | |- context [if ?b then _ else _] => destruct b eqn:?
    end; (split; intros HH; try exact HH; try discriminate HH; try (injection HH; intros; lia)).
  all: exfalso; vm_compute in *; congruence.
Qed.

Lemma reads_app E l r c n : (n <= length l)%nat -> reads E (l ++ r) c n <-> reads E l c n.
Proof.
  intros Hn. destruct E as [|e]; cbn.
  - split.
    + intros (-> & r' & H & Hc). split; [reflexivity|]. destruct l as [|x l]; cbn in Hn; [lia|].
      cbn in H. injection H as -> _. eauto.
    + intros (-> & r' & -> & Hc). split; [reflexivity|]. exists (r' ++ r). split; [reflexivity|exact Hc].
  - apply parse_app. exact Hn.
Qed.

Lemma reads_pos E l c n : Forall (fun u => u < lbound E) l -> reads E l c n ->
  (1 <= n <= length l)%nat.
Proof.
  intros Hu H. destruct E as [|e]; cbn in H.
  - destruct H as (-> & r & -> & _). cbn. lia.
  - clear Hu. destruct l as [|a [|b [|x [|d l]]]]; destruct e;
      unfold parse_code_point in H; cbn [peek tl length] in *;
      repeat match type of H with
      | context [if ?b then _ else _] => destruct b eqn:?
      end; try discriminate H; try (injection H; intros; lia).
    all: exfalso; vm_compute in *; congruence.
Qed.

Lemma a_char_pos E e l n : Forall (fun u => u < lbound E) l -> a_char E e l n -> (1 <= n <= length l)%nat.
Proof. intros Hu (c & H & _). exact (reads_pos E l c n Hu H). Qed.

Lemma a_char_app E e l r n : (n <= length l)%nat -> a_char E e (l ++ r) n <-> a_char E e l n.
Proof. intros Hn. unfold a_char. split; intros (c & H & D); exists c; (split; [|exact D]); apply (reads_app E l r c n Hn); exact H. Qed.

Lemma a_char_fun E e e' l n n' : a_char E e l n -> a_char E e' l n' -> n = n'.
Proof. intros (c & H & _) (c' & H' & _). exact (proj2 (reads_fun E l c n c' n' H H')). Qed.

Lemma class_char E e l n : Forall (fun u => u < lbound E) l -> sane e ->
  class_try E (build e) l = Some n <-> a_char E e l n.
Proof. intros Hu Hs. exact (class_matches E e l n Hu Hs). Qed.

Lemma class_none E e l : Forall (fun u => u < lbound E) l -> sane e ->
  class_try E (build e) l = None <-> no_char E e l.
Proof.
  intros Hu Hs. split.
  - intros H n Hn. apply (class_char E e l n Hu Hs) in Hn. congruence.
  - intros H. destruct (class_try E (build e) l) as [n|] eqn:Hc; [|reflexivity].
    apply (class_char E e l n Hu Hs) in Hc. destruct (H n Hc).
Qed.

Lemma units_skipn E l k : Forall (fun u => u < lbound E) l -> Forall (fun u => u < lbound E) (skipn k l).
Proof. intros H. rewrite <- (firstn_skipn k l) in H. apply Forall_app in H. tauto. Qed.
Lemma units_firstn E l k : Forall (fun u => u < lbound E) l -> Forall (fun u => u < lbound E) (firstn k l).
Proof. intros H. rewrite <- (firstn_skipn k l) in H. apply Forall_app in H. tauto. Qed.
Lemma eof_skipn E l k : no_eof E l -> no_eof E (skipn k l).
Proof. intros H Hi. apply H. rewrite <- (firstn_skipn k l). apply in_or_app. now right. Qed.
Lemma eof_firstn E l k : no_eof E l -> no_eof E (firstn k l).
Proof. intros H Hi. apply H. rewrite <- (firstn_skipn k l). apply in_or_app. now left. Qed.

Lemma skipn_add {A} (l : list A) a b : skipn (a + b) l = skipn b (skipn a l).
Proof. now rewrite skipn_skipn. Qed.

(** ** Identifiers *)

Lemma chars_len E e l n : Forall (fun u => u < lbound E) l -> chars E e l n -> (n <= length l)%nat.
Proof.
  intros Hu H. induction H as [l|l n m Hc Hr IH]; [lia|].
  pose proof (a_char_pos E e l n Hu Hc). specialize (IH (units_skipn E l n Hu)).
  rewrite skipn_length in IH. lia.
Qed.

(** Where the run of characters ends. *)
Lemma chars_max_fun E e l n n' : Forall (fun u => u < lbound E) l ->
  chars E e l n -> no_char E e (skipn n l) -> chars E e l n' -> no_char E e (skipn n' l) -> n = n'.
Proof.
  intros Hu H. revert Hu n'. induction H as [l|l n m Hc Hr IH]; intros Hu n' Hs H' Hs'.
  - destruct H' as [l|l n m Hc Hr]; [reflexivity|]. destruct (Hs _ Hc).
  - destruct H' as [l|l n' m' Hc' Hr'].
    + destruct (Hs' _ Hc).
    + pose proof (a_char_fun E e e l n n' Hc Hc') as <-. f_equal.
      rewrite skipn_add in Hs, Hs'. apply (IH (units_skipn E l n Hu) m' Hs Hr' Hs').
Qed.

Lemma trailing_run_spec E e : sane e -> forall fuel l, Forall (fun u => u < lbound E) l ->
  (length l < fuel)%nat ->
  exists n, trailing_run fuel E (build e) l = TYes n /\ chars E e l n /\ no_char E e (skipn n l).
Proof.
  intros Hs. induction fuel as [|fuel IH]; intros l Hu Hf; [lia|]. cbn [trailing_run].
  destruct (class_try E (build e) l) as [n|] eqn:Hc.
  - apply (class_char E e l n Hu Hs) in Hc. pose proof (a_char_pos E e l n Hu Hc) as Hn.
    destruct (IH (skipn n l) (units_skipn E l n Hu)) as (m & Hm & Hr & Hno).
    { rewrite skipn_length. lia. }
    rewrite Hm. exists (n + m)%nat. split; [reflexivity|]. split; [now constructor|].
    now rewrite skipn_add.
  - apply (class_none E e l Hu Hs) in Hc. exists 0%nat. split; [reflexivity|]. split; [constructor|exact Hc].
Qed.

Lemma pattern_spec E lead trail l : sane lead -> sane trail -> Forall (fun u => u < lbound E) l ->
  (exists n, pattern_try E (build lead) (build trail) l = TYes n /\ id_at E lead trail l n) \/
  (pattern_try E (build lead) (build trail) l = TNo /\ no_char E lead l).
Proof.
  intros Hl Ht Hu. unfold pattern_try. destruct (class_try E (build lead) l) as [n|] eqn:Hc.
  - left. apply (class_char E lead l n Hu Hl) in Hc. pose proof (a_char_pos E lead l n Hu Hc) as Hn.
    destruct (trailing_run_spec E trail Ht (S (length l)) (skipn n l) (units_skipn E l n Hu)) as (m & -> & Hr & Hno).
    { rewrite skipn_length. lia. }
    exists (n + m)%nat. split; [reflexivity|]. split.
    + exists n, m. auto.
    + now rewrite skipn_add.
  - right. split; [reflexivity|]. now apply (class_none E lead l Hu Hl).
Qed.

Lemma id_at_fun E lead trail l n n' : Forall (fun u => u < lbound E) l ->
  id_at E lead trail l n -> id_at E lead trail l n' -> n = n'.
Proof.
  intros Hu ((a & b & Ha & Hb & ->) & Hs) ((a' & b' & Ha' & Hb' & ->) & Hs').
  pose proof (a_char_fun E lead lead l a a' Ha Ha') as <-. f_equal.
  rewrite skipn_add in Hs, Hs'.
  exact (chars_max_fun E trail (skipn a l) b b' (units_skipn E l a Hu) Hb Hs Hb' Hs').
Qed.

Lemma id_at_lead E lead trail l n : id_at E lead trail l n -> ~ no_char E lead l.
Proof. intros ((a & b & Ha & _) & _) H. exact (H a Ha). Qed.

Lemma id_at_len E lead trail l n : Forall (fun u => u < lbound E) l -> id_at E lead trail l n ->
  (1 <= n <= length l)%nat.
Proof.
  intros Hu ((a & b & Ha & Hb & ->) & _). pose proof (a_char_pos E lead l a Hu Ha).
  pose proof (chars_len E trail _ b (units_skipn E l a Hu) Hb) as H2. rewrite skipn_length in H2. lia.
Qed.

Lemma pattern_exact E lead trail l : sane lead -> sane trail -> Forall (fun u => u < lbound E) l ->
  (forall n, pattern_try E (build lead) (build trail) l = TYes n <-> id_at E lead trail l n) /\
  (pattern_try E (build lead) (build trail) l = TNo <-> no_char E lead l) /\
  pattern_try E (build lead) (build trail) l <> TOut.
Proof.
  intros Hl Ht Hu. destruct (pattern_spec E lead trail l Hl Ht Hu) as [(n & Hp & Hn)|(Hp & Hn)]; rewrite Hp.
  - split; [|split].
    + intros m. split.
      * intros [= <-]. exact Hn.
      * intros Hm. now rewrite (id_at_fun E lead trail l n m Hu Hn Hm).
    + split; [discriminate|]. intros H. destruct (id_at_lead _ _ _ _ _ Hn H).
    + discriminate.
  - split; [|split].
    + intros m. split; [discriminate|]. intros Hm. destruct (id_at_lead _ _ _ _ _ Hm Hn).
    + tauto.
    + discriminate.
Qed.

(** ** Reserved identifiers *)

Lemma seen_length f l : length (seen_as f l) = length l.
Proof. destruct f; cbn; try reflexivity. apply map_length. Qed.

Lemma seen_eof E f l : no_eof E l -> no_eof E (seen_as f l).
Proof.
  intros H. destruct f; cbn; try exact H. intros Hi. apply in_map_iff in Hi as (c & Hc & Hi).
  apply H. unfold lower in Hc. destruct ((65 <=? c) && (c <=? 90)) eqn:Hb.
  - exfalso. destruct E as [|[]]; cbn in Hc; lia.
  - now subst c.
Qed.

Lemma at_eof_spec E l p : no_eof E l -> at_eof E l p = (length l <=? p)%nat.
Proof.
  intros H. unfold at_eof. destruct (skipn p l) as [|c r] eqn:Hs; cbn [lpeek].
  - rewrite N.eqb_refl. symmetry. apply Nat.leb_le. pose proof (skipn_length p l) as Hl.
    rewrite Hs in Hl. cbn in Hl. lia.
  - destruct (c =? leof E) eqn:Hc.
    + exfalso. apply H. apply N.eqb_eq in Hc. rewrite <- (firstn_skipn p l), Hs. apply in_or_app. right. now left.
    + symmetry. apply Nat.leb_gt. pose proof (skipn_length p l) as Hl. rewrite Hs in Hl. cbn in Hl. lia.
Qed.

(** Matching the set of reserved words at a position of the identifier. *)
Lemma set_words fold E r lexeme pos : plain_words E r -> no_eof E lexeme -> (pos <= length lexeme)%nat ->
  let L := seen_as (rs_fold r) lexeme in
  let words := map l_units (rs_words r) in
  (exists w, In w words /\ is_prefix w (skipn pos L) /\
     (forall v, In v words -> is_prefix v (skipn pos L) -> (length v <= length w)%nat) /\
     set_try fold (rs_fold r) E (rs_words r) lexeme pos = Match (Some 0%N) (pos + length w)%nat) \/
  ((forall w, In w words -> ~ is_prefix w (skipn pos L)) /\
   set_try fold (rs_fold r) E (rs_words r) lexeme pos = Match None pos).
Proof.
  intros (Hf & Hw) He Hp L words.
  assert (Hset : set_try fold (rs_fold r) E (rs_words r) lexeme pos
                 = set_try fold NoFold E (rs_words r) L pos).
  { subst L. destruct (rs_fold r); cbn; [reflexivity| |contradiction]. apply LitProofs.ascii_set. }
  rewrite Hset.
  assert (Happ : forall l, In l (rs_words r) -> (applies l (skipn pos L) <-> is_prefix (l_units l) (skipn pos L))).
  { intros l Hl. destruct (Hw l Hl) as (Hc & _). unfold applies. rewrite Hc. split.
    - intros (H & _). exact H.
    - intros H. split; [exact H|discriminate]. }
  destruct (set_try_spec fold E (rs_words r) L pos) as [(l & (Hin & Ha & Hmax) & Hm)|(Hn & Hm)].
  - intros l l' H H' _. destruct (Hw l H) as (? & ? & _), (Hw l' H') as (? & ? & _). split; congruence.
  - now apply seen_eof.
  - intros l Hl. apply (Hw l Hl).
  - subst L. now rewrite seen_length.
  - left. exists (l_units l). split; [now apply in_map|]. split; [exact (proj1 (Happ l Hin) Ha)|]. split.
    + intros v Hv Hpre. apply in_map_iff in Hv as (l' & <- & Hl'). apply Hmax; [exact Hl'|]. exact (proj2 (Happ l' Hl') Hpre).
    + rewrite Hm. destruct (Hw l Hin) as (_ & -> & _). reflexivity.
  - right. split; [|exact Hm]. intros w Hin Hpre. apply in_map_iff in Hin as (l & <- & Hl).
    apply (Hn l Hl). exact (proj2 (Happ l Hl) Hpre).
Qed.

Lemma prefix_len (w l : list N) : is_prefix w l -> (length w <= length l)%nat.
Proof. intros (r & ->). rewrite app_length. lia. Qed.
Lemma prefix_full (w l : list N) : is_prefix w l -> (length l <= length w)%nat -> w = l.
Proof.
  intros (r & ->) H. rewrite app_length in H. destruct r; [now rewrite app_nil_r|cbn in H; lia].
Qed.
Lemma prefix_infix (w l : list N) p : is_prefix w (skipn p l) -> is_infix w l.
Proof. intros (r & H). exists (firstn p l), r. now rewrite <- H, firstn_skipn. Qed.
Lemma prefix_suffix (w l : list N) p : is_prefix w (skipn p l) -> (length l <= p + length w)%nat ->
  is_suffix w l.
Proof.
  intros H Hl. exists (firstn p l). rewrite (prefix_full w (skipn p l) H).
  - now rewrite firstn_skipn.
  - rewrite skipn_length. lia.
Qed.

Lemma contains_spec fold E r lexeme : plain_words E r -> no_eof E lexeme ->
  forall fuel pos, (pos <= length lexeme)%nat -> (length lexeme - pos < fuel)%nat ->
  exists b, contains_loop fold fuel E (rs_fold r) (rs_words r) lexeme pos = Some b /\
    (b = true <-> exists w j, In w (map l_units (rs_words r)) /\ (pos <= j <= length lexeme)%nat /\
       is_prefix w (skipn j (seen_as (rs_fold r) lexeme))).
Proof.
  intros Hw He. induction fuel as [|fuel IH]; intros pos Hp Hf; [lia|]. cbn [contains_loop].
  destruct (set_words fold E r lexeme pos Hw He Hp) as [(w & Hin & Hpre & _ & ->)|(Hno & ->)].
  - exists true. split; [reflexivity|]. split; [|reflexivity]. intros _. exists w, pos. split; [exact Hin|]. split; [lia|exact Hpre].
  - rewrite (at_eof_spec E lexeme pos He). destruct (length lexeme <=? pos)%nat eqn:Hb.
    + exists false. split; [reflexivity|]. split; [discriminate|]. intros (w & j & Hin & Hj & Hpre).
      replace j with pos in Hpre by lia. destruct (Hno w Hin Hpre).
    + destruct (IH (S pos)) as (b & -> & Hiff); [lia|lia|]. exists b. split; [reflexivity|]. rewrite Hiff. split.
      * intros (w & j & Hin & Hj & Hpre). exists w, j. split; [exact Hin|]. split; [lia|exact Hpre].
      * intros (w & j & Hin & Hj & Hpre). exists w, j. split; [exact Hin|]. split; [|exact Hpre].
        assert (j <> pos) by (intros ->; destruct (Hno w Hin Hpre)). lia.
Qed.

Lemma suffix_spec fold E r lexeme : plain_words E r -> no_eof E lexeme ->
  forall fuel pos, (pos <= length lexeme)%nat -> (length lexeme - pos < fuel)%nat ->
  exists b, suffix_loop fold fuel E (rs_fold r) (rs_words r) lexeme pos = Some b /\
    (b = true -> exists w, In w (map l_units (rs_words r)) /\ is_suffix w (seen_as (rs_fold r) lexeme)) /\
    (~ overlapped r lexeme ->
     (exists w j, In w (map l_units (rs_words r)) /\ (pos <= j)%nat /\ (j + length w = length lexeme)%nat /\
        is_prefix w (skipn j (seen_as (rs_fold r) lexeme))) -> b = true).
Proof.
  intros Hw He. induction fuel as [|fuel IH]; intros pos Hp Hf; [lia|]. cbn [suffix_loop].
  destruct (set_words fold E r lexeme pos Hw He Hp) as [(w & Hin & Hpre & Hmax & ->)|(Hno & ->)].
  - rewrite (at_eof_spec E lexeme _ He). pose proof (prefix_len _ _ Hpre) as Hl.
    rewrite skipn_length, seen_length in Hl.
    destruct (length lexeme <=? pos + length w)%nat eqn:Hb.
    + exists true. split; [reflexivity|]. split; [|reflexivity]. intros _. exists w. split; [exact Hin|].
      apply (prefix_suffix w _ pos Hpre). rewrite seen_length. lia.
    + destruct (IH (S (pos + length w))) as (b & -> & Hs & Hc); [lia|lia|]. exists b. split; [reflexivity|].
      split; [exact Hs|]. intros Hno _. exfalso. apply Hno.
      destruct Hpre as (q & Hq). exists (firstn pos (seen_as (rs_fold r) lexeme)), w, q.
      split; [now rewrite <- Hq, firstn_skipn|]. split; [|exact Hin].
      intros ->. rewrite app_nil_r in Hq. apply (f_equal (@length N)) in Hq.
      rewrite skipn_length, seen_length in Hq. lia.
  - rewrite (at_eof_spec E lexeme pos He). destruct (length lexeme <=? pos)%nat eqn:Hb.
    + exists false. split; [reflexivity|]. split; [discriminate|]. intros _ (w & j & Hin & Hj & Hjl & Hpre).
      replace j with pos in Hpre by lia. destruct (Hno w Hin Hpre).
    + destruct (IH (S pos)) as (b & -> & Hs & Hc); [lia|lia|]. exists b. split; [reflexivity|]. split; [exact Hs|].
      intros Hov (w & j & Hin & Hj & Hjl & Hpre). apply Hc; [exact Hov|]. exists w, j. repeat split; try assumption.
      assert (j <> pos) by (intros ->; destruct (Hno w Hin Hpre)). lia.
Qed.

Lemma suffix_prefix (w l : list N) : is_suffix w l ->
  (length l - length w + length w = length l)%nat /\ is_prefix w (skipn (length l - length w) l).
Proof.
  intros (r & ->). rewrite app_length. split; [lia|]. exists [].
  replace (length r + length w - length w)%nat with (length r) by lia.
  now rewrite skipn_app_exact, app_nil_r.
Qed.
Lemma infix_prefix (w l : list N) : is_infix w l ->
  exists j, (j <= length l)%nat /\ is_prefix w (skipn j l).
Proof.
  intros (a & b & ->). exists (length a). rewrite app_length. split; [lia|]. exists b. now rewrite skipn_app_exact.
Qed.

Lemma reserved_spec fold E r lexeme : plain_words E r -> no_eof E lexeme ->
  exists b, is_reserved fold E r lexeme = Some b /\ (b = true -> reserves r lexeme) /\
    (rs_kind r <> Suffix \/ ~ overlapped r lexeme -> reserves r lexeme -> b = true).
Proof.
  intros Hw He. unfold is_reserved, reserves. destruct (rs_kind r) eqn:Hk.
  - destruct (set_words fold E r lexeme 0 Hw He (Nat.le_0_l _)) as [(w & Hin & Hpre & Hmax & ->)|(Hno & ->)];
      cbn [skipn] in *.
    + exists (at_eof E lexeme (0 + length w)). split; [reflexivity|]. rewrite (at_eof_spec E lexeme _ He).
      pose proof (seen_length (rs_fold r) lexeme) as Hl. split.
      * intros Hb. exists w. split; [exact Hin|]. symmetry. apply prefix_full; [exact Hpre|].
        apply Nat.leb_le in Hb. lia.
      * intros _ (v & Hv & Heq). apply Nat.leb_le. cbn. rewrite <- Hl, Heq. apply Hmax; [exact Hv|].
        rewrite Heq. exists []. now rewrite app_nil_r.
    + exists false. split; [reflexivity|]. split; [discriminate|]. intros _ (v & Hv & Heq). exfalso.
      apply (Hno v Hv). rewrite Heq. exists []. now rewrite app_nil_r.
  - destruct (set_words fold E r lexeme 0 Hw He (Nat.le_0_l _)) as [(w & Hin & Hpre & Hmax & ->)|(Hno & ->)];
      cbn [skipn] in *.
    + exists true. split; [reflexivity|]. split; [|reflexivity]. intros _. exists w. auto.
    + exists false. split; [reflexivity|]. split; [discriminate|]. intros _ (v & Hv & Heq).
      destruct (Hno v Hv Heq).
  - destruct (contains_spec fold E r lexeme Hw He (S (length lexeme)) 0) as (b & -> & Hb); [lia|lia|].
    exists b. split; [reflexivity|]. split.
    + intros H. apply Hb in H as (w & j & Hin & _ & Hpre). exists w. split; [exact Hin|]. now apply (prefix_infix w _ j).
    + intros _ (w & Hin & Hi). apply Hb. apply infix_prefix in Hi as (j & Hj & Hpre). rewrite seen_length in Hj.
      exists w, j. split; [exact Hin|]. split; [lia|exact Hpre].
  - destruct (suffix_spec fold E r lexeme Hw He (S (length lexeme)) 0) as (b & -> & Hs & Hc); [lia|lia|].
    exists b. split; [reflexivity|]. split; [exact Hs|].
    intros [H|Hov]; [congruence|]. intros (w & Hin & Hsuf). apply Hc; [exact Hov|].
    apply suffix_prefix in Hsuf as (Hlen & Hpre). rewrite seen_length in Hlen, Hpre.
    exists w, (length lexeme - length w)%nat. repeat split; try assumption. lia.
Qed.

Lemma any_reserved_spec fold E rs lexeme : Forall (plain_words E) rs -> no_eof E lexeme ->
  exists b, any_reserved fold E rs lexeme = Some b /\ (b = true -> reserved_by rs lexeme) /\
    (exact_on rs lexeme -> reserved_by rs lexeme -> b = true).
Proof.
  intros Hw He. unfold exact_on. induction Hw as [|r rs Hr Hrs IH]; cbn [any_reserved].
  - exists false. split; [reflexivity|]. split; [discriminate|]. intros _ (r & [] & _).
  - destruct (reserved_spec fold E r lexeme Hr He) as (b & -> & H1 & H2). destruct b.
    + exists true. split; [reflexivity|]. split; [|reflexivity]. intros _. exists r. split; [now left|auto].
    + destruct IH as (b & -> & H3 & H4). exists b. split; [reflexivity|]. split.
      * intros Hb. destruct (H3 Hb) as (r' & Hi & Hr'). exists r'. split; [now right|exact Hr'].
      * intros Hex (r' & [<-|Hi] & Hr'); inversion Hex as [|? ? X1 X2]; subst.
        -- specialize (H2 X1 Hr'). discriminate.
        -- apply (H4 X2). exists r'. auto.
Qed.

Lemma id_branch fold E lead trail rs rest n : text_units E rest -> sane lead -> sane trail ->
  Forall (plain_words E) rs -> (forall m, exact_on rs (firstn m rest)) ->
  id_try fold E (Ident (build lead) (build trail) rs) rest = TYes n <->
  id_at E lead trail rest n /\ ~ reserved_by rs (firstn n rest).
Proof.
  intros (Hu & He) Hl Ht Hw Hex. unfold id_try. cbn [id_lead id_trail id_reserved].
  destruct (pattern_spec E lead trail rest Hl Ht Hu) as [(m & -> & Hm)|(-> & Hm)].
  - destruct (any_reserved_spec fold E rs (firstn m rest) Hw (eof_firstn E rest m He)) as (b & -> & H1 & H2).
    split.
    + destruct b; [discriminate|]. intros [= <-]. split; [exact Hm|]. intros Hr. discriminate (H2 (Hex m) Hr).
    + intros (Hn & Hr). rewrite (id_at_fun E lead trail rest m n Hu Hm Hn) in *.
      destruct b; [|reflexivity]. destruct (Hr (H1 eq_refl)).
  - split; [discriminate|]. intros (Hn & _). destruct (id_at_lead _ _ _ _ _ Hn Hm).
Qed.

Lemma id_rule fold E lead trail rs rest : text_units E rest -> sane lead -> sane trail ->
  Forall (plain_words E) rs -> (forall m, exact_on rs (firstn m rest)) ->
  (exists n b, id_parse fold E (Ident (build lead) (build trail) rs) rest = IdLexeme n b /\
     id_at E lead trail rest n /\ (b = true <-> reserved_by rs (firstn n rest))) \/
  (id_parse fold E (Ident (build lead) (build trail) rs) rest = IdExpected /\ no_char E lead rest).
Proof.
  intros (Hu & He) Hl Ht Hw Hex. unfold id_parse. cbn [id_lead id_trail id_reserved].
  destruct (pattern_spec E lead trail rest Hl Ht Hu) as [(m & -> & Hm)|(-> & Hm)].
  - left. destruct (any_reserved_spec fold E rs (firstn m rest) Hw (eof_firstn E rest m He)) as (b & -> & H1 & H2).
    exists m, b. split; [reflexivity|]. split; [exact Hm|]. split; [exact H1|exact (H2 (Hex m))].
  - right. auto.
Qed.

(** ** Keywords *)

Lemma class_try_firstn E k l : class_try E k (firstn 4 l) = class_try E k l.
Proof.
  unfold class_try.
  assert (Hp : lpeek E (firstn 4 l) = lpeek E l) by (destruct l; reflexivity).
  rewrite Hp. destruct E as [|e]; [reflexivity|]. now rewrite parse_firstn.
Qed.

Lemma chars_app E e l r n : Forall (fun u => u < lbound E) l -> chars E e l n -> chars E e (l ++ r) n.
Proof.
  intros Hu H. revert Hu. induction H as [l|l n m Hc Hr IH]; intros Hu; [constructor|].
  pose proof (a_char_pos E e l n Hu Hc) as Hn. constructor.
  - apply a_char_app; [lia|exact Hc].
  - rewrite skipn_app. replace (n - length l)%nat with 0%nat by lia. apply IH. now apply units_skipn.
Qed.

Lemma id_text_app E lead trail l r n : Forall (fun u => u < lbound E) l ->
  id_text E lead trail l n -> id_text E lead trail (l ++ r) n.
Proof.
  intros Hu (a & b & Ha & Hb & ->). pose proof (a_char_pos E lead l a Hu Ha) as Hn. exists a, b.
  split; [apply a_char_app; [lia|exact Ha]|]. split; [|reflexivity].
  rewrite skipn_app. replace (a - length l)%nat with 0%nat by lia. apply chars_app; [now apply units_skipn|exact Hb].
Qed.

Lemma starts_with_firstn (cs l : list N) : starts_with cs l <-> firstn (length cs) l = cs.
Proof.
  split.
  - intros (r & ->). now rewrite firstn_app, Nat.sub_diag, firstn_all, firstn_O, app_nil_r.
  - intros H. exists (skipn (length cs) l). rewrite <- H at 1. now rewrite firstn_skipn.
Qed.

Lemma keyword_spec E lead trail rs cs rest n : text_units E rest -> sane trail -> no_eof E cs ->
  keyword_try E (Ident lead (build trail) rs) cs rest = (true, n) <->
  n = length cs /\ firstn n rest = cs /\ no_char E trail (skipn n rest).
Proof.
  intros (Hu & He) Ht Hcs. unfold keyword_try, kw_try. cbn [id_trail].
  rewrite (match_units_raw E rest cs 0 Hcs). cbn [skipn].
  destruct (Nat.eqb_spec (common cs rest) (length cs)) as [Hc|Hc].
  - rewrite (units_raw E rest He). unfold trailing_next. rewrite class_try_firstn, Nat.add_0_l, Hc.
    assert (Hst : starts_with cs rest) by (apply common_full; exact Hc).
    apply starts_with_firstn in Hst.
    pose proof (class_none E trail (skipn (length cs) rest) (units_skipn E rest _ Hu) Ht) as Hn.
    destruct (class_try E (build trail) (skipn (length cs) rest)) as [m|].
    + cbn. split; [discriminate|]. intros (-> & _ & Hno). apply Hn in Hno. discriminate.
    + cbn. split.
      * intros [= <-]. split; [reflexivity|]. split; [exact Hst|]. now apply Hn.
      * intros (-> & _). reflexivity.
  - split; [discriminate|]. intros (-> & Hf & _). exfalso. apply Hc. apply common_full.
    now apply starts_with_firstn.
Qed.

Lemma keyword_exact E lead trail rs cs rest n : text_units E rest -> sane lead -> sane trail ->
  text_units E cs -> id_text E lead trail cs (length cs) ->
  keyword_try E (Ident (build lead) (build trail) rs) cs rest = (true, n) <->
  id_at E lead trail rest n /\ firstn n rest = cs.
Proof.
  intros Hr Hl Ht (Hcu & Hce) Hid. rewrite (keyword_spec E (build lead) trail rs cs rest n Hr Ht Hce). split.
  - intros (-> & Hf & Hno). split; [|exact Hf]. split; [|exact Hno].
    rewrite <- (firstn_skipn (length cs) rest), Hf. apply id_text_app; [exact Hcu|exact Hid].
  - intros (Hat & Hf). pose proof (id_at_len E lead trail rest n (proj1 Hr) Hat) as Hlen.
    assert (n = length cs) by (rewrite <- Hf, firstn_length; lia). split; [assumption|]. split; [exact Hf|]. apply Hat.
Qed.

Lemma reserve_words_plain E ws : (forall w, In w ws -> no_eof E w) -> plain_words E (reserve_words ws).
Proof.
  intros H. split; [discriminate|]. intros l Hl. apply in_map_iff in Hl as (w & <- & Hw). cbn. auto.
Qed.
Lemma reserve_words_spec ws lexeme : reserved_by [reserve_words ws] lexeme <-> In lexeme ws.
Proof.
  assert (Hm : map l_units (rs_words (reserve_words ws)) = ws).
  { cbn. rewrite map_map. cbn. apply map_id. }
  split.
  - intros (r & [<-|[]] & w & Hw & He). rewrite Hm in Hw. cbn in He. now subst.
  - intros H. exists (reserve_words ws). split; [now left|]. exists lexeme. rewrite Hm. split; [exact H|reflexivity].
Qed.

Lemma partition fold E lead trail ws rest n : text_units E rest -> sane lead -> sane trail ->
  (forall w, In w ws -> text_units E w /\ id_text E lead trail w (length w)) ->
  id_at E lead trail rest n ->
  let i := Ident (build lead) (build trail) [reserve_words ws] in
  (~ In (firstn n rest) ws /\ id_try fold E i rest = TYes n /\
     forall w, In w ws -> fst (keyword_try E i w rest) = false) \/
  (In (firstn n rest) ws /\ id_try fold E i rest = TNo /\
     forall w, In w ws -> (fst (keyword_try E i w rest) = true <-> w = firstn n rest)).
Proof.
  intros Hr Hl Ht Hws Hn i.
  assert (Hkw : forall w, In w ws -> (fst (keyword_try E i w rest) = true <-> w = firstn n rest)).
  { intros w Hw. destruct (Hws w Hw) as (Hwu & Hwi). destruct (keyword_try E i w rest) as [ok m] eqn:Hk.
    cbn. split.
    - intros ->. apply (keyword_exact E lead trail _ w rest m Hr Hl Ht Hwu Hwi) in Hk as (Hat & Hf).
      now rewrite (id_at_fun E lead trail rest n m (proj1 Hr) Hn Hat).
    - intros ->. pose proof (proj2 (keyword_exact E lead trail [reserve_words ws] _ rest n Hr Hl Ht Hwu Hwi) (conj Hn eq_refl)) as H.
      fold i in H. rewrite Hk in H. congruence. }
  destruct (pattern_exact E lead trail rest Hl Ht (proj1 Hr)) as (Hp & _). apply Hp in Hn as Hpat.
  destruct (any_reserved_spec fold E [reserve_words ws] (firstn n rest)) as (b & Hb & H1 & H2).
  - constructor; [|constructor]. apply reserve_words_plain. intros w Hw. apply (Hws w Hw).
  - apply eof_firstn. apply Hr.
  - rewrite reserve_words_spec in H1, H2.
    assert (Hex : exact_on [reserve_words ws] (firstn n rest)) by (apply Forall_cons; [left; discriminate|apply Forall_nil]).
    specialize (H2 Hex). destruct b.
    + right. split; [auto|]. split; [|exact Hkw]. unfold id_try. subst i. cbn [id_lead id_trail id_reserved].
      now rewrite Hpat, Hb.
    + left. assert (Hnot : ~ In (firstn n rest) ws) by (intros Hi; discriminate (H2 Hi)).
      split; [exact Hnot|]. split.
      * unfold id_try. subst i. cbn [id_lead id_trail id_reserved]. now rewrite Hpat, Hb.
      * intros w Hw. destruct (fst (keyword_try E i w rest)) eqn:Hk; [|reflexivity].
        apply (Hkw w Hw) in Hk. subst w. destruct (Hnot Hw).
Qed.

(** ** Until *)

Lemma until_spec E cond rest : no_eof E rest ->
  (forall k n, first_match cond rest k n -> until_try E cond rest = (true, (k + n)%nat)) /\
  (never_matches cond rest -> until_try E cond rest = (false, length rest)).
Proof.
  induction rest as [|c rest IH]; intros He; cbn [until_try].
  - split.
    + intros k n (Hk & Hc & _). cbn in Hk. replace k with 0%nat in * by lia. cbn in Hc. now rewrite Hc.
    + intros H. specialize (H 0%nat (Nat.le_0_l _)). cbn in H. now rewrite H.
  - assert (Hce : c =? leof E = false).
    { apply N.eqb_neq. intros ->. apply He. now left. }
    destruct IH as (IH1 & IH2). { intros Hi. apply He. now right. }
    split.
    + intros k n (Hk & Hc & Hno). destruct k as [|k].
      * cbn [skipn] in Hc. rewrite Hc. reflexivity.
      * pose proof (Hno 0%nat (Nat.lt_0_succ _)) as H0. cbn [skipn] in H0. rewrite H0, Hce.
        rewrite (IH1 k n); [reflexivity|]. cbn in Hk. split; [lia|]. split; [exact Hc|].
        intros j Hj. apply (Hno (S j)). lia.
    + intros H. pose proof (H 0%nat (Nat.le_0_l _)) as H0. cbn [skipn] in H0. rewrite H0, Hce.
      rewrite IH2; [reflexivity|]. intros j Hj. apply (H (S j)). cbn. lia.
Qed.

Lemma until_eof_spec E cond rest : no_eof E rest -> bounded cond ->
  (forall k n, first_match cond rest k n -> until_eof_try E cond rest = (k + n)%nat) /\
  (never_matches cond rest -> until_eof_try E cond rest = length rest).
Proof.
  intros He Hb. revert He. induction rest as [|c rest IH]; intros He; cbn [until_eof_try].
  - split.
    + intros k n (Hk & Hc & _). cbn in Hk. replace k with 0%nat in * by lia. cbn in Hc.
      apply Hb in Hc. cbn in Hc. lia.
    + reflexivity.
  - assert (Hce : c =? leof E = false).
    { apply N.eqb_neq. intros ->. apply He. now left. }
    destruct IH as (IH1 & IH2). { intros Hi. apply He. now right. }
    rewrite Hce. split.
    + intros k n (Hk & Hc & Hno). destruct k as [|k].
      * cbn [skipn] in Hc. rewrite Hc. reflexivity.
      * pose proof (Hno 0%nat (Nat.lt_0_succ _)) as H0. cbn [skipn] in H0. rewrite H0.
        rewrite (IH1 k n); [reflexivity|]. cbn in Hk. split; [lia|]. split; [exact Hc|].
        intros j Hj. apply (Hno (S j)). lia.
    + intros H. pose proof (H 0%nat (Nat.le_0_l _)) as H0. cbn [skipn] in H0. rewrite H0.
      rewrite IH2; [reflexivity|]. intros j Hj. apply (H (S j)). cbn. lia.
Qed.

Lemma match_or_not cond rest : (exists k n, first_match cond rest k n) \/ never_matches cond rest.
Proof.
  induction rest as [|c rest IH].
  - destruct (cond []) as [n|] eqn:H.
    + left. exists 0%nat, n. split; [cbn; lia|]. split; [exact H|]. intros j Hj. lia.
    + right. intros j Hj. cbn in Hj. replace j with 0%nat by lia. exact H.
  - destruct (cond (c :: rest)) as [n|] eqn:H.
    + left. exists 0%nat, n. split; [lia|]. split; [exact H|]. intros j Hj. lia.
    + destruct IH as [(k & n & Hk & Hc & Hno)|Hno].
      * left. exists (S k), n. split; [cbn; lia|]. split; [exact Hc|]. intros [|j] Hj; [exact H|]. apply Hno. lia.
      * right. intros [|j] Hj; [exact H|]. cbn in Hj. apply (Hno j). lia.
Qed.

Lemma first_match_fun cond rest k n k' n' : first_match cond rest k n -> first_match cond rest k' n' ->
  k = k' /\ n = n'.
Proof.
  intros (_ & H & Hno) (_ & H' & Hno').
  assert (k = k').
  { destruct (Nat.lt_trichotomy k k') as [L|[Q|L]]; [|exact Q|].
    - rewrite (Hno' k L) in H. discriminate.
    - rewrite (Hno k' L) in H'. discriminate. }
  subst. split; [reflexivity|congruence].
Qed.

Lemma until_exact E cond rest : no_eof E rest -> bounded cond ->
  (forall e, until_try E cond rest = (true, e) <-> exists k n, first_match cond rest k n /\ e = (k + n)%nat) /\
  (forall e, until_try E cond rest = (false, e) <-> never_matches cond rest /\ e = length rest) /\
  (forall e, until_eof_try E cond rest = e <->
     (exists k n, first_match cond rest k n /\ e = (k + n)%nat) \/
     (never_matches cond rest /\ e = length rest)) /\
  (until_eof_try E cond rest <= length rest)%nat.
Proof.
  intros He Hb. destruct (until_spec E cond rest He) as (U1 & U2).
  destruct (until_eof_spec E cond rest He Hb) as (V1 & V2).
  assert (Hexcl : forall k n, first_match cond rest k n -> never_matches cond rest -> False).
  { intros k n (Hk & Hc & _) Hn. rewrite (Hn k Hk) in Hc. discriminate. }
  destruct (match_or_not cond rest) as [(k & n & Hm)|Hn].
  - rewrite (U1 k n Hm), (V1 k n Hm). split; [|split; [|split]].
    + intros e. split.
      * intros [= <-]. eauto.
      * intros (k' & n' & Hm' & ->). destruct (first_match_fun _ _ _ _ _ _ Hm Hm') as (-> & ->). reflexivity.
    + intros e. split; [discriminate|]. intros (H & _). destruct (Hexcl k n Hm H).
    + intros e. split.
      * intros <-. left. eauto.
      * intros [(k' & n' & Hm' & ->)|(H & _)]; [|destruct (Hexcl k n Hm H)].
        destruct (first_match_fun _ _ _ _ _ _ Hm Hm') as (-> & ->). reflexivity.
    + destruct Hm as (Hk & Hc & _). apply Hb in Hc. rewrite skipn_length in Hc. lia.
  - rewrite (U2 Hn), (V2 Hn). split; [|split; [|split]].
    + intros e. split; [discriminate|]. intros (k & n & Hm & _). destruct (Hexcl k n Hm Hn).
    + intros e. split; [intros [= <-]; auto|]. intros (_ & ->). reflexivity.
    + intros e. split; [intros <-; auto|]. intros [(k & n & Hm & _)|(_ & ->)]; [destruct (Hexcl k n Hm Hn)|reflexivity].
    + lia.
Qed.

(** ** Newline, eof, eol *)

Lemma newline_fun l n n' : newline_at l n -> newline_at l n' -> n = n'.
Proof.
  intros [(-> & r & H)|(-> & r & H)] [(-> & r' & H')|(-> & r' & H')]; try reflexivity; subst l; discriminate.
Qed.

Lemma newline_spec E rest : no_eof E rest ->
  (exists n, newline_try E rest = TYes n /\ newline_at rest n) \/
  (newline_try E rest = TNo /\ forall n, ~ newline_at rest n).
Proof.
  intros He. unfold newline_try.
  assert (Hl : forall l, In l newline_set -> l_class l = None).
  { intros l [<-|[<-|[]]]; reflexivity. }
  destruct (set_try_spec (fun c => c) E newline_set rest 0) as [(l & (Hin & (Ha & _) & _) & ->)|(Hn & ->)].
  - intros a b [<-|[<-|[]]] [<-|[<-|[]]] H; try (split; reflexivity); discriminate.
  - exact He.
  - intros l [<-|[<-|[]]] H; cbn in H; destruct E as [|[]]; cbn in H; intuition discriminate.
  - lia.
  - left. exists (0 + length (l_units l))%nat. split; [reflexivity|]. cbn [skipn] in Ha. destruct Ha as (r & ->).
    destruct Hin as [<-|[<-|[]]]; cbn; [left|right]; (split; [reflexivity|]); eexists; reflexivity.
  - right. split; [reflexivity|]. cbn [skipn] in Hn.
    intros n [(-> & r & ->)|(-> & r & ->)].
    + apply (Hn (Literal [0x0A] 0 None)); [now left|]. split; [now exists r|discriminate].
    + apply (Hn (Literal [0x0D; 0x0A] 1 None)); [right; now left|]. split; [now exists r|discriminate].
Qed.

Lemma peek_eof E rest : no_eof E rest -> (lpeek E rest =? leof E) = true <-> rest = [].
Proof.
  intros He. destruct rest as [|c r]; cbn [lpeek].
  - rewrite N.eqb_refl. tauto.
  - split; [|discriminate]. intros H. apply N.eqb_eq in H. destruct He. now left.
Qed.

Lemma newline_eof_eol E rest : no_eof E rest ->
  (forall n, newline_try E rest = TYes n <-> newline_at rest n) /\
  (newline_try E rest = TNo <-> forall n, ~ newline_at rest n) /\
  (eof_try E rest = true <-> rest = []) /\
  eof_parse E rest = (match rest with [] => LEof | _ => LError true end) /\
  (eol_try E rest = Some true <-> rest = [] \/ exists n, newline_at rest n) /\
  (eol_try E rest = Some false <-> rest <> [] /\ forall n, ~ newline_at rest n) /\
  (eol_parse E rest = LEof <-> rest = []) /\
  (forall n, eol_parse E rest = LNewline n <-> newline_at rest n) /\
  (eol_parse E rest = LError false <-> rest <> [] /\ forall n, ~ newline_at rest n).
Proof.
  intros He. pose proof (peek_eof E rest He) as Hp. pose proof (newline_spec E rest He) as Hn.
  assert (Hnil : forall n, ~ newline_at [] n).
  { intros n [(_ & r & H)|(_ & r & H)]; discriminate. }
  unfold eof_try, eof_parse, eol_try, eol_parse.
  assert (Hcase : rest = [] \/ rest <> []) by (destruct rest; [now left|now right]).
  destruct Hcase as [->|Hne].
  - destruct Hn as [(n & _ & H)|(-> & Hno)]; [destruct (Hnil n H)|]. rewrite (proj2 Hp eq_refl).
    assert (newline_try E [] = TNo).
    { destruct E as [|[]]; vm_compute; reflexivity. }
    repeat split; try tauto; try congruence; intros; try discriminate; try (exfalso; eapply Hnil; eassumption); auto.
  - destruct (lpeek E rest =? leof E); [destruct Hne; now apply Hp|].
    assert (Hr : (match rest with [] => LEof | _ => LError true end) = LError true) by (destruct rest; [contradiction|reflexivity]).
    rewrite Hr. destruct Hn as [(n & Hy & H)|(Hy & Hno)]; rewrite Hy.
    + assert (Hu : forall m, TYes n = TYes m <-> newline_at rest m).
      { intros m. split; [intros [= <-]; exact H|]. intros Hm. now rewrite (newline_fun rest n m H Hm). }
      split; [exact Hu|]. split; [split; [discriminate|intros Hx; destruct (Hx n H)]|].
      split; [split; [discriminate|contradiction]|]. split; [reflexivity|].
      split; [split; [eauto|reflexivity]|]. split; [split; [discriminate|intros (_ & Hx); destruct (Hx n H)]|].
      split; [split; [discriminate|contradiction]|].
      split; [|split; [discriminate|intros (_ & Hx); destruct (Hx n H)]].
      intros m. rewrite <- Hu. split; intros [= ->]; reflexivity.
    + split; [intros m; split; [discriminate|intros Hm; destruct (Hno m Hm)]|]. split; [tauto|].
      split; [split; [discriminate|contradiction]|]. split; [reflexivity|].
      split; [split; [discriminate|intros [Hx|(m & Hm)]; [contradiction|destruct (Hno m Hm)]]|].
      split; [tauto|]. split; [split; [discriminate|contradiction]|].
      split; [|tauto]. intros m. split; [discriminate|]. intros Hm. destruct (Hno m Hm).
Qed.
