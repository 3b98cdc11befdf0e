(** Proofs about delimited content. *)
From Verif Require Import Prelude CodecModel CodecSpec CodecProofs SwarModel SwarLanes SwarSpec
  SwarProofs SwarScan SwarScan2 BufferReads LitModel LitSpec LitProofs ClassModel ClassSpec ClassProofs TextModel TextSpec
  TextProofs.
Open Scope N_scope.

Lemma parse_end4 e l : (cr_end (parse_code_point e l) <= 4)%nat.
Proof.
  unfold parse_code_point.
  destruct e; repeat match goal with |- context [if ?b then _ else _] => destruct b end; cbn; lia.
Qed.

Lemma parse_end_len e l : Forall (fun u => u < unit_bound e) l -> no_eof (Enc e) l ->
  (cr_end (parse_code_point e l) <= length l)%nat.
Proof.
  intros Hu He. apply parse_bounded. rewrite Forall_forall in *. intros x Hx. split; [auto|].
  intros ->. exact (He Hx).
Qed.

Lemma parse_one_try E k rest : text_units E rest -> rest <> [] ->
  exists m, parse_one E k rest = (match class_try E k rest with Some n => (n, true) | None => (m, false) end)
    /\ foreign E rest m.
Proof.
  intros (Hu & He) Hne.
  assert (Hlen : (1 <= length rest)%nat) by (destruct rest; [contradiction|cbn; lia]).
  assert (H1 : foreign E rest 1).
  { split; [lia|]. split; [exact Hlen|]. now left. }
  unfold parse_one, class_try.
  generalize (matcher (compress (class_ascii k)) (lpeek E rest)). intros b. destruct b.
  { exists 1%nat. auto. }
  generalize (match_cp_false k). intros b. destruct b.
  { exists 1%nat. auto. }
  destruct E as [|en].
  - destruct rest as [|u r]; [contradiction|]. cbn [lpeek] in *.
    assert (Hle : u =? leof Default = false).
    { apply N.eqb_neq. intros ->. apply He. now left. }
    rewrite Hle. exists 1%nat. split; [|exact H1]. generalize (match_cp k u). intros b. destruct b; reflexivity.
  - pose proof (parse_end4 en rest) as H4. pose proof (parse_end_len en rest Hu He) as Hl.
    destruct (parse_code_point en rest) as [c er n] eqn:Hp. cbn [cr_error cr_cp cr_end] in *.
    exists (if (n =? 0)%nat then 1 else n)%nat. split.
    + destruct er; try reflexivity. generalize (match_cp k c). intros b. destruct b; reflexivity.
    + destruct (Nat.eqb_spec n 0) as [H0|H0]; [exact H1|].
      split; [lia|]. split; [exact Hl|]. intros c' m H. right. unfold reads in H. rewrite Hp in H. congruence.
Qed.

(** One step of the content. *)
Lemma parse_one_spec E e rest : text_units E rest -> sane e -> rest <> [] ->
  (exists n, parse_one E (build e) rest = (n, true) /\ a_char E e rest n) \/
  (exists n, parse_one E (build e) rest = (n, false) /\ no_char E e rest /\ foreign E rest n).
Proof.
  intros Hu Hs Hne. destruct (parse_one_try E (build e) rest Hu Hne) as (m & -> & Hm).
  destruct (class_try E (build e) rest) as [n|] eqn:Hc.
  - left. exists n. split; [reflexivity|]. exact (proj1 (class_char E e rest n (proj1 Hu) Hs) Hc).
  - right. exists m. split; [reflexivity|]. split; [|exact Hm].
    exact (proj1 (class_none E e rest (proj1 Hu) Hs) Hc).
Qed.

Section Del.
Variables (E : lenc) (inp : list N) (e : cexpr).
Variables (close : list N -> option nat) (limit : option (list N -> option nat)).
Variable escs : list escape.
Variable skip : nat -> nat.
Hypothesis Hinp : text_units E inp.
Hypothesis Hsane : sane e.
Hypothesis Hesc : consuming escs.
Hypothesis Hskip : skips_ordinary E inp e close limit escs skip.

Notation content := (content E inp e close limit escs).

Lemma rest_units p : text_units E (skipn p inp).
Proof. split; [apply units_skipn|apply eof_skipn]; apply Hinp. Qed.

Lemma goes_on_spec p : close (skipn p inp) = None ->
  (limit_peek E limit (skipn p inp) = false <-> goes_on close limit (skipn p inp)).
Proof.
  intros Hc. pose proof (peek_eof E (skipn p inp) (proj2 (rest_units p))) as Hp.
  unfold goes_on, limit_peek. destruct limit as [l|].
  - destruct (l (skipn p inp)) as [n|].
    + split; [discriminate|]. intros (_ & _ & H). discriminate.
    + destruct (lpeek E (skipn p inp) =? leof E).
      * split; [discriminate|]. intros (_ & H & _). destruct (H (proj1 Hp eq_refl)).
      * split; [|reflexivity]. intros _. split; [exact Hc|]. split; [|reflexivity]. intros H. discriminate (proj2 Hp H).
  - destruct (lpeek E (skipn p inp) =? leof E).
    + split; [discriminate|]. intros (_ & H & _). destruct (H (proj1 Hp eq_refl)).
    + split; [|reflexivity]. intros _. split; [exact Hc|]. split; [|exact I]. intros H. discriminate (proj2 Hp H).
Qed.

(** The characters passed over by the word loop. *)
Fixpoint singles (p k : nat) : list piece :=
  match k with O => [] | S k => Char p (S p) :: singles (S p) k end.

Lemma content_singles k : forall p ps q,
  (forall j, (p <= j < p + k)%nat ->
     goes_on close limit (skipn j inp) /\ no_escape escs (skipn j inp) /\ a_char E e (skipn j inp) 1) ->
  content (p + k) ps q -> content p (singles p k ++ ps) q.
Proof.
  induction k as [|k IH]; intros p ps q H Hc; cbn [singles app].
  - now rewrite Nat.add_0_r in Hc.
  - destruct (H p ltac:(lia)) as (H1 & H2 & H3).
    replace (S p) with (p + 1)%nat by lia. constructor; auto.
    replace (p + 1)%nat with (S p) by lia. apply IH.
    + intros j Hj. apply H. lia.
    + now replace (S p + k)%nat with (p + S k)%nat by lia.
Qed.

Lemma reported_singles k b ps q : forall p, reported b (singles p k ++ ps) q = reported b ps q.
Proof. induction k as [|k IH]; intros p; cbn; [reflexivity|apply IH]. Qed.

Lemma del_finish_spec b x : (b <= x)%nat -> del_finish b x = (if (b <? x)%nat then [DChars b x] else []).
Proof.
  intros H. unfold del_finish. destruct (Nat.eqb_spec b x), (Nat.ltb_spec b x); try reflexivity; lia.
Qed.

Lemma first_branch_spec brs rest : forall i,
  match first_branch i brs rest with
  | Some (j, n) => exists br k, j = (i + k)%nat /\ nth_error brs k = Some br /\ br rest = Some n /\
      forall k' b, (k' < k)%nat -> nth_error brs k' = Some b -> b rest = None
  | None => Forall (fun b => b rest = None) brs
  end.
Proof.
  induction brs as [|br brs IH]; intros i; cbn [first_branch]; [constructor|].
  destruct (br rest) as [n|] eqn:Hb.
  - exists br, 0%nat. split; [lia|]. split; [reflexivity|]. split; [exact Hb|]. intros; lia.
  - specialize (IH (S i)). destruct (first_branch (S i) brs rest) as [(j, n)|].
    + destruct IH as (b & k & -> & H1 & H2 & H3). exists b, (S k). split; [lia|]. split; [exact H1|].
      split; [exact H2|]. intros [|k'] b' Hk Hn; [cbn in Hn; congruence|]. apply (H3 k' b'); [lia|exact Hn].
    + constructor; assumption.
Qed.

Lemma escape_try_spec b p : (p <= length inp)%nat ->
  match escape_try inp escs b p with
  | None => no_escape escs (skipn p inp)
  | Some (p', evs) =>
    (p < p' <= length inp)%nat /\
    exists x n, escape_here escs (skipn p inp) x n /\
      ((exists i m, branch_here x (skipn (p + n) inp) i m /\ p' = (p + n + m)%nat /\
          evs = del_finish b p ++ [DEscape p (p + n); DBranch i (p + n) (p + n + m)]) \/
       (no_branch x (skipn (p + n) inp) /\ p' = (p + n)%nat /\
          evs = del_finish b p ++ [DEscape p (p + n); DBadEscape p (p + n)]))
  end.
Proof.
  intros Hp. destruct Hesc as (He1 & He2). clear Hesc Hskip. unfold no_escape, escape_here.
  induction escs as [|x xs IH]; cbn [escape_try]; [constructor|].
  inversion_clear He1 as [|? ? Hx1 Hx2]. inversion_clear He2 as [|? ? Hb1 Hb2].
  destruct (es_token x (skipn p inp)) as [n|] eqn:Ht.
  - apply Hx1 in Ht as Hn. rewrite skipn_length in Hn.
    pose proof (first_branch_spec (es_branches x) (skipn (p + n) inp) 0) as Hf.
    destruct (first_branch 0 (es_branches x) (skipn (p + n) inp)) as [(i, m)|].
    + destruct Hf as (br & k & -> & Hk & Hbr & Hmin). cbn.
      assert (Hm : (m <= length inp - (p + n))%nat).
      { rewrite Forall_forall in Hb1. pose proof (Hb1 br (nth_error_In _ _ Hk) _ _ Hbr) as H. now rewrite skipn_length in H. }
      split; [lia|]. exists x, n. split; [exists [], xs; auto|]. left. exists k, m. split; [exists br; auto|]. auto.
    + split; [lia|]. exists x, n. split; [exists [], xs; auto|]. right. auto.
  - specialize (IH Hx2 Hb2). destruct (escape_try inp xs b p) as [(p', evs)|].
    + destruct IH as (Hb & y & n & (pre & post & -> & H1 & H2) & H3). split; [exact Hb|]. exists y, n.
      split; [|exact H3]. exists (x :: pre), post. split; [reflexivity|]. split; [exact H1|]. constructor; assumption.
    + constructor; assumption.
Qed.

Lemma outcome_cons start b p q ps evs r pc :
  outcome inp close limit start p ps q r ->
  reported b (pc :: ps) q = evs ++ reported p ps q ->
  outcome inp close limit start b (pc :: ps) q (dcons evs r).
Proof.
  intros [(n & Hc & ->)|(Hc & Hg & ->)] Hr.
  - left. exists n. split; [exact Hc|]. cbn [dcons]. now rewrite Hr.
  - right. split; [exact Hc|]. split; [exact Hg|]. cbn [dcons]. now rewrite Hr, app_assoc.
Qed.

Lemma del_loop_spec start : forall fuel b p, (b <= p <= length inp)%nat -> (length inp - p < fuel)%nat ->
  exists ps q, content p ps q /\ (p <= q <= length inp)%nat /\
    outcome inp close limit start b ps q (del_loop E inp (build e) close limit skip fuel escs start b p).
Proof.
  induction fuel as [|fuel IH]; intros b p Hb Hf; [lia|]. cbn [del_loop].
  destruct (Hskip p (proj2 Hb)) as (Hs1 & Hs2).
  assert (Hs3 : (skip p <= length inp)%nat).
  { destruct (Nat.le_gt_cases (skip p) (length inp)) as [H|H]; [exact H|].
    destruct (Hs2 (length inp) ltac:(lia)) as ((_ & H0 & _) & _). rewrite skipn_all in H0. contradiction. }
  set (s := skip p) in *.
  cut (exists ps q, content s ps q /\ (s <= q <= length inp)%nat /\ outcome inp close limit start b ps q
    (match close (skipn s inp) with
     | Some n => DClosed (del_finish b s) s (s + n)
     | None =>
       if limit_peek E limit (skipn s inp) then DFail (del_finish b s ++ [DMissing start s]) s
       else
        match escape_try inp escs b s with
        | Some (pos', evs) => dcons evs (del_loop E inp (build e) close limit skip fuel escs start pos' pos')
        | None =>
          let '(n, ok) := parse_one E (build e) (skipn s inp) in
          if ok then del_loop E inp (build e) close limit skip fuel escs start b (s + n)
          else dcons (del_finish b s ++ [DBadChar s (s + n)])
                     (del_loop E inp (build e) close limit skip fuel escs start (s + n) (s + n))
        end
     end)).
  { intros (ps & q & Hc & Hq & Ho). exists (singles p (s - p) ++ ps), q. split; [|split; [lia|]].
    - apply content_singles.
      + intros j Hj. apply Hs2. lia.
      + now replace (p + (s - p))%nat with s by lia.
    - unfold outcome in *. rewrite reported_singles. exact Ho. }
  destruct (close (skipn s inp)) as [n|] eqn:Hclose.
  { exists [], s. split; [constructor|]. split; [lia|]. left. exists n. split; [exact Hclose|].
    cbn [reported]. now rewrite del_finish_spec by lia. }
  pose proof (goes_on_spec s Hclose) as Hg. destruct (limit_peek E limit (skipn s inp)).
  { exists [], s. split; [constructor|]. split; [lia|]. right. split; [exact Hclose|].
    split; [intros H; discriminate (proj2 Hg H)|]. cbn [reported]. now rewrite del_finish_spec by lia. }
  specialize (proj1 Hg eq_refl) as Hgo.
  pose proof (escape_try_spec b s Hs3) as Hes. destruct (escape_try inp escs b s) as [(p', evs)|].
  - destruct Hes as (Hp' & x & n & Hx & Hbr).
    destruct (IH p' p') as (ps & q & Hc & Hq & Ho); [lia|lia|].
    destruct Hbr as [(i & m & Hbr & -> & ->)|(Hbr & -> & ->)].
    + exists (Escaped s (s + n) (s + n + m) (Some i) :: ps), q.
      split; [econstructor; eassumption|]. split; [lia|]. eapply outcome_cons; [exact Ho|].
      cbn [reported]. rewrite del_finish_spec by lia. now rewrite <- app_assoc.
    + exists (Escaped s (s + n) (s + n) None :: ps), q.
      split; [eapply content_invalid; eassumption|]. split; [lia|]. eapply outcome_cons; [exact Ho|].
      cbn [reported]. rewrite del_finish_spec by lia. now rewrite <- app_assoc.
  - destruct (parse_one_spec E e (skipn s inp) (rest_units s) Hsane (proj1 (proj2 Hgo)))
      as [(n & -> & Hch)|(n & -> & Hno & Hfor)].
    + pose proof (a_char_pos E e (skipn s inp) n (proj1 (rest_units s)) Hch) as Hn. rewrite skipn_length in Hn.
      destruct (IH b (s + n)%nat) as (ps & q & Hc & Hq & Ho); [lia|lia|].
      exists (Char s (s + n) :: ps), q. split; [constructor; assumption|]. split; [lia|exact Ho].
    + pose proof Hfor as (H1 & H2 & _). rewrite skipn_length in H2.
      destruct (IH (s + n)%nat (s + n)%nat) as (ps & q & Hc & Hq & Ho); [lia|lia|].
      exists (Foreign s (s + n) :: ps), q. split; [constructor; assumption|]. split; [lia|].
      eapply outcome_cons; [exact Ho|]. cbn [reported]. rewrite del_finish_spec by lia. now rewrite <- app_assoc.
Qed.

Lemma delimited_spec start : (start <= length inp)%nat ->
  exists ps q, content start ps q /\ (start <= q <= length inp)%nat /\
    outcome inp close limit start start ps q (delimited E inp (build e) close limit escs skip start).
Proof. intros H. apply del_loop_spec; lia. Qed.

(** ** Consequences *)

Lemma content_le p ps q : (p <= length inp)%nat -> content p ps q -> (p <= q <= length inp)%nat.
Proof.
  intros Hp H. revert Hp. induction H as [p|p n ps q Hg Hn Hc Hr IH|p n ps q Hg Hn Hc Hf Hr IH|p x n i m ps q Hg Hx Hb Hr IH|p x n ps q Hg Hx Hb Hr IH];
    intros Hp.
  - lia.
  - pose proof (a_char_pos E e (skipn p inp) n (proj1 (rest_units p)) Hc) as Hl. rewrite skipn_length in Hl.
    specialize (IH ltac:(lia)). lia.
  - destruct Hf as (H1 & H2 & _). rewrite skipn_length in H2. specialize (IH ltac:(lia)). lia.
  - destruct Hx as (pre & post & He & Ht & _). destruct Hesc as (Hc1 & Hc2). rewrite He in Hc1, Hc2.
    apply Forall_app in Hc1 as (_ & Hc1). inversion_clear Hc1 as [|? ? Hx _].
    apply Forall_app in Hc2 as (_ & Hc2). inversion_clear Hc2 as [|? ? Hb' _].
    apply Hx in Ht. rewrite skipn_length in Ht. destruct Hb as (br & Hnth & Hbr & _).
    rewrite Forall_forall in Hb'. apply (Hb' br (nth_error_In _ _ Hnth)) in Hbr. rewrite skipn_length in Hbr.
    specialize (IH ltac:(lia)). lia.
  - destruct Hx as (pre & post & He & Ht & _). destruct Hesc as (Hc1 & Hc2). rewrite He in Hc1.
    apply Forall_app in Hc1 as (_ & Hc1). inversion_clear Hc1 as [|? ? Hx _].
    apply Hx in Ht. rewrite skipn_length in Ht. specialize (IH ltac:(lia)). lia.
Qed.

Lemma tiles_app b rs rs' q m : tiles b rs m -> tiles m rs' q -> tiles b (rs ++ rs') q.
Proof.
  revert b. induction rs as [|(x, y) rs IH]; intros b; cbn [tiles app].
  - intros ->. auto.
  - intros (H1 & H2 & H3) H4. auto.
Qed.

Lemma tiles_lexeme b x : (b <= x)%nat -> tiles b (extents (if (b <? x)%nat then [DChars b x] else [])) x.
Proof. intros H. destruct (Nat.ltb_spec b x); cbn; [auto|lia]. Qed.

Lemma extents_app a b : extents (a ++ b) = extents a ++ extents b.
Proof. induction a as [|d a IH]; cbn; [reflexivity|]. destruct (extent d); cbn; now rewrite IH. Qed.

Lemma content_tiles p ps q : (p <= length inp)%nat -> content p ps q -> forall b, (b <= p)%nat ->
  tiles b (extents (reported b ps q)) q.
Proof.
  intros Hp H. revert Hp. induction H as [p|p n ps q Hg Hn Hc Hr IH|p n ps q Hg Hn Hc Hf Hr IH|p x n i m ps q Hg Hx Hb Hr IH|p x n ps q Hg Hx Hb Hr IH];
    intros Hp b Hbp; cbn [reported].
  - apply tiles_lexeme. exact Hbp.
  - pose proof (a_char_pos E e (skipn p inp) n (proj1 (rest_units p)) Hc) as Hl. rewrite skipn_length in Hl.
    apply IH; lia.
  - destruct Hf as (H1 & H2 & _). rewrite skipn_length in H2. rewrite extents_app.
    apply (tiles_app _ _ _ _ p); [now apply tiles_lexeme|]. cbn. split; [reflexivity|]. split; [lia|]. apply IH; lia.
  - assert (Hl : (p + n + m <= length inp)%nat).
    { destruct Hx as (pre & post & He & Ht & _). destruct Hesc as (Hc1 & Hc2). rewrite He in Hc1, Hc2.
      apply Forall_app in Hc1 as (_ & Hc1). inversion_clear Hc1 as [|? ? Hx _].
      apply Forall_app in Hc2 as (_ & Hc2). inversion_clear Hc2 as [|? ? Hb' _].
      apply Hx in Ht. rewrite skipn_length in Ht. destruct Hb as (br & Hnth & Hbr & _).
      rewrite Forall_forall in Hb'. apply (Hb' br (nth_error_In _ _ Hnth)) in Hbr. rewrite skipn_length in Hbr. lia. }
    rewrite extents_app. apply (tiles_app _ _ _ _ p); [now apply tiles_lexeme|]. cbn.
    split; [reflexivity|]. split; [lia|]. split; [reflexivity|]. split; [lia|]. apply IH; lia.
  - assert (Hl : (p + n <= length inp)%nat).
    { destruct Hx as (pre & post & He & Ht & _). destruct Hesc as (Hc1 & Hc2). rewrite He in Hc1.
      apply Forall_app in Hc1 as (_ & Hc1). inversion_clear Hc1 as [|? ? Hx _].
      apply Hx in Ht. rewrite skipn_length in Ht. lia. }
    rewrite extents_app. apply (tiles_app _ _ _ _ p); [now apply tiles_lexeme|]. cbn.
    split; [reflexivity|]. split; [lia|]. apply IH; lia.
Qed.

Lemma tiles_text (l : list N) b rs q : tiles b rs q ->
  concat (map (text_of l) rs) = firstn (q - b) (skipn b l).
Proof.
  revert b. induction rs as [|(x, y) rs IH]; intros b; cbn [tiles map concat].
  - intros ->. now rewrite Nat.sub_diag.
  - intros (-> & H2 & H3). rewrite (IH y H3). unfold text_of. cbn [fst snd].
    assert (Hyq : (y <= q)%nat).
    { clear -H3. revert y H3. induction rs as [|(x, z) rs IH]; intros y; cbn; [lia|]. intros (-> & H & H3). apply IH in H3. lia. }
    replace (q - b)%nat with ((y - b) + (q - y))%nat by lia.
    assert (Hfa : forall (a c : nat) (k : list N), firstn (a + c) k = firstn a k ++ firstn c (skipn a k)).
    { intros a c k. revert k. induction a as [|a IHa]; intros k; [reflexivity|]. destruct k; cbn; [now rewrite firstn_nil|]. f_equal. apply IHa. }
    rewrite Hfa, skipn_skipn. now replace (b + (y - b))%nat with y by lia.
Qed.

Lemma content_open p ps q pc : content p ps q -> In pc ps -> close (skipn (p_begin pc) inp) = None.
Proof.
  intros H. induction H as [p|p n ps q Hg Hn Hc Hr IH|p n ps q Hg Hn Hc Hf Hr IH|p x n i m ps q Hg Hx Hb Hr IH|p x n ps q Hg Hx Hb Hr IH];
    intros Hin; [destruct Hin| | | |]; (destruct Hin as [<-|Hin]; [exact (proj1 Hg)|exact (IH Hin)]).
Qed.
End Del.

(** Without escapes, limit and foreign characters the closing delimiter is the first one. *)
Lemma content_first E inp e close : text_units E inp -> unit_class E e inp ->
  forall p ps q, content E inp e close None [] p ps q ->
  forall j, (p <= j < q)%nat -> close (skipn j inp) = None.
Proof.
  intros Hinp Hu p ps q H.
  assert (Hlt : forall p, skipn p inp <> [] -> (p < length inp)%nat).
  { intros p' Hp. destruct (Nat.le_gt_cases (length inp) p') as [L|L]; [|exact L]. destruct Hp. now apply skipn_all2. }
  induction H as [p|p n ps q Hg Hn Hc Hr IH|p n ps q Hg Hn Hc Hf Hr IH|p x n i m ps q Hg Hx Hb Hr IH|p x n ps q Hg Hx Hb Hr IH];
    intros j Hj.
  - lia.
  - pose proof (Hu p (Hlt p (proj1 (proj2 Hg)))) as H1.
    pose proof (a_char_fun E e e _ _ _ Hc H1) as ->. destruct (Nat.eq_dec j p) as [->|Hne]; [exact (proj1 Hg)|].
    apply IH. lia.
  - destruct (Hc 1%nat (Hu p (Hlt p (proj1 (proj2 Hg))))).
  - destruct Hx as (pre & post & Hx & _). destruct pre; discriminate.
  - destruct Hx as (pre & post & Hx & _). destruct pre; discriminate.
Qed.

(** ** The word loop *)

Lemma run_nth q (l : list N) : forall j, (j < run q l)%nat ->
  exists x r, skipn j l = x :: r /\ q x = true.
Proof.
  induction l as [|x l IH]; intros j; cbn [run]; [lia|]. destruct (q x) eqn:Hq; [|lia].
  destruct j as [|j]; intros Hj; [exists x, l; auto|]. apply IH. lia.
Qed.

Lemma word_loop_ordinary E w contents e close limit escs k close1 firsts :
  width_ok w -> unit_width E w -> text_units E contents -> filter_ok k w ->
  close1 < 2 ^ w -> Forall (fun x => x < 2 ^ w) firsts ->
  begins_with close close1 -> Forall2 (fun x c => begins_with (es_token x) c) escs firsts ->
  (forall x, class_table k x = true -> denotes e x) ->
  (forall l x r, limit = Some l -> class_table k x = true -> l (x :: r) = None) ->
  skips_ordinary E contents e close limit escs
    (del_skip w (leof E) close1 firsts k (buffer_mem (leof E) contents)).
Proof.
  intros Hw (Hb & Heof) (Hu & He) Hf Hc1 Hfs Hclose Hescs Hden Hlim p Hp.
  rewrite Heof in *. rewrite Hb in Hu.
  destruct (swar_equals_units w contents p (S (length (buffer_mem (2 ^ w - 1) contents))) Hw Hu) as (_ & _ & _ & _ & _ & H & _).
  - unfold no_eof in He. now rewrite Heof in He.
  - exact Hp.
  - unfold buffer_mem. rewrite app_length. lia.
  - destruct (H close1 firsts k Hf Hc1 Hfs) as (q & Hq & H1 & H2). unfold del_skip. rewrite Hq.
    split; [exact H1|]. intros j Hj.
    assert (Hj' : (j - p < q - p)%nat) by lia. assert (H2' : (q - p <= run _ (skipn p contents))%nat) by (rewrite Nat.le_sub_le_add_l; exact H2).
    destruct (run_nth _ (skipn p contents) (j - p)%nat (Nat.lt_le_trans _ _ _ Hj' H2')) as (x & r & Hx & Hqx). cbv beta in Hqx.
    rewrite skipn_skipn in Hx. replace (p + (j - p))%nat with j in Hx by lia. rewrite Hx.
    apply andb_true_iff in Hqx as [Hqx _]. apply andb_true_iff in Hqx as [Hqx Hes].
    apply andb_true_iff in Hqx as [Hk Hcl].
    assert (Hlt : x < 128).
    { destruct (N.lt_ge_cases x 128) as [L|L]; [exact L|]. rewrite (class_table_ascii k x L) in Hk. discriminate. }
    split; [split; [|split]|split].
    + destruct (close (x :: r)) as [n|] eqn:Hn; [|reflexivity]. apply Hclose in Hn as (r' & Hr).
      injection Hr as -> _. now rewrite N.eqb_refl in Hcl.
    + discriminate.
    + destruct limit as [l|]; [|exact I]. exact (Hlim l x r eq_refl Hk).
    + unfold no_escape. clear -Hescs Hes. induction Hescs as [|y c ys cs Hyc Hrest IH]; constructor.
      * destruct (es_token y (x :: r)) as [n|] eqn:Hn; [|reflexivity]. apply Hyc in Hn as (r' & Hr).
        injection Hr as -> _. cbn in Hes. rewrite N.eqb_refl in Hes. discriminate.
      * apply IH. cbn in Hes. apply negb_true_iff in Hes. apply orb_false_iff in Hes as [_ Hes].
        now apply negb_true_iff.
    + exists x. split; [now apply ascii_unit_reads|now apply Hden].
Qed.

Lemma lit_token_begins E c cs : no_eof E (c :: cs) -> begins_with (lit_token E (c :: cs)) c.
Proof.
  intros He rest n. unfold lit_token. rewrite (lit_try_raw E rest (c :: cs) 0 He). cbn [skipn].
  destruct rest as [|x r]; cbn [common length].
  - discriminate.
  - destruct (N.eqb_spec c x) as [->|Hne]; [eauto|discriminate].
Qed.

Lemma no_skip_ordinary E inp e close limit escs : skips_ordinary E inp e close limit escs (fun p => p).
Proof. intros p Hp. split; [lia|]. intros j Hj. lia. Qed.

(** ** The word loop does not matter *)

Section Skip.
Variables (E : lenc) (inp : list N) (e : cexpr).
Variables (close : list N -> option nat) (limit : option (list N -> option nat)).
Variable escs : list escape.
Variable skip : nat -> nat.
Hypothesis Hinp : text_units E inp.
Hypothesis Hsane : sane e.
Hypothesis Hesc : consuming escs.
Hypothesis Hskip : skips_ordinary E inp e close limit escs skip.
Variable start : nat.

Notation slow := (del_loop E inp (build e) close limit (fun p => p)).
Notation fast := (del_loop E inp (build e) close limit skip).

Lemma escape_try_none b p : no_escape escs (skipn p inp) -> escape_try inp escs b p = None.
Proof.
  unfold no_escape. intros H. clear Hesc Hskip. induction H as [|x xs Hx _ IH]; cbn; [reflexivity|].
  now rewrite Hx.
Qed.

Lemma slow_pass k : forall fuel b p,
  (forall j, (p <= j < p + k)%nat ->
     goes_on close limit (skipn j inp) /\ no_escape escs (skipn j inp) /\ a_char E e (skipn j inp) 1) ->
  slow (k + fuel)%nat escs start b p = slow fuel escs start b (p + k)%nat.
Proof.
  induction k as [|k IH]; intros fuel b p H; cbn [Nat.add]; [now rewrite Nat.add_0_r|].
  destruct (H p ltac:(lia)) as (Hg & Hn & Hc). cbn [del_loop].
  rewrite (proj1 Hg), (proj2 (goes_on_spec E inp e close limit escs skip Hinp Hskip p (proj1 Hg)) Hg), (escape_try_none b p Hn).
  pose proof (rest_units E inp Hinp p) as Hr.
  destruct (parse_one_spec E e (skipn p inp) Hr Hsane (proj1 (proj2 Hg))) as [(n & -> & Hch)|(n & _ & Hno & _)];
    [|destruct (Hno _ Hc)].
  pose proof (a_char_fun E e e _ _ _ Hch Hc) as ->.
  rewrite IH; [f_equal; lia|]. intros j Hj. apply H. lia.
Qed.

Lemma skip_le p : (p <= length inp)%nat -> (skip p <= length inp)%nat.
Proof.
  intros Hp. destruct (Hskip p Hp) as (H1 & H2).
  destruct (Nat.le_gt_cases (skip p) (length inp)) as [H|H]; [exact H|].
  destruct (H2 (length inp) ltac:(lia)) as ((_ & H0 & _) & _). rewrite skipn_all in H0. contradiction.
Qed.

Lemma fast_slow : forall f1 f2 b p, (b <= p <= length inp)%nat ->
  (length inp - p < f1)%nat -> (length inp - p < f2)%nat ->
  fast f1 escs start b p = slow f2 escs start b p.
Proof.
  induction f1 as [|f1 IH]; intros f2 b p Hb H1 H2; [lia|].
  destruct (Hskip p (proj2 Hb)) as (Hs1 & Hs2). pose proof (skip_le p (proj2 Hb)) as Hs3.
  replace f2 with ((skip p - p) + S (f2 - (skip p - p) - 1))%nat by lia.
  rewrite slow_pass by (intros j Hj; apply Hs2; lia).
  replace (p + (skip p - p))%nat with (skip p) by lia. set (f3 := (f2 - (skip p - p) - 1)%nat).
  cbn [del_loop]. set (s := skip p) in *.
  destruct (close (skipn s inp)) as [n|] eqn:Hclose; [reflexivity|].
  pose proof (goes_on_spec E inp e close limit escs skip Hinp Hskip s Hclose) as Hg.
  destruct (limit_peek E limit (skipn s inp)); [reflexivity|].
  specialize (proj1 Hg eq_refl) as Hgo.
  pose proof (escape_try_spec inp close escs skip Hesc b s Hs3) as Hes.
  destruct (escape_try inp escs b s) as [(p', evs)|].
  - destruct Hes as (Hp' & _). f_equal. apply IH; lia.
  - destruct (parse_one_spec E e (skipn s inp) (rest_units E inp Hinp s) Hsane (proj1 (proj2 Hgo)))
      as [(n & -> & Hch)|(n & -> & Hno & Hfor)].
    + pose proof (a_char_pos E e (skipn s inp) n (proj1 (rest_units E inp Hinp s)) Hch) as Hn. rewrite skipn_length in Hn.
      apply IH; lia.
    + destruct Hfor as (Hn1 & Hn2 & _). rewrite skipn_length in Hn2. f_equal. apply IH; lia.
Qed.
End Skip.

(** With an ASCII class, a literal as closing delimiter and literals as escape tokens: what a
    buffer with word access does is what the loop over characters does. *)
Lemma word_loop_same E w contents e close limit escs k close1 firsts start :
  width_ok w -> unit_width E w -> text_units E contents -> filter_ok k w ->
  close1 < 2 ^ w -> Forall (fun x => x < 2 ^ w) firsts ->
  begins_with close close1 -> Forall2 (fun x c => begins_with (es_token x) c) escs firsts ->
  (forall x, class_table k x = true -> denotes e x) -> sane e -> consuming escs ->
  (forall l x r, limit = Some l -> class_table k x = true -> l (x :: r) = None) ->
  (start <= length contents)%nat ->
  delimited E contents (build e) close limit escs
    (del_skip w (leof E) close1 firsts k (buffer_mem (leof E) contents)) start =
  delimited E contents (build e) close limit escs (fun p => p) start.
Proof.
  intros. apply fast_slow; try assumption; try lia. now apply word_loop_ordinary.
Qed.

(** The simplest use: no escapes, no limit, and every unit is a character of the class. *)
Lemma delimited_plain E inp e close skip start :
  text_units E inp -> sane e -> skips_ordinary E inp e close None [] skip ->
  unit_class E e inp -> (start <= length inp)%nat -> bounded close ->
  (forall q n, first_match close (skipn start inp) q n ->
     delimited E inp (build e) close None [] skip start =
       DClosed (if (0 <? q)%nat then [DChars start (start + q)] else []) (start + q) (start + q + n)) /\
  (never_matches close (skipn start inp) ->
     delimited E inp (build e) close None [] skip start =
       DFail ((if (start <? length inp)%nat then [DChars start (length inp)] else [])
              ++ [DMissing start (length inp)]) (length inp)).
Proof.
  intros Hinp Hs Hskip Hu Hst Hbd.
  destruct (delimited_spec E inp e close None [] skip Hinp Hs (conj (Forall_nil _) (Forall_nil _)) Hskip start Hst)
    as (ps & q & Hc & Hq & Ho).
  pose proof (content_first E inp e close Hinp Hu start ps q Hc) as Hfirst.
  assert (Hrep : forall b, reported b ps q = if (b <? q)%nat then [DChars b q] else []).
  { clear -Hc Hu Hinp. 
    assert (Hlt : forall p, skipn p inp <> [] -> (p < length inp)%nat).
    { intros p' Hp. destruct (Nat.le_gt_cases (length inp) p') as [L|L]; [|exact L]. destruct Hp. now apply skipn_all2. }
    induction Hc as [p|p n ps q Hg Hn Hc Hr IH|p n ps q Hg Hn Hc Hf Hr IH|p x n i m ps q Hg Hx Hb Hr IH|p x n ps q Hg Hx Hb Hr IH];
      intros b; cbn [reported].
    - reflexivity.
    - apply IH.
    - destruct (Hc 1%nat (Hu p (Hlt p (proj1 (proj2 Hg))))).
    - destruct Hx as (pre & post & Hx & _). destruct pre; discriminate.
    - destruct Hx as (pre & post & Hx & _). destruct pre; discriminate. }
  unfold outcome in Ho. rewrite Hrep in Ho. split.
  - intros k n (Hk1 & Hk2 & Hk3). rewrite skipn_skipn in Hk2. rewrite skipn_length in Hk1.
    assert (Hqk : q = (start + k)%nat).
    { destruct (Nat.lt_trichotomy q (start + k)) as [L|[L|L]]; [exfalso|exact L|exfalso].
      - specialize (Hk3 (q - start)%nat ltac:(lia)). rewrite skipn_skipn in Hk3.
        replace (start + (q - start))%nat with q in Hk3 by lia.
        destruct Ho as [(n' & Hn' & _)|(_ & Hg & _)]; [congruence|]. apply Hg. split; [exact Hk3|]. split; [|exact I].
        intros H0. apply (f_equal (@length N)) in H0. rewrite skipn_length in H0. cbn in H0. lia.
      - rewrite (Hfirst (start + k)%nat ltac:(lia)) in Hk2. discriminate. }
    subst q. destruct Ho as [(n' & Hn' & ->)|(Hn' & _ & _)]; [|congruence].
    rewrite Hk2 in Hn'. injection Hn' as <-. f_equal.
    destruct (Nat.ltb_spec start (start + k)), (Nat.ltb_spec 0 k); try reflexivity; lia.
  - intros Hnever. assert (Hn : close (skipn q inp) = None).
    { specialize (Hnever (q - start)%nat). rewrite skipn_skipn in Hnever.
      replace (start + (q - start))%nat with q in Hnever by lia. apply Hnever. rewrite skipn_length. lia. }
    destruct Ho as [(n' & Hn' & _)|(_ & Hg & ->)]; [congruence|].
    assert (q = length inp) as ->; [|reflexivity].
    destruct (Nat.eq_dec q (length inp)) as [E0|E0]; [exact E0|]. exfalso. apply Hg. split; [exact Hn|]. split; [|exact I].
    intros H0. apply (f_equal (@length N)) in H0. rewrite skipn_length in H0. cbn in H0. lia.
Qed.
