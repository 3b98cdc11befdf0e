(** Proofs about the shell. *)
From Verif Require Import Prelude BufferModel IoModel IoSpec IoProofs.
Open Scope N_scope.
Arguments Nat.mul : simpl never.
Arguments Nat.div : simpl never.
Arguments repeat : simpl never.

Lemma take_line_spec n text l r e : take_line n text = (l, r, e) ->
  text = l ++ r /\ (length l <= n)%nat /\
  ((exists l', l = l' ++ [NL] /\ e = false) \/
   (~ In NL l /\ ((length l = n /\ e = false) \/ ((length l < n)%nat /\ r = [] /\ e = true)))).
Proof.
  revert text l r e. induction n as [|n IH]; intros text l r e H; cbn in H.
  - injection H as <- <- <-. cbn. split; [reflexivity|]. split; [lia|]. right. split; [auto|]. left. auto.
  - destruct text as [|c text]; [injection H as <- <- <-; cbn; split; [reflexivity|]; split; [lia|]; right; split; [auto|]; right; split; [lia|auto]|].
    destruct (N.eqb_spec c NL) as [->|Hc].
    + injection H as <- <- <-. cbn. split; [reflexivity|]. split; [lia|]. left. exists []. auto.
    + destruct (take_line n text) as ((l', r'), e') eqn:Ht. injection H as <- <- <-.
      destruct (IH _ _ _ _ Ht) as (H1 & H2 & H3). cbn. split; [now rewrite H1|]. split; [lia|].
      destruct H3 as [(l2 & -> & He)|(H3 & H4)]; [left; exists (c :: l2); auto|right].
      split; [intros [H|H]; [congruence|contradiction]|]. destruct H4 as [H4|H4]; [left|right]; split; try lia; tauto.
Qed.

Lemma complete_rest l r : complete (l ++ r) -> r <> [] -> complete r.
Proof.
  intros [H|(t & H)] Hr; [apply app_eq_nil in H; tauto|]. right.
  destruct (exists_last Hr) as (r' & x & ->). rewrite app_assoc in H. apply app_inj_tail in H as (_ & ->). eauto.
Qed.
Lemma complete_in l : complete l -> l <> [] -> In NL l.
Proof. intros [H|(t & ->)] Hn; [contradiction|]. apply in_or_app. right. now left. Qed.

Lemma readable_rest f l r : readable f (l ++ r) -> readable f r.
Proof.
  intros H Hf. destruct (H Hf) as (H1 & H2). split; [intros Hin; apply H1, in_or_app; now right|].
  intros pre mid post Hr Hl. apply (H2 (l ++ pre) mid post); [|exact Hl]. rewrite Hr. now rewrite app_assoc.
Qed.

Lemma until_nul_all l : ~ In 0 l -> until_nul l = length l.
Proof.
  induction l as [|c l IH]; intros H; cbn; [reflexivity|]. destruct (N.eqb_spec c 0) as [->|]; [exfalso; apply H; now left|].
  rewrite IH; [reflexivity|]. intros Hin. apply H. now right.
Qed.

Definition with_text (p : prompt) (t : list N) : prompt := Prompt t (pr_closed p) (pr_eager p) (pr_fgets p).

(** Reading from a prompt: part of the text is delivered and stored, maybe with a NUL behind. *)
Lemma read_spec p size : (128 <= size)%nat \/ (pr_fgets p = false /\ 0 < size)%nat -> complete (pr_text p) -> pr_text p <> [] ->
  readable (pr_fgets p) (pr_text p) ->
  exists l more rest, pr_read p size = (l ++ more, length l, with_text p rest) /\ pr_text p = l ++ rest /\
    (length (l ++ more) <= size)%nat /\ (0 < length l)%nat /\
    ((exists l', l = l' ++ [NL]) \/ (pr_fgets p = false /\ ~ In NL l /\ length l = size /\ rest <> [])).
Proof.
  intros Hsize Hc Hne Hr. unfold pr_read. destruct (pr_fgets p) eqn:Hf.
  - destruct Hsize as [Hsize|(H & _)]; [|discriminate]. destruct (take_line (size - 1) (pr_text p)) as ((l, r), e) eqn:Ht.
    destruct (take_line_spec _ _ _ _ _ Ht) as (H1 & H2 & H3). destruct (Hr eq_refl) as (Hnul & Hlines).
    assert (Hnl : exists l', l = l' ++ [NL] /\ e = false).
    { destruct H3 as [H3|(H3 & H4)]; [exact H3|]. exfalso. destruct H4 as [(H4 & _)|(_ & H4 & _)].
      - apply H3. assert (G : In NL (firstn 127 l)).
        { apply (Hlines [] (firstn 127 l) (skipn 127 l ++ r)); [rewrite app_nil_l, app_assoc, firstn_skipn; exact H1|rewrite firstn_length; lia]. }
        rewrite <- (firstn_skipn 127 l). apply in_or_app. now left.
      - subst r. rewrite app_nil_r in H1. apply H3. rewrite <- H1. now apply complete_in. }
    destruct Hnl as (l' & -> & ->). destruct (l' ++ [NL]) as [|x l''] eqn:Hl; [destruct l'; discriminate|]. rewrite <- Hl in *.
    exists (l' ++ [NL]), [0], r. rewrite until_nul_all.
    2:{ intros Hin. apply Hnul. rewrite H1. apply in_or_app. now left. }
    rewrite orb_false_r. split; [unfold with_text; now rewrite Hf|]. split; [exact H1|]. rewrite app_length. cbn [length].
    split; [lia|]. split; [rewrite app_length; cbn; lia|]. left. eauto.
  - destruct (take_line size (pr_text p)) as ((l, r), e) eqn:Ht. destruct (take_line_spec _ _ _ _ _ Ht) as (H1 & H2 & H3).
    assert (Hr0 : (exists l', l = l' ++ [NL] /\ e = false) \/ (~ In NL l /\ length l = size /\ e = false /\ r <> [])).
    { destruct H3 as [H3|(H3 & [(H4 & H5)|(_ & H4 & _)])]; [now left| |].
      - right. split; [exact H3|]. split; [exact H4|]. split; [exact H5|]. intros ->. rewrite app_nil_r in H1. apply H3. rewrite <- H1. now apply complete_in.
      - exfalso. subst r. rewrite app_nil_r in H1. apply H3. rewrite <- H1. now apply complete_in. }
    assert (He : e = false) by (destruct Hr0 as [(l' & _ & He)|(_ & _ & He & _)]; exact He). subst e.
    exists l, [], r. rewrite orb_false_r, app_nil_r. split; [unfold with_text; now rewrite Hf|]. split; [exact H1|]. split; [exact H2|].
    split.
    + destruct Hr0 as [(l' & -> & _)|(_ & H & _)]; [rewrite app_length; cbn; lia|lia].
    + destruct Hr0 as [(l' & -> & _)|(Ha & Hb & _ & Hd)]; [left; eauto|right; auto].
Qed.

Lemma last_unit_ok b got c : bb_ok b (got ++ [c]) -> bb_width b = 1%nat -> last_unit b = Some c.
Proof.
  intros (H1 & H2 & H3 & H4) Hw. unfold last_unit, bb_read_bytes in *. rewrite Hw in *. rewrite Nat.mul_1_r in *.
  rewrite app_length in H4. cbn in H4. destruct (bb_read b) as [|i] eqn:Hi; [lia|].
  assert (Hd : nth_error (bb_data b) i = Some (Some c)).
  { assert (G : nth_error (firstn (S i) (bb_data b)) i = Some (Some c)).
    { rewrite H3, map_app. replace i with (length (map (@Some N) got)) by (rewrite map_length; lia). now rewrite nth_error_app2, Nat.sub_diag. }
    clear -G. revert G. assert (G' : forall n i (l : list cell) x, nth_error (firstn n l) i = Some x -> nth_error l i = Some x).
    { induction n as [|n IH]; intros [|j] [|y l] x G; cbn in *; try discriminate; auto. }
    apply G'. }
  now rewrite Hd.
Qed.

(** Appending a line to the buffer. *)
Lemma append_loop_ok : forall fuel b p got, bb_ok b got -> bb_width b = 1%nat ->
  (128 <= bb_write b)%nat \/ (pr_fgets p = false /\ 0 < bb_write b)%nat ->
  complete (pr_text p) -> pr_text p <> [] -> readable (pr_fgets p) (pr_text p) -> (length (pr_text p) < fuel)%nat ->
  exists b' l rest, append_loop fuel b p = App true b' (with_text p rest) /\ pr_text p = l ++ rest /\
    (0 < length l)%nat /\ bb_ok b' (got ++ l) /\ bb_width b' = 1%nat.
Proof.
  induction fuel as [|fuel IH]; intros b p got Hok Hw Hsize Hc Hne Hr Hf; [lia|]. cbn [append_loop].
  destruct (read_spec p (bb_write b) Hsize Hc Hne Hr) as (l & more & rest & Hrd & Ht & Hle & Hpos & Hend). rewrite Hrd.
  destruct (ok_fill_more b got l more Hok Hw Hle) as (b1 & b2 & Hb1 & Hb2 & Hok2 & Hwr2 & Hw2 & Hrd2). rewrite Hb1, Hb2.
  destruct (@exists_last N l) as (l0 & c & Hl0); [destruct l; [cbn in Hpos; lia|discriminate]|].
  assert (Hlast : last_unit b2 = Some c).
  { apply (last_unit_ok b2 (got ++ l0)); [|exact Hw2]. rewrite <- app_assoc, <- Hl0. exact Hok2. }
  rewrite Hlast. destruct Hend as [(l' & Hl')|(Hfg & Hnl & Hlen & Hrest)].
  - assert (c = NL) as -> by (rewrite Hl' in Hl0; now apply app_inj_tail in Hl0 as (_ & <-)). rewrite N.eqb_refl.
    exists b2, l, rest. auto.
  - destruct (N.eqb_spec c NL) as [->|Hcn]; [exfalso; apply Hnl; rewrite Hl0; apply in_or_app; right; now left|].
    destruct (Nat.ltb_spec (length l) (bb_write b)) as [L|L]; [lia|].
    destruct (IH (bb_grow b2) (with_text p rest) (got ++ l)) as (b' & l2 & rest2 & G1 & G2 & G3 & G4 & G5).
    + now apply ok_grow.
    + exact Hw2.
    + right. split; [exact Hfg|]. rewrite grow_write. unfold bb_capacity. lia.
    + cbn. apply (complete_rest l); [now rewrite <- Ht|exact Hrest].
    + exact Hrest.
    + cbn. apply (readable_rest _ l). now rewrite <- Ht.
    + cbn. rewrite Ht, app_length in Hf. lia.
    + exists b', (l ++ l2), rest2. rewrite G1. split; [reflexivity|]. cbn in G2. split; [rewrite Ht, G2; now rewrite app_assoc|].
      rewrite app_length. split; [lia|]. split; [now rewrite app_assoc|exact G5].
Qed.

Lemma append_line_ok b p got : bb_ok b got -> bb_width b = 1%nat -> (128 <= bb_capacity b)%nat ->
  complete (pr_text p) -> pr_text p <> [] -> readable (pr_fgets p) (pr_text p) ->
  exists b' l rest, append_next_line b p = App true b' (with_text p rest) /\ pr_text p = l ++ rest /\
    (0 < length l)%nat /\ bb_ok b' (got ++ l) /\ bb_width b' = 1%nat.
Proof.
  intros Hok Hw Hcap Hc Hne Hr. unfold append_next_line.
  destruct (Nat.ltb_spec (bb_write b) 128) as [L|L].
  - apply append_loop_ok; auto; [now apply ok_grow|]. left. rewrite grow_write. lia.
  - apply append_loop_ok; auto.
Qed.

(** The capacity never shrinks. *)
Lemma cap_fill b bytes b1 n b2 : bb_fill b bytes = Some b1 -> bb_commit b1 n = Some b2 -> bb_capacity b2 = bb_capacity b.
Proof.
  unfold bb_fill, bb_commit, bb_capacity. destruct (_ <=? _)%nat; [|discriminate]. intros [= <-]. cbn.
  destruct (Nat.leb_spec n (bb_write b)); [|discriminate]. intros [= <-]. cbn. lia.
Qed.
Lemma cap_loop : forall fuel b p x b' p', append_loop fuel b p = App x b' p' -> (bb_capacity b <= bb_capacity b')%nat.
Proof.
  induction fuel as [|fuel IH]; intros b p x b' p' H; cbn [append_loop] in H; [discriminate|].
  destruct (pr_read p (bb_write b)) as ((bytes, read), q). destruct (bb_fill b bytes) as [b1|] eqn:H1; [|discriminate].
  destruct (bb_commit b1 read) as [b2|] eqn:H2; [|discriminate]. pose proof (cap_fill _ _ _ _ _ H1 H2) as Hc.
  destruct (last_unit b2) as [c|]; [|discriminate]. destruct (c =? NL); [injection H as _ <- _; lia|].
  destruct (_ <? _)%nat; [destruct (pr_is_open q); [discriminate|injection H as _ <- _; lia]|].
  apply IH in H. assert (Hg : (bb_capacity (bb_grow b2) = 2 * bb_capacity b2)%nat) by (unfold bb_grow, bb_capacity; cbn; lia). lia.
Qed.
Lemma cap_append b p x b' p' : append_next_line b p = App x b' p' -> (bb_capacity b <= bb_capacity b')%nat.
Proof.
  unfold append_next_line. intros H. apply cap_loop in H. destruct (_ <? _)%nat; [|exact H].
  assert (Hg : (bb_capacity (bb_grow b) = 2 * bb_capacity b)%nat) by (unfold bb_grow, bb_capacity; cbn; lia). lia.
Qed.

(** The state of a shell that has read [got] of the text. *)
Definition shell_ok (text : list N) (eager fgets : bool) (s : shell) : Prop :=
  exists got, bb_ok (sh_buf s) got /\ bb_width (sh_buf s) = 1%nat /\ (128 <= bb_capacity (sh_buf s))%nat /\
    text = got ++ pr_text (sh_prompt s) /\ complete (pr_text (sh_prompt s)) /\ readable fgets (pr_text (sh_prompt s)) /\
    pr_closed (sh_prompt s) = false /\ pr_eager (sh_prompt s) = eager /\ pr_fgets (sh_prompt s) = fgets.

Lemma read_unit_ok s got i c : bb_ok (sh_buf s) got -> bb_width (sh_buf s) = 1%nat -> nth_error got i = Some c ->
  read_unit s i = PkChar c s.
Proof.
  intros Hok Hw Hi. unfold read_unit. pose proof (deref_ok _ _ i Hok Hw) as Hd. rewrite Hi in Hd. unfold bb_deref in Hd.
  destruct (_ <? _)%nat; [|discriminate]. rewrite Hw, Nat.mul_1_r in Hd. injection Hd as Hd.
  assert (G : nth_error (bb_data (sh_buf s)) i = Some (Some c)); [|now rewrite G].
  revert i Hi Hd. clear. intros i _. revert i. induction (bb_data (sh_buf s)) as [|x l IH]; intros [|i] H; cbn in *; try discriminate.
  - injection H as ->. reflexivity.
  - now apply IH.
Qed.

Lemma start_ok text eager fgets b p : text <> [] -> complete text -> readable fgets text ->
  (exists ops, brun (bb_new 1) ops = Some b) -> p = Prompt text false eager fgets ->
  exists b' p', prompt_for_input (Shell b p) = App true b' p' /\ shell_ok text eager fgets (Shell b' p').
Proof.
  intros Hne Hc Hr (ops & Hops) ->. destruct (run_ok ops (bb_new 1) b [] eq_refl (ok_new 1 ltac:(lia)) Hops) as (Hok & Hw).
  assert (Hcap : (128 <= bb_capacity b)%nat).
  { assert (G : forall ops b b', brun b ops = Some b' -> (bb_capacity b <= bb_capacity b')%nat).
    { clear. induction ops as [|o ops IH]; intros b b' H; cbn in H; [injection H as <-; lia|].
      destruct (bstep b o) as [b1|] eqn:Hs; [|discriminate]. apply IH in H.
      enough (bb_capacity b <= bb_capacity b1)%nat by lia. destruct o; cbn in Hs.
      - destruct (bb_fill b bytes) as [b0|] eqn:Hf; [|discriminate]. rewrite (cap_fill _ _ _ _ _ Hf Hs). lia.
      - injection Hs as <-. unfold bb_grow, bb_capacity. cbn. lia.
      - injection Hs as <-. unfold bb_clear, bb_capacity. cbn. lia. }
    apply G in Hops. assert (Hn : (128 <= bb_capacity (bb_new 1))%nat) by (apply Nat.leb_le; vm_compute; reflexivity). lia. }
  unfold prompt_for_input. cbn [sh_buf sh_prompt].
  destruct (append_line_ok (bb_clear b) (Prompt text false eager fgets) []) as (b' & l & rest & H1 & H2 & H3 & H4 & H5); auto.
  - now apply (ok_clear b (appended ops [])).
  - unfold bb_clear, bb_capacity in *. cbn. lia.
  - exists b', (with_text (Prompt text false eager fgets) rest). split; [exact H1|].
    exists l. apply cap_append in H1. cbn [pr_text] in H2. unfold bb_clear, bb_capacity in *. cbn in *.
    split; [exact H4|]. split; [exact H5|]. split; [lia|]. split; [exact H2|].
    split; [destruct rest as [|x r]; [now left|apply (complete_rest l); [now rewrite <- H2|discriminate]]|].
    split; [apply (readable_rest _ l); now rewrite <- H2|auto].
Qed.

Lemma peek_ok text eager fgets s i : shell_ok text eager fgets s -> (i <= bb_read (sh_buf s))%nat -> (i < length text)%nat ->
  exists c s', nth_error text i = Some c /\ shell_peek_at s i = PkChar c s' /\ shell_ok text eager fgets s' /\ (S i <= bb_read (sh_buf s'))%nat.
Proof.
  intros (got & Hok & Hw & Hcap & Ht & Hc & Hr & Hcl & He & Hf) Hi Hlt.
  assert (Hrd : length got = bb_read (sh_buf s)) by (destruct Hok as (_ & _ & _ & ->); rewrite Hw; lia).
  unfold shell_peek_at. destruct (Nat.eqb_spec i (bb_read (sh_buf s))) as [Hi2|Hi2]; cbn [negb].
  - assert (Hne : pr_text (sh_prompt s) <> []).
    { intros H. rewrite H, app_nil_r in Ht. subst text. lia. }
    unfold pr_is_open. rewrite Hcl. replace (match pr_text (sh_prompt s) with [] => true | _ => false end) with false by (destruct (pr_text (sh_prompt s)); [congruence|reflexivity]).
    rewrite andb_false_r. cbn [negb andb].
    destruct (append_line_ok (sh_buf s) (sh_prompt s) got Hok Hw Hcap Hc Hne ltac:(now rewrite Hf)) as (b' & l & rest & H1 & H2 & H3 & H4 & H5).
    rewrite H1. destruct (nth_error text i) as [c|] eqn:Hn; [|apply nth_error_None in Hn; lia].
    exists c, (Shell b' (with_text (sh_prompt s) rest)). split; [reflexivity|]. split.
    + apply (read_unit_ok _ (got ++ l)); [exact H4|exact H5|]. rewrite Ht, H2, app_assoc in Hn. rewrite nth_error_app1 in Hn; [exact Hn|].
      rewrite app_length. lia.
    + split.
      * exists (got ++ l). cbn. apply cap_append in H1. split; [exact H4|]. split; [exact H5|]. split; [lia|]. split; [rewrite Ht, H2; now rewrite app_assoc|].
        split; [destruct rest as [|x r]; [now left|apply (complete_rest l); [now rewrite <- H2|discriminate]]|].
        split; [apply (readable_rest _ l); now rewrite <- H2|auto].
      * cbn. destruct H4 as (_ & _ & _ & H4). rewrite H5, app_length in H4. lia.
  - assert (Hn : nth_error text i = nth_error got i) by (rewrite Ht, nth_error_app1; [reflexivity|lia]).
    destruct (nth_error got i) as [c|] eqn:Hg; [|apply nth_error_None in Hg; lia].
    exists c, s. split; [exact Hn|]. split; [now apply (read_unit_ok s got)|]. split; [|lia].
    exists got. auto 12.
Qed.

Lemma session_ok text eager fgets s0 s i : text <> [] -> complete text -> readable fgets text ->
  (exists ops, brun (bb_new 1) ops = Some (sh_buf s0)) -> sh_prompt s0 = Prompt text false eager fgets ->
  session text s0 s i -> shell_ok text eager fgets s /\ (i <= bb_read (sh_buf s))%nat /\ (i <= length text)%nat.
Proof.
  intros Hne Hc Hr Hops Hp H. induction H as [s0 b p H|s0 s i c s' H IH Hlt Hpk|s0 s i c s' H IH Hlt Hpk|s0 s i j H IH Hle].
  - destruct s0 as [b0 p0]. cbn [sh_buf sh_prompt] in *. destruct (start_ok text eager fgets b0 p0 Hne Hc Hr Hops Hp) as (b' & p' & H1 & H2).
    rewrite H in H1. injection H1 as <- <-. split; [exact H2|]. lia.
  - destruct (IH Hops Hp) as (H1 & H2 & H3). destruct (peek_ok text eager fgets s i H1 H2 Hlt) as (c' & s2 & _ & G1 & G2 & G3).
    rewrite Hpk in G1. injection G1 as <- <-. split; [exact G2|]. lia.
  - destruct (IH Hops Hp) as (H1 & H2 & H3). destruct (peek_ok text eager fgets s i H1 H2 Hlt) as (c' & s2 & _ & G1 & G2 & G3).
    rewrite Hpk in G1. injection G1 as <- <-. split; [exact G2|]. lia.
  - destruct (IH Hops Hp) as (H1 & H2 & H3). split; [exact H1|]. lia.
Qed.

Lemma session_peek text eager fgets s0 : text <> [] -> complete text -> readable fgets text ->
  (exists ops, brun (bb_new 1) ops = Some (sh_buf s0)) -> sh_prompt s0 = Prompt text false eager fgets ->
  (exists b p, prompt_for_input s0 = App true b p) /\
  forall s i, session text s0 s i ->
    (i <= length text)%nat /\
    ((i < length text)%nat -> exists c s', nth_error text i = Some c /\ shell_peek_at s i = PkChar c s') /\
    (i = length text -> eager = true -> exists s', shell_peek_at s i = PkEof s').
Proof.
  intros Hne Hc Hr Hops Hp. split.
  - destruct s0 as [b0 p0]. cbn [sh_buf sh_prompt] in *. destruct (start_ok text eager fgets b0 p0 Hne Hc Hr Hops Hp) as (b' & p' & H1 & _). eauto.
  - intros s i H. destruct (session_ok text eager fgets s0 s i Hne Hc Hr Hops Hp H) as (H1 & H2 & H3). split; [exact H3|]. split.
    + intros Hlt. destruct (peek_ok text eager fgets s i H1 H2 Hlt) as (c & s' & G1 & G2 & _). eauto.
    + intros -> ->. destruct H1 as (got & Hok & Hw & Hcap & Ht & _ & _ & Hcl & He & Hf).
      assert (Hrd : length got = bb_read (sh_buf s)) by (destruct Hok as (_ & _ & _ & ->); rewrite Hw; lia).
      assert (Hl : (length text = length got + length (pr_text (sh_prompt s)))%nat) by (rewrite Ht, app_length; reflexivity).
      assert (Hz : pr_text (sh_prompt s) = []) by (destruct (pr_text (sh_prompt s)); [reflexivity|cbn in Hl; lia]).
      unfold shell_peek_at. destruct (Nat.eqb_spec (length text) (bb_read (sh_buf s))) as [_|Hx]; [|rewrite Hz in Hl; cbn in Hl; lia].
      cbn [negb]. unfold pr_is_open. rewrite He, Hz, andb_false_r. cbn [negb]. eauto.
Qed.
