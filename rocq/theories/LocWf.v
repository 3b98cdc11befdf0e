(** Locations in bytes and in well-formed text. *)
From Verif Require Import Prelude CodecModel CodecSpec CodecProofs SwarSpec LitModel LitSpec
  ClassModel ClassSpec ClassProofs TextModel TextSpec TextProofs LocModel LocSpec LocProofs LocText.
Open Scope N_scope.

(** ** Bytes *)

Section Bytes.
Variables (E : lenc) (inp : list N) (w : nat).
Hypothesis Hinp : text_units E inp.
Hypothesis Hw : (0 < w)%nat.

Definition byte_inv (s : lst) : Prop :=
  exists k, s_lb s = (k * w)%nat /\ s_idx s = (s_cur s - s_lb s)%nat /\ (s_lb s <= s_cur s < s_lb s + w)%nat /\
    s_nr s = as_unsigned (1 + k) /\ s_col s = as_unsigned (1 + (s_cur s - s_lb s)).

Lemma byte_step s s' : byte_inv s -> stepf E (CBytes w) inp s = Some s' -> byte_inv s'.
Proof.
  intros (k & H1 & H2 & H3 & H4 & H5) Hs.
  apply stepf_inv in Hs as (L & [(n & i & Ht & Hn & ->)|(n & i & Ht & Hm & Hn & ->)]); [| |exact Hinp].
  - cbn [try_match_newline] in Ht. rewrite (rest_peek E inp Hinp) in Ht.
    destruct (Nat.leb_spec (length inp) (s_cur s)); [lia|].
    destruct (Nat.eqb_spec (s_idx s) (w - 1)) as [Hi|]; [|discriminate]. injection Ht as <- <-.
    exists (S k). cbn [s_lb s_idx s_cur s_nr s_col]. rewrite Nat.sub_diag.
    split; [lia|]. split; [reflexivity|]. split; [lia|]. split; [|reflexivity]. rewrite H4. apply as_unsigned_inc.
  - cbn [try_match_newline] in Ht. destruct (Nat.eqb_spec (s_idx s) (w - 1)) as [|Hi]; [discriminate|].
    cbn in Hm. injection Hm as <- <-. exists k. cbn [s_lb s_idx s_cur s_nr s_col].
    split; [exact H1|]. split; [lia|]. split; [lia|]. split; [exact H4|]. rewrite H5, as_unsigned_inc. f_equal. lia.
Qed.

Lemma byte_location pos : (pos <= length inp)%nat ->
  get_input_location E (CBytes w) inp pos input_anchor =
  Loc (Location (pos / w * w)%nat (as_unsigned (1 + pos / w)) pos (as_unsigned (1 + pos mod w))).
Proof.
  intros Hp. destruct (get_final E (CBytes w) inp Hinp pos input_anchor ltac:(cbn; lia)) as (t & (Hst & Hend) & ->).
  assert (Hi : byte_inv t).
  { assert (G : forall s, steps E (CBytes w) inp s t -> byte_inv s -> byte_inv t).
    { clear Hst. intros s H. induction H as [|s s' t Hs H IH]; [auto|]. intros Hi. apply IH; [exact Hend|]. eapply byte_step; eassumption. }
    apply (G _ Hst). exists 0%nat. cbn. split; [reflexivity|]. split; [reflexivity|]. split; [lia|]. auto. }
  destruct Hi as (k & H1 & H2 & H3 & H4 & H5).
  assert (Hc : s_cur t = pos).
  { destruct Hend as [Hend|(Hlt & t' & Hs & Hlt')]; [exact Hend|].
    apply stepf_inv in Hs as (L & Hs); [|exact Hinp].
    destruct Hs as [(n & i & Ht & Hn & ->)|(n & i & Ht & Hm & Hn & ->)]; cbn [s_cur] in Hlt'.
    - cbn [try_match_newline] in Ht. destruct (_ =? _)%nat; [|discriminate].
      destruct (lpeek E _ =? leof E); injection Ht as <- <-; lia.
    - cbn in Hm. injection Hm as <- <-. lia. }
  unfold loc_of. rewrite Hc in *.
  assert (Hk : (pos / w = k)%nat) by (symmetry; apply (Nat.div_unique pos w k (pos - k * w)); lia).
  assert (Hm : (pos mod w = pos - s_lb t)%nat) by (rewrite Nat.mod_eq by lia; rewrite Hk; lia).
  rewrite H4, H5, H1, Hk, Hm, H1. reflexivity.
Qed.
End Bytes.

(** ** Well-formed text *)

Definition valid1 (e : encoding) (c : N) : Prop := match e with Ascii => c < 128 | _ => scalar c end.

Lemma enc_shape e c : valid1 e c -> exists x r, encode_code_point e c = x :: r /\
  (c < 128 -> x = c /\ r = []) /\ (128 <= c -> 128 <= x) /\
  ~ continues (Enc e) x /\ Forall (continues (Enc e)) r.
Proof.
  intros H. destruct e; cbn [valid1] in H.
  - exists (c mod 0x100), []. split; [reflexivity|]. split; [intros _; split; [apply N.mod_small; lia|reflexivity]|].
    split; [lia|]. split; [auto|constructor].
  - rewrite encode_utf8_arith. unfold continues, scalar in *.
    destruct (N.leb_spec c 0x7F); [|destruct (N.leb_spec c 0x7FF); [|destruct (N.leb_spec c 0xFFFF)]];
      eexists _, _; (split; [reflexivity|]).
    + split; [auto|]. split; [lia|]. split; [lia|constructor].
    + split; [lia|]. split; [lia|]. split; [lia|]. repeat constructor; lia.
    + split; [lia|]. split; [lia|]. split; [lia|]. repeat constructor; lia.
    + split; [lia|]. split; [lia|]. split; [lia|]. repeat constructor; lia.
  - unfold continues, scalar in *. destruct (N.le_gt_cases c 0xFFFF) as [L|L].
    + unfold encode_code_point. destruct (N.leb_spec c 0xFFFF); [|lia].
      exists c, []. split; [reflexivity|]. split; [auto|]. split; [lia|]. split; [lia|constructor].
    + rewrite encode_utf16_supp by lia. eexists _, _. split; [reflexivity|]. split; [lia|]. split; [lia|]. split; [lia|].
      repeat constructor; lia.
  - exists c, []. cbn. split; [reflexivity|]. split; [auto|]. split; [lia|]. split; [auto|constructor].
Qed.

Lemma enc_reads e c rest : valid1 e c -> ~ In (leof (Enc e)) (encode_code_point e c) ->
  exists c', reads (Enc e) (encode_code_point e c ++ rest) c' (length (encode_code_point e c)).
Proof.
  intros H He. destruct e; cbn [valid1 reads] in *.
  - exists c. cbn [encode_code_point] in *. rewrite N.mod_small by lia. cbn [app length]. apply ascii_success. split; [reflexivity|].
    exists rest. split; [reflexivity|lia].
  - exists c. now apply utf8_roundtrip.
  - destruct (utf16_roundtrip_part c rest H) as (_ & ->). eauto.
  - exists c. cbn [encode_code_point app length].
    assert (Hc : c <> eof Utf32) by (unfold scalar in H; cbn [eof]; lia).
    destruct (proj2 (utf32_parse c rest Hc) H) as (n & Hn). rewrite Hn. apply utf32_success in Hn as (-> & _). reflexivity.
Qed.

Lemma encoded_app e a b : encoded e (a ++ b) = encoded e a ++ encoded e b.
Proof. unfold encoded. now rewrite map_app, concat_app. Qed.

Lemma skipn_app_len {A} (a b : list A) : skipn (length a) (a ++ b) = b.
Proof. induction a; cbn; auto. Qed.

Definition colspec (b : nat) (cps : list N) : nat :=
  if existsb (fun x => x =? LF) cps then (1 + length (last_line cps))%nat else (b + length cps)%nat.
Lemma colspec_lf b cps : colspec b (LF :: cps) = colspec 1 cps.
Proof. unfold colspec. cbn [existsb last_line]. rewrite N.eqb_refl. cbn [orb]. now destruct (existsb _ cps). Qed.
Lemma colspec_other b c cps : c <> LF -> colspec b (c :: cps) = colspec (S b) cps.
Proof.
  intros Hc. unfold colspec. cbn [existsb last_line length]. destruct (N.eqb_spec c LF); [contradiction|]. cbn [orb].
  destruct (existsb _ cps); [reflexivity|lia].
Qed.
Lemma newlines_cons c cps : newlines (c :: cps) = ((if (c =? LF)%N then 1 else 0) + newlines cps)%nat.
Proof. unfold newlines. cbn. now destruct (c =? LF). Qed.

Section Wf.
Variables (e : encoding) (cps : list N).
Hypothesis Hv : Forall (valid1 e) cps.
Notation inp := (encoded e cps).
Hypothesis Hinp : text_units (Enc e) inp.

Lemma wf_char done c rest : cps = done ++ c :: rest ->
  let here := skipn (length (encoded e done)) inp in
  here = encode_code_point e c ++ encoded e rest /\ valid1 e c /\
  (exists c', reads (Enc e) here c' (length (encode_code_point e c))) /\
  (forall n, newline_at here n <->
     (c = LF /\ n = 1%nat) \/ (c = CR /\ n = 2%nat /\ exists r, rest = LF :: r)).
Proof.
  intros Hc here.
  assert (Hh : here = encode_code_point e c ++ encoded e rest).
  { unfold here. rewrite Hc, encoded_app, skipn_app_len. reflexivity. }
  assert (Hvc : valid1 e c) by (rewrite Hc in Hv; apply Forall_app in Hv as (_ & Hv'); now inversion_clear Hv').
  split; [exact Hh|]. split; [exact Hvc|]. split.
  - rewrite Hh. apply enc_reads; [exact Hvc|]. intros Hin. apply (proj2 Hinp). rewrite Hc, encoded_app.
    apply in_or_app. right. cbn [encoded map concat]. apply in_or_app. now left.
  - rewrite Hh. destruct (enc_shape e c Hvc) as (x & r & -> & H1 & H2 & _ & _). cbn [app].
    assert (Hr : forall c', Forall (valid1 e) rest -> c' < 128 -> (exists l, encoded e rest = c' :: l) <-> exists l, rest = c' :: l).
    { intros c' Hvr Hc'. destruct rest as [|d rest'].
      - cbn. split; intros (l & H); discriminate.
      - cbn [encoded map concat]. destruct (enc_shape e d) as (y & r' & -> & G1 & G2 & _ & _); [now inversion_clear Hvr|].
        cbn [app]. split; intros (l & H); injection H as H H'.
        + destruct (N.lt_ge_cases d 128) as [L|L]; [destruct (G1 L); subst; eauto|]. specialize (G2 L). lia.
        + subst. destruct (G1 Hc') as (-> & ->). eauto. }
    assert (Hvr : Forall (valid1 e) rest) by (rewrite Hc in Hv; apply Forall_app in Hv as (_ & Hv'); now inversion_clear Hv').
    specialize (fun c' => Hr c' Hvr).
    intros n. unfold newline_at. split.
    + intros [(-> & l & H)|(-> & l & H)]; injection H as H H'.
      * left. split; [|reflexivity]. destruct (N.lt_ge_cases c 128) as [L|L]; [destruct (H1 L) as (E1 & _); unfold LF; lia|]. specialize (H2 L). lia.
      * right. destruct (N.lt_ge_cases c 128) as [L|L]; [|specialize (H2 L); lia]. destruct (H1 L) as (-> & ->).
        split; [exact H|]. split; [reflexivity|]. apply (Hr LF); [unfold LF; lia|]. cbn in H'. exists l. exact H'.
    + intros [(-> & ->)|(-> & -> & l & ->)].
      * destruct (H1 ltac:(unfold LF; lia)) as (-> & ->). left. eauto.
      * destruct (H1 ltac:(unfold CR; lia)) as (-> & ->). right. split; [reflexivity|].
        destruct (proj2 (Hr LF ltac:(unfold LF; lia))) as (l' & Hl'); [eauto|]. cbn [app]. rewrite Hl'. exists l'. reflexivity.
Qed.

Lemma wf_step done c rest s : cps = done ++ c :: rest -> s_idx s = 0%nat -> s_cur s = length (encoded e done) ->
  exists s', stepf (Enc e) CPoints inp s = Some s' /\
  ((c = LF /\ s' = Lst 0 (length (encoded e (done ++ [c]))) (length (encoded e (done ++ [c]))) (unsigned_inc (s_nr s)) 1) \/
   (c = CR /\ exists r, rest = LF :: r /\
      s' = Lst 0 (length (encoded e (done ++ [c; LF]))) (length (encoded e (done ++ [c; LF]))) (unsigned_inc (s_nr s)) 1) \/
   (c <> LF /\ (c <> CR \/ ~ exists r, rest = LF :: r) /\
      s' = Lst 0 (length (encoded e (done ++ [c]))) (s_lb s) (s_nr s) (unsigned_inc (s_col s)))).
Proof.
  intros Hc Hi Hcur. destruct (wf_char done c rest Hc) as (Hh & Hvc & (c' & Hr) & Hn).
  assert (Hlen : (s_cur s < length inp)%nat).
  { rewrite Hcur. rewrite Hc, encoded_app, app_length. cbn [encoded map concat]. rewrite app_length.
    destruct (enc_shape e c Hvc) as (x & r & -> & _). cbn [length]. lia. }
  destruct (stepf_some (Enc e) CPoints inp Hinp s Hlen) as (s' & Hs'). exists s'. split; [exact Hs'|].
  apply stepf_inv in Hs' as (_ & Hs'); [|exact Hinp]. rewrite Hi, Hcur in Hs'. cbn [try_match_newline match_column] in Hs'.
  pose proof (fun m => newline_match (Enc e) _ m (proj2 (rest_ok (Enc e) inp Hinp (length (encoded e done))))) as Hnm.
  assert (H1 : length (encoded e (done ++ [c])) = (length (encoded e done) + length (encode_code_point e c))%nat).
  { rewrite encoded_app, app_length. unfold encoded at 2. cbn [map concat]. now rewrite app_nil_r. }
  destruct Hs' as [(n & i & Ht & Hn' & ->)|(n & i & Ht & Hm & Hn' & ->)].
  - destruct (match_newline (Enc e) (skipn (length (encoded e done)) inp)) as [m|] eqn:Hmn; [|discriminate].
    injection Ht as -> <-. pose proof (proj1 (Hnm _) eq_refl) as Hmn2. apply Hn in Hmn2. clear Hmn. rename Hmn2 into Hmn. destruct Hmn as [(-> & ->)|(-> & -> & r & ->)].
    + left. split; [reflexivity|]. rewrite H1. destruct (enc_shape e LF Hvc) as (x & r & -> & G & _).
      destruct (G ltac:(unfold LF; lia)) as (-> & ->). reflexivity.
    + right. left. split; [reflexivity|]. exists r. split; [reflexivity|].
      replace (done ++ [CR; LF]) with ((done ++ [CR]) ++ [LF]) by now rewrite <- app_assoc.
      rewrite encoded_app, app_length, H1. destruct (enc_shape e CR Hvc) as (x & r' & -> & G & _).
      destruct (G ltac:(unfold CR; lia)) as (-> & ->).
      assert (HvL : valid1 e LF) by (unfold LF; destruct e; cbn; [lia|left; lia|left; lia|left; lia]).
      unfold encoded. cbn [map concat]. rewrite app_nil_r. destruct (enc_shape e LF HvL) as (x & r' & -> & G' & _).
      destruct (G' ltac:(unfold LF; lia)) as (-> & ->). cbn [length]. f_equal; lia.
  - right. right.
    assert (Hnone : match_newline (Enc e) (skipn (length (encoded e done)) inp) = None) by (destruct (match_newline _ _); congruence).
    assert (Hnn : forall m, ~ newline_at (skipn (length (encoded e done)) inp) m) by (intros m Hm'; apply Hnm in Hm'; congruence).
    split; [intros ->; apply (Hnn 1%nat), Hn; auto|]. split.
    { destruct (N.eq_dec c CR) as [->|]; [right|now left]. intros Hex. apply (Hnn 2%nat), Hn. auto. }
    rewrite H1.
    assert (Hp : match_code_point (Enc e) (skipn (length (encoded e done)) inp) = Some (length (encode_code_point e c))).
    { apply point_match; [apply (rest_ok (Enc e) inp Hinp)|]. eauto. }
    rewrite Hp in Hm. injection Hm as <- <-. reflexivity.
Qed.

Lemma wf_walk : forall n pre done post s a b, (length pre <= n)%nat -> cps = done ++ pre ++ post -> ~ inside_newline pre post ->
  s_idx s = 0%nat -> s_cur s = length (encoded e done) -> s_nr s = as_unsigned a -> s_col s = as_unsigned b ->
  exists t, steps (Enc e) CPoints inp s t /\ s_cur t = length (encoded e (done ++ pre)) /\
    s_nr t = as_unsigned (a + newlines pre) /\ s_col t = as_unsigned (colspec b pre).
Proof.
  induction n as [|n IH]; intros pre done post s a b Hlen Hc Hin Hi Hcur Ha Hb.
  { destruct pre; [|cbn in Hlen; lia]. exists s. split; [constructor|]. rewrite app_nil_r. split; [exact Hcur|].
    unfold colspec, newlines. cbn. rewrite !Nat.add_0_r. auto. }
  destruct pre as [|c pre].
  { exists s. split; [constructor|]. rewrite app_nil_r. split; [exact Hcur|].
    unfold colspec, newlines. cbn. rewrite !Nat.add_0_r. auto. }
  assert (Hin' : forall p q, (c :: pre) = p ++ q -> q <> [] -> ~ inside_newline q post).
  { intros p q Hpq Hq ((l & Hl) & H2). apply Hin. split; [|exact H2]. exists (p ++ l). rewrite Hpq, Hl. now rewrite app_assoc. }
  cbn [app] in Hc. destruct (wf_step done c (pre ++ post) s Hc Hi Hcur) as (s' & Hs & Hs').
  destruct Hs' as [(-> & ->)|[(-> & r & Hr & ->)|(Hc1 & Hc2 & ->)]].
  - destruct (IH pre (done ++ [LF]) post (Lst 0 (length (encoded e (done ++ [LF]))) (length (encoded e (done ++ [LF]))) (unsigned_inc (s_nr s)) 1) (S a) 1%nat)
      as (t & Ht & H1 & H2 & H3); try reflexivity.
    + cbn in Hlen. lia.
    + rewrite Hc, <- app_assoc. reflexivity.
    + destruct pre; [intros ((l & Hl) & _); destruct l; discriminate|]. apply (Hin' [LF]); [reflexivity|discriminate].
    + cbn. rewrite Ha. apply as_unsigned_inc.
    + exists t. split; [econstructor; eassumption|]. rewrite <- app_assoc in H1. split; [exact H1|].
      rewrite newlines_cons, colspec_lf, N.eqb_refl. split; [rewrite H2; f_equal; lia|exact H3].
  - destruct pre as [|d pre].
    { exfalso. apply Hin. split; [now exists []|]. cbn in Hr. eauto. }
    cbn in Hr. injection Hr as -> Hr.
    destruct (IH pre (done ++ [CR; LF]) post (Lst 0 (length (encoded e (done ++ [CR; LF]))) (length (encoded e (done ++ [CR; LF]))) (unsigned_inc (s_nr s)) 1) (S a) 1%nat)
      as (t & Ht & H1 & H2 & H3); try reflexivity.
    + cbn in Hlen. lia.
    + rewrite Hc, <- app_assoc. reflexivity.
    + destruct pre; [intros ((l & Hl) & _); destruct l; discriminate|]. apply (Hin' [CR; LF]); [reflexivity|discriminate].
    + cbn. rewrite Ha. apply as_unsigned_inc.
    + exists t. split; [econstructor; eassumption|]. rewrite <- app_assoc in H1. split; [exact H1|].
      rewrite !newlines_cons, colspec_other, colspec_lf by discriminate. change (CR =? LF)%N with false. rewrite N.eqb_refl.
      split; [rewrite H2; f_equal; lia|exact H3].
  - destruct (IH pre (done ++ [c]) post (Lst 0 (length (encoded e (done ++ [c]))) (s_lb s) (s_nr s) (unsigned_inc (s_col s))) a (S b))
      as (t & Ht & H1 & H2 & H3); try reflexivity.
    + cbn in Hlen. lia.
    + rewrite Hc, <- app_assoc. reflexivity.
    + destruct pre; [intros ((l & Hl) & _); destruct l; discriminate|]. apply (Hin' [c]); [reflexivity|discriminate].
    + exact Ha.
    + cbn. rewrite Hb. apply as_unsigned_inc.
    + exists t. split; [econstructor; eassumption|]. rewrite <- app_assoc in H1. split; [exact H1|].
      rewrite newlines_cons, colspec_other by exact Hc1. destruct (N.eqb_spec c LF); [contradiction|]. auto.
Qed.

Lemma wf_location pre post : cps = pre ++ post -> ~ inside_newline pre post ->
  exists b, get_input_location (Enc e) CPoints inp (length (encoded e pre)) input_anchor =
    Loc (Location b (as_unsigned (1 + newlines pre)) (length (encoded e pre)) (as_unsigned (1 + length (last_line pre)))).
Proof.
  intros Hc Hin.
  destruct (wf_walk (length pre) pre [] post (start input_anchor) 1%nat 1%nat) as (t & Ht & H1 & H2 & H3); try reflexivity; try assumption.
  cbn [app] in H1. 
  destruct (get_final (Enc e) CPoints inp Hinp (length (encoded e pre)) input_anchor) as (u & Hu & ->).
  { cbn. rewrite Hc, encoded_app, app_length. lia. }
  assert (Hf : final (Enc e) CPoints inp (length (encoded e pre)) (start input_anchor) t) by (split; [exact Ht|now left]).
  rewrite <- (final_unique (Enc e) CPoints inp Hinp _ _ _ _ Hf Hu).
  exists (s_lb t). unfold loc_of. rewrite H1, H2, H3. do 2 f_equal. unfold colspec.
  destruct (existsb (fun x => x =? LF) pre) eqn:Hex; [reflexivity|]. do 2 f_equal. clear -Hex.
  induction pre as [|c pre IH]; [reflexivity|]. cbn in *. apply orb_false_iff in Hex as (H1 & H2). now rewrite H1, H2.
Qed.

(** Every column starts at a code point. *)
Definition boundary (p : nat) : Prop := exists pre post, cps = pre ++ post /\ p = length (encoded e pre).

Lemma wf_boundary t : steps (Enc e) CPoints inp (start input_anchor) t -> boundary (s_cur t) /\ s_idx t = 0%nat.
Proof.
  intros H. assert (G : forall s, steps (Enc e) CPoints inp s t -> boundary (s_cur s) /\ s_idx s = 0%nat -> boundary (s_cur t) /\ s_idx t = 0%nat).
  { clear H. intros s H. induction H as [|s s' t Hs H IH]; [auto|]. intros ((pre & post & Hc & Hp) & Hi). apply IH.
    pose proof (stepf_cur (Enc e) CPoints inp Hinp s s' Hs) as Hcur.
    destruct post as [|c post].
    { exfalso. rewrite app_nil_r in Hc. subst pre. lia. }
    destruct (wf_step pre c post s Hc Hi Hp) as (s'' & Hs'' & Hd). rewrite Hs in Hs''. injection Hs'' as <-.
    destruct Hd as [(_ & ->)|[(_ & r & -> & ->)|(_ & _ & ->)]]; cbn [s_cur s_idx]; (split; [|reflexivity]).
    - exists (pre ++ [c]), post. rewrite <- app_assoc. auto.
    - exists (pre ++ [c; LF]), r. rewrite <- app_assoc. auto.
    - exists (pre ++ [c]), post. rewrite <- app_assoc. auto. }
  apply (G _ H). split; [|reflexivity]. exists [], cps. auto.
Qed.

(** Boundaries are the positions in front of units that do not continue a code point. *)
Lemma boundary_units p : (p <= length inp)%nat -> (forall x, nth_error inp p = Some x -> ~ continues (Enc e) x) -> boundary p.
Proof.
  clear Hinp. unfold boundary. intros Hp Hx. revert p Hp Hx. induction Hv as [|c cs Hvc Hvcs IH]; intros p Hp Hx.
  - exists [], []. cbn in *. split; [reflexivity|]. cbn. lia.
  - destruct (enc_shape e c Hvc) as (x & r & He & _ & _ & Hx0 & Hr).
    assert (Hcs : encoded e (c :: cs) = encode_code_point e c ++ encoded e cs) by reflexivity.
    rewrite Hcs in Hp, Hx. rewrite app_length in Hp.
    destruct (Nat.eq_dec p 0) as [->|Hp0]; [exists [], (c :: cs); auto|].
    destruct (Nat.lt_ge_cases p (length (encode_code_point e c))) as [L|L].
    + exfalso. destruct (nth_error (encode_code_point e c) p) as [y|] eqn:Hy; [|apply nth_error_None in Hy; lia].
      apply (Hx y); [now rewrite nth_error_app1|]. rewrite He in Hy. destruct p as [|p]; [lia|]. cbn in Hy.
      apply nth_error_In in Hy. rewrite Forall_forall in Hr. now apply Hr.
    + destruct (IH Hvcs (p - length (encode_code_point e c))%nat) as (pre & post & H1 & H2).
      * lia.
      * intros y Hy. apply Hx. rewrite nth_error_app2 by lia. exact Hy.
      * exists (c :: pre), post. rewrite H1. split; [reflexivity|].
        replace (encoded e (c :: pre)) with (encode_code_point e c ++ encoded e pre) by reflexivity. rewrite app_length. lia.
Qed.
End Wf.
