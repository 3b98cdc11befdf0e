(** Proofs about token rules: they end, and stay inside the input. *)
From Verif Require Import Prelude CodecModel SwarModel LitModel LitSpec LitProofs ClassModel
  ClassProofs TextModel IntModel IntProofs FolModel ByteModel GtModel GtSpec.
From Verif Require RuleModel.
Open Scope N_scope.

(** ** Reading code points *)

Lemma parse_end e l : (cr_end (parse_code_point e l) <= length l)%nat.
Proof.
  destruct l as [|a [|b [|x [|d l]]]]; destruct e;
    unfold parse_code_point; cbn [peek tl length];
    repeat match goal with
    | |- context [if ?b then _ else _] => destruct b eqn:?
    end; cbn [cr_end]; try lia.
  all: exfalso; vm_compute in *; congruence.
Qed.
Lemma parse_success e l : cr_error (parse_code_point e l) = success ->
  (1 <= cr_end (parse_code_point e l))%nat.
Proof.
  destruct e; unfold parse_code_point;
    repeat match goal with
    | |- context [if ?b then _ else _] => destruct b eqn:?
    end; cbn [cr_end cr_error]; intros H; try discriminate H; try lia.
Qed.

Lemma leof_big E : 128 <= leof E.
Proof. destruct E as [|[]]; vm_compute; discriminate. Qed.

Lemma class_len E k rest n : class_try E k rest = Some n -> (1 <= n <= length rest)%nat.
Proof.
  unfold class_try. rewrite matcher_spec. pose proof (leof_big E) as Hb.
  destruct ((lpeek E rest <? 128) && class_ascii k (lpeek E rest)) eqn:Hm.
  - intros [= <-]. destruct rest as [|c r]; cbn in *; [|lia].
    apply andb_true_iff in Hm. destruct Hm as [Hm _]. apply N.ltb_lt in Hm. lia.
  - destruct (match_cp_false k); [discriminate|]. destruct E as [|e].
    + destruct rest as [|c r]; cbn [lpeek]; [rewrite N.eqb_refl; discriminate|].
      destruct (_ =? _); [discriminate|]. destruct (match_cp k c); [|discriminate]. intros [= <-]. cbn. lia.
    + pose proof (parse_end e rest) as He. pose proof (parse_success e rest) as Hs.
      destruct (cr_error (parse_code_point e rest)); try discriminate.
      destruct (match_cp k _); [|discriminate]. intros [= <-]. specialize (Hs eq_refl). lia.
Qed.

(** ** Readers that stay between two positions *)

Section Kept.
Variables (E : lenc) (lo hi : nat).

Definition kept {S} (o : ops S) (inv : S -> Prop) : Prop :=
  (forall s, inv s -> lo <= o_current o s <= hi)%nat /\
  (forall s, inv s -> o_peek o s <> leof E -> inv (o_bump o s)) /\
  (forall m s, (lo <= m <= hi)%nat -> inv s -> inv (o_reset o m s)).

Lemma kept_acf {S} (o : ops S) inv : kept o inv -> kept (acf o) inv.
Proof.
  intros (H1 & H2 & H3). split; [exact H1|]. split; [|exact H3].
  intros s Hs Hp. apply H2; [exact Hs|]. intros He. apply Hp. cbn. rewrite He.
  destruct E as [|[]]; reflexivity.
Qed.

Lemma bumps_kept {S} (o : ops S) inv : kept o inv -> forall n s k, inv s ->
  (k <= length (units n E o s))%nat -> inv (bumps k o s).
Proof.
  intros HK. induction n as [|n IH]; intros s k Hs Hk; cbn [units] in Hk.
  - cbn in Hk. assert (k = 0%nat) as -> by lia. exact Hs.
  - destruct (N.eqb_spec (o_peek o s) (leof E)) as [He|He].
    + cbn in Hk. assert (k = 0%nat) as -> by lia. exact Hs.
    + destruct k as [|k]; [exact Hs|]. cbn [bumps]. apply IH.
      * destruct HK as (_ & H2 & _). now apply H2.
      * cbn in Hk. lia.
Qed.

Lemma match_units_kept {S} (o : ops S) inv : kept o inv -> forall cs s, no_eof E cs -> inv s ->
  inv (snd (match_units o cs s)).
Proof.
  intros HK. induction cs as [|c cs IH]; intros s He Hs; cbn [match_units]; [exact Hs|].
  destruct (N.eqb_spec (o_peek o s) c) as [Hc|Hc]; [|exact Hs].
  apply IH.
  - intros Hin. apply He. now right.
  - destruct HK as (_ & H2 & _). apply H2; [exact Hs|]. intros Heq. apply He. left. congruence.
Qed.

Lemma lit_try_kept {S} (o : ops S) inv cs s : kept o inv -> no_eof E cs -> inv s ->
  (lo <= snd (lit_try o cs s) <= hi)%nat.
Proof.
  intros HK He Hs. pose proof (match_units_kept o inv HK cs s He Hs) as Hm.
  unfold lit_try. destruct (match_units o cs s) as [ok s']. cbn [snd] in *.
  destruct HK as (H1 & _). now apply H1.
Qed.
End Kept.

Section Unicode.
Variables (fold : N -> N) (lo hi : nat).

Lemma kept_suc32 {S} (o : ops S) inv : kept (Enc Utf32) lo hi o inv ->
  kept (Enc Utf32) lo hi (suc32 fold o) inv.
Proof.
  intros (H1 & H2 & H3). split; [exact H1|]. split; [|exact H3].
  intros s Hs Hp. apply H2; [exact Hs|]. intros He. apply Hp. cbn. rewrite He. reflexivity.
Qed.

Definition sucm_inv {S} (inv : S -> Prop) (s : sucm_state S) : Prop :=
  inv (fst (fst s)) /\ (lo <= snd (fst s) <= hi)%nat.

Lemma sucm_fill_kept e {S} (o : ops S) inv s : kept (Enc e) lo hi o inv -> inv s ->
  sucm_inv inv (sucm_fill fold e o s).
Proof.
  intros HK Hs. pose proof (bumps_kept (Enc e) lo hi o inv HK 4 s
    (cr_end (parse_code_point e (units 4 (Enc e) o s))) Hs (parse_end e _)) as Hb.
  unfold sucm_fill, sucm_inv. destruct HK as (H1 & H2 & H3).
  destruct (cr_error (parse_code_point e (units 4 (Enc e) o s))); cbn [fst snd];
    (split; [|now apply H1]); try exact Hb.
  apply H3; [now apply H1|exact Hs].
Qed.

Lemma kept_sucm e {S} (o : ops S) inv : kept (Enc e) lo hi o inv ->
  kept (Enc e) lo hi (sucm fold e o) (sucm_inv inv).
Proof.
  intros HK. split; [intros s [_ H]; exact H|]. split.
  - intros [[impl cur] b] [Hi Hc] _. cbn [sucm o_bump fst snd] in *.
    destruct (tl b); [now apply sucm_fill_kept|]. split; assumption.
  - intros m [[impl cur] b] Hm [Hi Hc]. cbn [sucm o_reset fst snd] in *. split; [|exact Hc].
    cbn [fst]. destruct HK as (_ & _ & H3). now apply H3.
Qed.
End Unicode.

Lemma kept_raw E lo inp : (lo <= length inp)%nat ->
  kept E lo (length inp) (raw E inp) (fun p => lo <= p <= length inp)%nat.
Proof.
  intros _. split; [intros s H; exact H|]. split; [|intros m s H _; exact H].
  intros p Hp Hne. cbn [raw o_bump o_peek] in *.
  destruct (nth_error inp p) eqn:Hn; [|congruence].
  assert (p < length inp)%nat by (apply nth_error_Some; congruence). lia.
Qed.

(** ** Literals *)

Lemma nf_literal_kept fold f E inp cs pos : no_eof E cs -> (pos <= length inp)%nat ->
  (pos <= snd (nf_literal fold f E inp cs pos) <= length inp)%nat.
Proof.
  intros He Hp. pose proof (kept_raw E pos inp Hp) as HK.
  assert (Hs : (pos <= pos <= length inp)%nat) by lia.
  destruct f; cbn [nf_literal].
  - exact (lit_try_kept E _ _ _ _ cs pos HK He Hs).
  - exact (lit_try_kept E _ _ _ _ cs pos (kept_acf E _ _ _ _ HK) He Hs).
  - destruct E as [|e]; [cbn; lia|].
    pose proof (lit_try_kept (Enc e) _ _ _ _ cs _ (kept_sucm fold _ _ e _ _ HK) He
                  (sucm_fill_kept fold _ _ e _ _ pos HK Hs)) as Hm.
    unfold cfl_unicode. destruct e; try exact Hm.
    exact (lit_try_kept (Enc Utf32) _ _ _ _ cs pos (kept_suc32 fold _ _ _ _ HK) He Hs).
Qed.

(** ** Literal sets *)

Section Set_.
Variables (fold : N -> N) (E : lenc) (lo hi : nat) (t : trie) (classes : list (list N -> bool)).
Hypothesis Hwf : wf t.
Hypothesis Hno : forall c f g, In (c, f, g) (transition t) -> c <> leof E.

Lemma node_impl_kept {S} (o : ops S) inv rec node s :
  kept E lo hi o inv -> inv s ->
  (forall to s, (node < to < node_count t)%nat -> inv s -> exists v s', rec to s = Match v s' /\ inv s') ->
  exists v s', node_impl E t classes o rec node s = Match v s' /\ inv s'.
Proof.
  intros HK Hs Hrec. unfold node_impl.
  set (own := fun s : S => match nth node (node_value t) None with
    | None => Match None s
    | Some v => match nth node (node_char_class t) None with
      | None => Match (Some v) s
      | Some k => match nth_error classes k with
        | None => Match (Some v) s
        | Some q => if q (units 4 E o s) then Match None s else Match (Some v) s
        end end end).
  assert (Hown : forall s, inv s -> exists v s', own s = Match v s' /\ inv s').
  { intros s0 H0. unfold own. destruct (nth node (node_value t) None) as [v|]; [|eauto].
    destruct (nth node (node_char_class t) None) as [k|]; [|eauto].
    destruct (nth_error classes k) as [q|]; [|eauto]. destruct (q _); eauto. }
  pose proof (find_child t node (o_peek o s)) as Hfc.
  destruct (node_transitions t node) as [|tr trs] eqn:Et; [now apply Hown|].
  rewrite <- Et in *. clear Et tr trs.
  assert (Hcur : (lo <= o_current o s <= hi)%nat) by now apply (proj1 HK).
  destruct (find _ (node_transitions t node)) as [[[ch fr] to]|] eqn:Ef.
  - pose proof (child_bounds t _ _ _ Hwf Hfc) as Hto.
    apply (child_in t _ _ _ Hwf) in Hfc. apply Hno in Hfc.
    destruct (Hrec to (o_bump o s) Hto) as (v & s' & Hr & Hi').
    { apply (proj1 (proj2 HK)); assumption. }
    rewrite Hr. destruct v as [v|]; [eauto|]. apply Hown. now apply (proj2 (proj2 HK)).
  - apply Hown. now apply (proj2 (proj2 HK)).
Qed.

End Set_.

Lemma try_match_kept fold E lo hi t classes f : wf t ->
  (forall c f g, In (c, f, g) (transition t) -> c <> leof E) ->
  (f = UnicodeFold -> E <> Default) -> forall fuel {S} (o : ops S) inv node s,
  kept E lo hi o inv -> inv s -> (node < node_count t)%nat -> (node_count t - node <= fuel)%nat ->
  exists v s', try_match fold f E t classes fuel o node s = Match v s' /\ inv s'.
Proof.
  intros Hwf Hno Hf. induction fuel as [|fuel IH]; intros S o inv node s HK Hs Hn Hfu; [lia|].
  cbn [try_match]. destruct f.
  - apply (node_impl_kept _ lo hi t classes Hwf Hno o inv); try assumption. intros to s' Hto Hi.
    apply (IH S o inv); try assumption; lia.
  - destruct (node_impl_kept _ lo hi t classes Hwf Hno (acf o) inv (fun n s => try_match fold AsciiFold E t classes fuel (acf o) n s) node s)
      as (v & s' & Hr & Hi').
    + now apply kept_acf.
    + exact Hs.
    + intros to s' Hto Hi. apply (IH S (acf o) inv); try assumption; try lia. now apply kept_acf.
    + rewrite Hr. do 2 eexists. split; [reflexivity|]. apply (proj2 (proj2 HK)); [|exact Hs].
      exact (proj1 HK s' Hi').
  - destruct E as [|e]; [exfalso; now apply Hf|].
    assert (Hm : exists (v : option N) s', match node_impl (Enc e) t classes (sucm fold e o)
        (fun n s => try_match fold UnicodeFold (Enc e) t classes fuel (sucm fold e o) n s) node
        (sucm_fill fold e o s) with
      | NoFuel => NoFuel
      | Match v s' => Match v (o_reset o (o_current (sucm fold e o) s') s) end = Match v s' /\ inv s').
    { destruct (node_impl_kept _ lo hi t classes Hwf Hno (sucm fold e o) (sucm_inv lo hi inv)
        (fun n s => try_match fold UnicodeFold (Enc e) t classes fuel (sucm fold e o) n s) node
        (sucm_fill fold e o s)) as (v & s' & Hr & Hi').
      + now apply kept_sucm.
      + now apply sucm_fill_kept.
      + intros to s' Hto Hi. apply (IH _ (sucm fold e o) (sucm_inv lo hi inv)); try assumption; try lia.
        now apply kept_sucm.
      + rewrite Hr. do 2 eexists. split; [reflexivity|]. apply (proj2 (proj2 HK)); [|exact Hs].
        exact (proj2 Hi'). }
    destruct e; try exact Hm.
    destruct (node_impl_kept _ lo hi t classes Hwf Hno (suc32 fold o) inv
      (fun n s => try_match fold UnicodeFold (Enc Utf32) t classes fuel (suc32 fold o) n s) node s)
      as (v & s' & Hr & Hi').
    + now apply kept_suc32.
    + exact Hs.
    + intros to s' Hto Hi. apply (IH S (suc32 fold o) inv); try assumption; try lia. now apply kept_suc32.
    + rewrite Hr. do 2 eexists. split; [reflexivity|]. apply (proj2 (proj2 HK)); [|exact Hs].
      exact (proj1 HK s' Hi').
Qed.
Lemma set_try_kept fold f E ls inp pos : (f = UnicodeFold -> E <> Default) ->
  (forall l, In l ls -> no_eof E (l_units l)) -> (pos <= length inp)%nat ->
  exists v e, set_try fold f E ls inp pos = Match v e /\ (pos <= e <= length inp)%nat.
Proof.
  intros Hf Hl Hp. destruct (build_spec ls empty_trie 0 empty_wf) as (Hwf & _ & _ & _ & _ & Htr).
  fold (build_trie ls) in *. unfold set_try.
  apply (try_match_kept fold E pos (length inp) (build_trie ls) (class_list ls) f Hwf) with (inv := fun p => (pos <= p <= length inp)%nat).
  - intros c f0 g Hin. apply Htr in Hin. destruct Hin as [[]|(l & Hin & Hc)].
    intros ->. exact (Hl l Hin Hc).
  - exact Hf.
  - now apply kept_raw.
  - lia.
  - destruct Hwf as (_ & -> & _). lia.
  - lia.
Qed.

(** ** Loops *)

Lemma trailing_kept E k : forall fuel rest, (length rest < fuel)%nat ->
  exists m, trailing_run fuel E k rest = TYes m /\ (m <= length rest)%nat.
Proof.
  induction fuel as [|fuel IH]; intros rest Hf; [lia|]. cbn [trailing_run].
  destruct (class_try E k rest) as [n|] eqn:Hc; [|exists 0%nat; split; [reflexivity|lia]].
  apply class_len in Hc. destruct (IH (skipn n rest)) as (m & -> & Hm); rewrite skipn_length in *; [lia|].
  exists (n + m)%nat. split; [reflexivity|lia].
Qed.
Lemma pattern_kept E a b rest :
  pattern_try E a b rest = TNo \/
  exists n, pattern_try E a b rest = TYes n /\ (1 <= n <= length rest)%nat.
Proof.
  unfold pattern_try. destruct (class_try E a rest) as [n|] eqn:Hc; [|now left]. right.
  apply class_len in Hc. destruct (trailing_kept E b (S (length rest)) (skipn n rest)) as (m & -> & Hm);
    rewrite skipn_length in *; [lia|]. exists (n + m)%nat. split; [reflexivity|lia].
Qed.

Definition stays (cond : list N -> option nat) : Prop :=
  forall r n, cond r = Some n -> (n <= length r)%nat.

Lemma until_kept E cond : stays cond -> forall rest, (snd (until_try E cond rest) <= length rest)%nat.
Proof.
  intros Hc. induction rest as [|c rest IH]; cbn [until_try].
  - destruct (cond []) eqn:H; cbn; [exact (Hc _ _ H)|lia].
  - destruct (cond (c :: rest)) eqn:H; [exact (Hc _ _ H)|]. destruct (_ =? _); [cbn; lia|].
    destruct (until_try E cond rest). cbn [snd length] in *. lia.
Qed.
Lemma until_eof_kept E cond : stays cond -> forall rest, (until_eof_try E cond rest <= length rest)%nat.
Proof.
  intros Hc. induction rest as [|c rest IH]; cbn [until_eof_try]; [lia|].
  destruct (_ =? _); [lia|]. destruct (cond (c :: rest)) eqn:H; [exact (Hc _ _ H)|]. cbn [length]. lia.
Qed.
Lemma any_kept E rest : (any_run E rest <= length rest)%nat.
Proof. induction rest as [|c rest IH]; cbn; [lia|]. destruct (_ =? _); lia. Qed.

Lemma match_digit_len b rest : match_digit b rest = true -> (1 <= length rest)%nat /\ length (tl rest) = (length rest - 1)%nat.
Proof. destruct rest; cbn; [discriminate|]. lia. Qed.
Lemma digit_run_len b rest : (digit_run b rest <= length rest)%nat.
Proof. induction rest as [|c r IH]; cbn; [lia|]. destruct (class_table _ _); lia. Qed.
Lemma match_digits_len b rest ok n : match_digits b rest = (ok, n) ->
  (n <= length rest)%nat /\ (ok = true -> 1 <= n)%nat.
Proof.
  unfold match_digits. destruct (match_digit b rest) eqn:H; intros [= <- <-]; [|split; [lia|discriminate]].
  apply match_digit_len in H. pose proof (digit_run_len b (tl rest)). lia.
Qed.
Lemma sep_loop_kept b sep : stays sep -> forall fuel rest pos, (length rest < fuel)%nat ->
  exists ok n, sep_loop fuel b sep rest pos = Some (ok, n) /\ (pos <= n <= pos + length rest)%nat.
Proof.
  intros Hs. induction fuel as [|fuel IH]; intros rest pos Hf; [lia|]. cbn [sep_loop].
  destruct (sep rest) as [k|] eqn:Hk.
  - apply Hs in Hk. destruct (match_digit b (skipn k rest)) eqn:Hd.
    + apply match_digit_len in Hd. rewrite skipn_length in Hd.
      destruct (IH (tl (skipn k rest)) (pos + k + 1)%nat) as (ok & n & -> & Hn); [lia|].
      do 2 eexists. split; [reflexivity|]. lia.
    + do 2 eexists. split; [reflexivity|]. lia.
  - destruct (match_digit b rest) eqn:Hd.
    + apply match_digit_len in Hd.
      destruct (IH (tl rest) (pos + 1)%nat) as (ok & n & -> & Hn); [lia|].
      do 2 eexists. split; [reflexivity|]. lia.
    + do 2 eexists. split; [reflexivity|]. lia.
Qed.
Lemma match_digits_sep_kept b sep rest : stays sep ->
  exists ok n, match_digits_sep b sep rest = Some (ok, n) /\ (n <= length rest)%nat /\ (ok = true -> 1 <= n)%nat.
Proof.
  intros Hs. unfold match_digits_sep. destruct (match_digit b rest) eqn:Hd.
  - apply match_digit_len in Hd. destruct (sep_loop_kept b sep Hs (S (length rest)) (tl rest) 1) as (ok & n & -> & Hn); [lia|].
    do 2 eexists. split; [reflexivity|]. lia.
  - do 2 eexists. split; [reflexivity|]. split; [lia|discriminate].
Qed.
Lemma leading_zero_len rest ok n : (n <= length rest)%nat -> (ok = true -> 1 <= n)%nat ->
  (t_end (leading_zero rest ok n) <= length rest)%nat /\
  (t_ok (leading_zero rest ok n) = true -> 1 <= t_end (leading_zero rest ok n))%nat.
Proof.
  intros Hn Ho. unfold leading_zero. destruct (ok && _ && _) eqn:H; cbn [t_end t_ok]; [|split; assumption].
  split; [|discriminate]. destruct rest; [|cbn; lia]. rewrite andb_false_r in H. discriminate.
Qed.
Lemma ndigits_len n b : forall rest pos,
  (pos <= t_end (ndigits_loop n b rest pos) <= pos + length rest)%nat /\
  (t_ok (ndigits_loop n b rest pos) = true -> t_end (ndigits_loop n b rest pos) = pos + n)%nat.
Proof.
  induction n as [|n IH]; intros rest pos; cbn [ndigits_loop t_end t_ok]; [split; lia|].
  destruct (match_digit b rest) eqn:Hd; cbn [t_end t_ok]; [|split; [lia|discriminate]].
  apply match_digit_len in Hd. destruct (IH (tl rest) (S pos)) as [H1 H2]. split; [lia|].
  intros H. rewrite (H2 H). lia.
Qed.
Lemma ndigits_s_len b sep : stays sep -> forall n rest pos,
  (pos <= t_end (ndigits_s_loop n b sep rest pos) <= pos + length rest)%nat.
Proof.
  intros Hs. induction n as [|n IH]; intros rest pos; cbn [ndigits_s_loop t_end]; [lia|].
  destruct (sep rest) as [k|] eqn:Hk.
  - apply Hs in Hk. destruct (match_digit b (skipn k rest)) eqn:Hd; cbn [t_end]; [|lia].
    apply match_digit_len in Hd. rewrite skipn_length in Hd. specialize (IH (tl (skipn k rest)) (pos + k + 1)%nat). lia.
  - cbn [skipn]. destruct (match_digit b rest) eqn:Hd; cbn [t_end]; [|lia].
    apply match_digit_len in Hd. specialize (IH (tl rest) (pos + 0 + 1)%nat). lia.
Qed.
Lemma bytes_len p : forall n rest, (snd (bytes_try n p rest) <= length rest)%nat /\
  (fst (bytes_try n p rest) = true -> snd (bytes_try n p rest) = n).
Proof.
  induction n as [|n IH]; intros rest; cbn [bytes_try]; [cbn; split; [lia|reflexivity]|].
  destruct rest as [|c rest]; [cbn; split; [lia|discriminate]|].
  destruct (pred_ok p c); [|cbn; split; [lia|discriminate]].
  specialize (IH rest). destruct (bytes_try n p rest) as [ok e]. cbn [fst snd length] in *.
  split; [lia|]. intros H. destruct IH as [_ IH]. now rewrite IH.
Qed.

(** ** Token rules *)

Section Tokens.
Variable fold : N -> N.

(** [tr_ok] for the rules inside. *)
Lemma tr_match_stays E t :
  (forall rest, exists ok n, tr_try fold E t rest = Some (ok, n) /\ (n <= length rest)%nat) ->
  stays (tr_match fold E t).
Proof.
  intros H r n Hn. unfold tr_match in Hn. destruct (H r) as (ok & m & Hm & Hl). rewrite Hm in Hn.
  destruct ok; [|discriminate]. injection Hn as <-. exact Hl.
Qed.

Lemma kw_len E inp cs q : no_eof E cs -> (snd (kw_try E inp cs q 0) <= length inp)%nat.
Proof.
  intros He. unfold kw_try.
  assert (H0 : (0 <= 0 <= length inp)%nat) by lia.
  pose proof (match_units_kept E 0 (length inp) _ _ (kept_raw E 0 inp (proj2 H0)) cs 0%nat He H0) as H.
  cbv beta in H. destruct (match_units (raw E inp) cs 0%nat) as [[] s]; cbn [snd] in *; lia.
Qed.

Lemma inside_all E t : tr_ok E t -> forall rest,
  exists ok n, tr_try fold E t rest = Some (ok, n) /\ (n <= length rest)%nat.
Proof.
  induction t; cbn [tr_ok]; intros Hok rest; cbn [tr_try].
  - destruct Hok as [He _]. pose proof (nf_literal_kept fold f E rest cs 0 He ltac:(lia)) as H.
    destruct (nf_literal fold f E rest cs 0) as [ok n]. cbn [snd] in H. do 2 eexists. split; [reflexivity|lia].
  - destruct Hok as [He Hf]. destruct (set_try_kept fold f E ls rest 0 Hf He ltac:(lia)) as (v & n & -> & Hn).
    destruct v; do 2 eexists; (split; [reflexivity|lia]).
  - destruct (class_try E (build e) rest) as [n|] eqn:Hc; [|do 2 eexists; split; [reflexivity|lia]].
    apply class_len in Hc. do 2 eexists. split; [reflexivity|lia].
  - destruct (pattern_kept E (build lead) (build trail) rest) as [->|(n & -> & Hn)]; cbn [of_tres];
      do 2 eexists; (split; [reflexivity|lia]).
  - pose proof (kw_len E rest cs (trailing_next E (build trail)) Hok) as H.
    unfold keyword_try. cbn [id_trail].
    destruct (kw_try E rest cs (trailing_next E (build trail)) 0) as [ok n]. do 2 eexists. split; [reflexivity|exact H].
  - pose proof (until_kept E _ (tr_match_stays E t (IHt Hok)) rest) as H.
    change (fun r => match tr_try fold E t r with Some (true, n) => Some n | _ => None end) with (tr_match fold E t).
    destruct (until_try E (tr_match fold E t) rest) as [ok n]. do 2 eexists. split; [reflexivity|exact H].
  - do 2 eexists. split; [reflexivity|]. exact (until_eof_kept E _ (tr_match_stays E t (IHt Hok)) rest).
  - do 2 eexists. split; [reflexivity|apply any_kept].
  - unfold digits_tok. destruct (match_digits b rest) as [ok n] eqn:H. apply match_digits_len in H.
    do 2 eexists. split; [reflexivity|]. cbn. lia.
  - unfold digits_t_tok. destruct (match_digits b rest) as [ok n] eqn:H. apply match_digits_len in H.
    do 2 eexists. split; [reflexivity|]. cbn. now apply leading_zero_len.
  - change (fun r => match tr_try fold E t r with Some (true, n) => Some n | _ => None end) with (tr_match fold E t).
    unfold digits_s_tok. destruct (match_digits_sep_kept b _ rest (tr_match_stays E t (IHt Hok))) as (ok & n & -> & Hn & _).
    do 2 eexists. split; [reflexivity|exact Hn].
  - change (fun r => match tr_try fold E t r with Some (true, n) => Some n | _ => None end) with (tr_match fold E t).
    unfold digits_st_tok. destruct (match_digits_sep_kept b _ rest (tr_match_stays E t (IHt Hok))) as (ok & n & -> & Hn & Ho).
    do 2 eexists. split; [reflexivity|]. now apply leading_zero_len.
  - do 2 eexists. split; [reflexivity|]. exact (proj2 (proj1 (ndigits_len n b rest 0))).
  - do 2 eexists. split; [reflexivity|]. unfold ndigits_s_tok.
    destruct (match_digit b rest) eqn:Hd; [|cbn; lia]. apply match_digit_len in Hd.
    change (fun r => match tr_try fold E t r with Some (true, n) => Some n | _ => None end) with (tr_match fold E t).
    pose proof (ndigits_s_len b _ (tr_match_stays E t (IHt Hok)) (n - 1) (tl rest) 1). lia.
  - destruct Hok as [He _]. pose proof (nf_literal_kept fold f E rest cs 0 He ltac:(lia)) as H.
    unfold nf_try. destruct (nf_literal fold f E rest cs 0) as [[] n]; cbn [snd nf_end] in *;
      do 2 eexists; (split; [reflexivity|lia]).
  - pose proof (bytes_len p n rest) as [H _]. destruct (bytes_try n p rest) as [ok m]. do 2 eexists. split; [reflexivity|exact H].
  - unfold bits_try. destruct rest as [|c r]; [do 2 eexists; split; [reflexivity|cbn; lia]|].
    destruct (_ =? _); do 2 eexists; (split; [reflexivity|cbn; lia]).
  - exact (IHt Hok rest).
Qed.

Lemma tr_end_len E t rest : tr_ok E t -> (tr_end fold E t rest <= length rest)%nat.
Proof. intros H. unfold tr_end. destruct (inside_all E t H rest) as (ok & n & -> & Hn). exact Hn. Qed.

Lemma zero_error_len t at_ n : (at_ <= n)%nat -> (match t with Some t => t_end t <= n | None => True end)%nat ->
  let '(_, b, e) := zero_error t at_ in (b <= e <= n)%nat.
Proof. intros Ha Ht. destruct t as [[ok e z]|]; cbn in *; [destruct z|]; lia. Qed.

Lemma error_inside E t : tr_ok E t -> forall rest,
  let '(_, b, e) := tr_err fold E t rest in (b <= e <= length rest)%nat.
Proof.
  induction t; intros Hok rest; pose proof (fun r => tr_end_len E _ r Hok) as He; cbn [tr_err];
    try (specialize (He rest); lia); cbn [tr_ok] in Hok.
  - unfold keyword_error. cbn [id_lead id_trail].
    destruct (pattern_kept E (build lead) (build trail) rest) as [->|(n & -> & Hn)]; lia.
  - specialize (He rest). specialize (IHt Hok (skipn (tr_end fold E (TrUntil t) rest) rest)).
    destruct (tr_err fold E t (skipn (tr_end fold E (TrUntil t) rest) rest)) as [[tag b] e].
    rewrite skipn_length in IHt. lia.
  - apply zero_error_len; [lia|]. specialize (He rest). exact He.
  - apply zero_error_len; [exact (He rest)|]. specialize (He rest). unfold tr_end in He. cbn [tr_try] in He.
    change (fun r => match tr_try fold E t r with Some (true, n) => Some n | _ => None end) with (tr_match fold E t) in He.
    destruct (digits_st_tok b (tr_match fold E t) rest); [exact He|trivial].
  - specialize (He rest). unfold tr_end in He. cbn [tr_try] in He.
    destruct (nf_try fold f E cs (build cc) rest 0) as [ok st]. destruct (nf_success st); lia.
Qed.

(** [until]'s two assertions. *)
Lemma until_false E cond : forall rest n, until_try E cond rest = (false, n) ->
  lpeek E (skipn n rest) = leof E /\ cond (skipn n rest) = None.
Proof.
  induction rest as [|c rest IH]; intros n; cbn [until_try].
  - destruct (cond []) eqn:H; [discriminate|]. intros [= <-]. split; [reflexivity|exact H].
  - destruct (cond (c :: rest)) eqn:H; [discriminate|].
    destruct (N.eqb_spec c (leof E)) as [Hc|Hc].
    + intros [= <-]. split; [exact Hc|exact H].
    + destruct (until_try E cond rest) as [ok m]. intros [= -> <-]. cbn [skipn]. now apply IH.
Qed.
Lemma until_report E c rest n : tr_ok E c -> tr_try fold E (TrUntil c) rest = Some (false, n) ->
  lpeek E (skipn n rest) = leof E /\
  (exists m, tr_try fold E c (skipn n rest) = Some (false, m)) /\
  (exists tag b e, tr_err fold E c (skipn n rest) = (tag, b, e) /\
     tr_err fold E (TrUntil c) rest = (tag, n + b, n + e)%nat).
Proof.
  intros Hok H. cbn [tr_try] in H. injection H as H.
  change (fun r => match tr_try fold E c r with Some (true, n) => Some n | _ => None end) with (tr_match fold E c) in H.
  pose proof H as Hu. apply until_false in H. destruct H as [Hp Hm]. split; [exact Hp|]. split.
  - unfold tr_match in Hm. destruct (inside_all E c Hok (skipn n rest)) as ([] & m & Ht & _); rewrite Ht in Hm; [discriminate|].
    exists m. exact Ht.
  - cbn [tr_err]. unfold tr_end. cbn [tr_try].
    change (fun r => match tr_try fold E c r with Some (true, n) => Some n | _ => None end) with (tr_match fold E c).
    rewrite Hu. destruct (tr_err fold E c (skipn n rest)) as [[tag b] e]. exists tag, b, e. split; reflexivity.
Qed.

(** As tokens of the engine. *)
Lemma engine_exact k E t : tr_ok E t -> forall inp p, (p <= length inp)%nat ->
  exists ok n, tr_try fold E t (skipn p inp) = Some (ok, n) /\
    RuleModel.tk_try (engine_token fold k E t) inp p = (ok, p + n)%nat.
Proof.
  intros Hok inp p Hp. destruct (inside_all E t Hok (skipn p inp)) as (ok & n & Ht & Hn).
  exists ok, n. split; [exact Ht|]. cbn [engine_token RuleModel.tk_try]. unfold engine_try, inside.
  rewrite Ht. rewrite skipn_length in Hn. f_equal. lia.
Qed.
Lemma engine_error k E t : tr_ok E t -> forall inp p, (p <= length inp)%nat ->
  exists tag b e, tr_err fold E t (skipn p inp) = (tag, b, e) /\
    RuleModel.tk_err (engine_token fold k E t) inp p = (RuleModel.TUser tag, p + b, p + e)%nat.
Proof.
  intros Hok inp p Hp. pose proof (error_inside E t Hok (skipn p inp)) as H.
  cbn [engine_token RuleModel.tk_err]. unfold engine_err, inside.
  destruct (tr_err fold E t (skipn p inp)) as [[tag b] e]. rewrite skipn_length in H.
  exists tag, b, e. split; [reflexivity|].
  replace (Nat.min (p + Nat.min b e) (length inp)) with (p + b)%nat by lia.
  replace (Nat.min (p + e) (length inp)) with (p + e)%nat by lia. reflexivity.
Qed.
End Tokens.

(** ** Token rules that are never empty *)

Lemma match_units_count {S} (o : ops S) (cnt : S -> nat) : (forall s, cnt (o_bump o s) = Datatypes.S (cnt s)) ->
  forall cs s s', match_units o cs s = (true, s') -> cnt s' = (cnt s + length cs)%nat.
Proof.
  intros Hb. induction cs as [|c cs IH]; intros s s'; cbn [match_units length].
  - intros [= <-]. lia.
  - destruct (_ =? _); [|discriminate]. intros H. rewrite (IH _ _ H), Hb. lia.
Qed.

Section Root.
Variables (fold : N -> N) (E : lenc) (ls : list literal) (inp : list N).
Hypothesis Hne : forall l, In l ls -> l_units l <> [].
Hypothesis He : forall l, In l ls -> no_eof E (l_units l).

Lemma root_value : nth 0 (node_value (build_trie ls)) None = None.
Proof.
  destruct (build_spec ls empty_trie 0 empty_wf) as (_ & V & _). specialize (V []).
  fold (build_trie ls) in V. unfold val in V. cbn [walk] in V. rewrite V.
  change (nth 0 (node_value empty_trie) None) with (@None N).
  destruct (last_val ls [] None) as [v|] eqn:Hv; [|reflexivity]. exfalso.
  apply last_val_some in Hv. destruct Hv as [(l & Hin & Hl & _)|[Hv _]]; [exact (Hne l Hin Hl)|discriminate].
Qed.

(** A node without a value only succeeds through a child. *)
Lemma root_impl {S} (o : ops S) t classes rec s v s' : nth 0 (node_value t) None = None ->
  node_impl E t classes o rec 0 s = Match (Some v) s' ->
  exists c to, child t 0 c = Some to /\ o_peek o s = c /\ rec to (o_bump o s) = Match (Some v) s'.
Proof.
  intros Hv. unfold node_impl. rewrite Hv. pose proof (find_child t 0 (o_peek o s)) as Hfc.
  destruct (node_transitions t 0) as [|tr trs] eqn:Et; [discriminate|]. rewrite <- Et in *.
  destruct (find _ (node_transitions t 0)) as [[[ch fr] to]|]; [|discriminate].
  destruct (rec to (o_bump o s)) as [|[x|] s2] eqn:Hr; try discriminate. intros [= -> ->].
  exists (o_peek o s), to. auto.
Qed.

Lemma set_eats f pos v e : f <> UnicodeFold -> (pos <= length inp)%nat ->
  set_try fold f E ls inp pos = Match (Some v) e -> (S pos <= e)%nat.
Proof.
  intros Hf Hp. destruct (build_spec ls empty_trie 0 empty_wf) as (Hwf & _ & _ & _ & _ & Htr).
  fold (build_trie ls) in *.
  assert (Hno : forall c f g, In (c, f, g) (transition (build_trie ls)) -> c <> leof E).
  { intros c f0 g Hin. apply Htr in Hin. destruct Hin as [[]|(l & Hin & Hc)].
    intros ->. exact (He l Hin Hc). }
  assert (Hf' : f = UnicodeFold -> E <> Default) by congruence.
  assert (HK : forall q, q = raw E inp \/ q = acf (raw E inp) ->
    kept E (S pos) (length inp) q (fun p => S pos <= p <= length inp)%nat).
  { intros q Hq. assert (kept E (S pos) (length inp) (raw E inp) (fun p => S pos <= p <= length inp)%nat).
    { split; [intros s H; exact H|]. split; [|intros m s H _; exact H].
      intros p Hpp Hn. cbn [raw o_bump o_peek] in *. destruct (nth_error inp p) eqn:Hx; [|congruence].
      assert (p < length inp)%nat by (apply nth_error_Some; congruence). lia. }
    destruct Hq as [->| ->]; [assumption|now apply kept_acf]. }
  assert (Hstep : forall q, q = raw E inp \/ q = acf (raw E inp) -> forall fuel w s',
    (node_count (build_trie ls) <= S fuel)%nat ->
    node_impl E (build_trie ls) (class_list ls) q
      (fun n s => try_match fold f E (build_trie ls) (class_list ls) fuel q n s) 0 pos = Match (Some w) s' ->
    (S pos <= s')%nat).
  { intros q Hq fuel w s' Hfuel H. apply root_impl in H; [|exact root_value].
    destruct H as (c & to & Hc & Hpk & H). pose proof (child_bounds _ _ _ _ Hwf Hc) as Hto.
    apply (child_in _ _ _ _ Hwf) in Hc. apply Hno in Hc.
    assert (Hlt : (pos < length inp)%nat).
    { destruct (Nat.lt_ge_cases pos (length inp)) as [?|Hge]; [assumption|]. exfalso. apply Hc. rewrite <- Hpk.
      assert (Hn : nth_error inp pos = None) by now apply nth_error_None.
      destruct Hq as [->| ->]; cbn; rewrite Hn; [reflexivity|]. destruct E as [|[]]; reflexivity. }
    destruct (try_match_kept fold E (S pos) (length inp) (build_trie ls) (class_list ls) f Hwf Hno Hf' fuel q
      (fun p => S pos <= p <= length inp)%nat to (o_bump q pos)) as (v' & s2 & Hm & Hi).
    - exact (HK q Hq).
    - destruct Hq as [->| ->]; cbn; lia.
    - lia.
    - lia.
    - rewrite Hm in H. injection H as _ ->. lia. }
  unfold set_try. remember (node_count (build_trie ls)) as nc eqn:Enc_. destruct nc as [|fuel]; [discriminate|].
  cbn [try_match]. destruct f; [| |congruence].
  - apply (Hstep (raw E inp)); [now left|lia].
  - destruct (node_impl E (build_trie ls) (class_list ls) (acf (raw E inp)) _ 0 pos) as [|w s'] eqn:Hi; [discriminate|].
    intros [= -> <-]. cbn. apply (Hstep (acf (raw E inp)) (or_intror eq_refl) fuel v s'); [lia|exact Hi].
Qed.
End Root.

Lemma lit_eats fold f E inp cs n : f <> UnicodeFold -> cs <> [] ->
  nf_literal fold f E inp cs 0 = (true, n) -> (1 <= n)%nat.
Proof.
  intros Hf Hc. assert (1 <= length cs)%nat by (destruct cs; [congruence|cbn; lia]).
  destruct f; [| |congruence]; cbn [nf_literal]; unfold cfl_ascii, lit_try.
  - destruct (match_units (raw E inp) cs 0%nat) as [ok s'] eqn:Hm. intros [= -> <-].
    apply (match_units_count _ (fun p => p)) in Hm; [|reflexivity]. cbn. lia.
  - destruct (match_units (acf (raw E inp)) cs 0%nat) as [ok s'] eqn:Hm. intros [= -> <-].
    apply (match_units_count _ (fun p => p)) in Hm; [|reflexivity]. cbn. lia.
Qed.

Lemma until_pos E cond : (forall r n, cond r = Some n -> (1 <= n)%nat) -> forall rest n,
  until_try E cond rest = (true, n) -> (1 <= n)%nat.
Proof.
  intros Hc. induction rest as [|c rest IH]; intros n; cbn [until_try].
  - destruct (cond []) eqn:H; [|discriminate]. intros [= <-]. exact (Hc _ _ H).
  - destruct (cond (c :: rest)) eqn:H; [intros [= <-]; exact (Hc _ _ H)|].
    destruct (_ =? _); [discriminate|]. destruct (until_try E cond rest) as [ok m]. intros [= _ <-]. lia.
Qed.

Lemma ndigits_s_pos b sep : forall n rest pos, (pos <= t_end (ndigits_s_loop n b sep rest pos))%nat.
Proof.
  induction n as [|n IH]; intros rest pos; cbn [ndigits_s_loop t_end]; [lia|].
  destruct (match_digit b _); cbn [t_end]; [|lia]. etransitivity; [|apply IH]. lia.
Qed.

Lemma eats_all fold E t : tr_ok E t -> eats t -> forall rest n,
  tr_try fold E t rest = Some (true, n) -> (1 <= n)%nat.
Proof.
  induction t; cbn [tr_ok eats]; intros Hok He rest m; cbn [tr_try]; try contradiction.
  - intros [= H]. destruct He as [H1 H2]. exact (lit_eats fold f E rest cs m H1 H2 H).
  - destruct He as [H1 H2]. destruct (set_try fold f E ls rest 0) as [|[v|] e] eqn:Hs; try discriminate.
    intros [= <-]. exact (set_eats fold E ls rest H2 (proj1 Hok) f 0 v e H1 ltac:(lia) Hs).
  - destruct (class_try E (build e) rest) as [k|] eqn:Hc; [|discriminate]. intros [= <-]. apply class_len in Hc. lia.
  - destruct (pattern_kept E (build lead) (build trail) rest) as [->|(k & -> & Hk)]; cbn [of_tres]; [discriminate|].
    intros [= <-]. lia.
  - unfold keyword_try, kw_try. destruct (match_units (raw E rest) cs 0%nat) as [[] s] eqn:Hm; [|discriminate].
    intros [= _ <-]. apply (match_units_count _ (fun p => p)) in Hm; [|reflexivity].
    destruct cs; [congruence|]. cbn in Hm. lia.
  - intros [= H]. apply until_pos in H; [exact H|]. intros r k Hk.
    destruct (tr_try fold E t r) as [[[] x]|] eqn:Ht; try discriminate. injection Hk as <-. exact (IHt Hok He r x Ht).
  - unfold digits_tok. destruct (match_digits b rest) as [ok k] eqn:Hd. intros [= -> <-].
    apply match_digits_len in Hd. now apply Hd.
  - unfold digits_t_tok. destruct (match_digits b rest) as [ok k] eqn:Hd. unfold of_tok. intros [= H <-].
    apply match_digits_len in Hd. now apply leading_zero_len.
  - unfold digits_s_tok. destruct (match_digits_sep_kept b (tr_match fold E t) rest (tr_match_stays fold E t (inside_all fold E t Hok)))
      as (ok & k & Hd & _ & Ho). change (fun r => match tr_try fold E t r with Some (true, n) => Some n | _ => None end) with (tr_match fold E t).
    rewrite Hd. intros [= -> <-]. now apply Ho.
  - unfold digits_st_tok. destruct (match_digits_sep_kept b (tr_match fold E t) rest (tr_match_stays fold E t (inside_all fold E t Hok)))
      as (ok & k & Hd & Hl & Ho). change (fun r => match tr_try fold E t r with Some (true, n) => Some n | _ => None end) with (tr_match fold E t).
    rewrite Hd. cbn [option_map]. unfold of_tok. intros [= H <-]. now apply leading_zero_len.
  - unfold of_tok, ndigits_tok. intros [= H <-]. rewrite (proj2 (ndigits_len n b rest 0) H). lia.
  - unfold of_tok, ndigits_s_tok. destruct (match_digit b rest); [|discriminate]. intros [= H <-].
    apply ndigits_s_pos.
  - destruct He as [H1 H2]. unfold nf_try. destruct (nf_literal fold f E rest cs 0) as [[] k] eqn:Hl; [|discriminate].
    cbn [nf_end]. intros [= _ <-]. exact (lit_eats fold f E rest cs k H1 H2 Hl).
  - pose proof (bytes_len p n rest) as [_ H]. destruct (bytes_try n p rest) as [ok k]. intros [= -> <-].
    cbn [fst snd] in H. rewrite H; [exact He|reflexivity].
  - unfold bits_try. destruct rest; [discriminate|]. destruct (_ =? _); [|discriminate]. intros [= <-]. lia.
  - exact (IHt Hok He rest m).
Qed.
