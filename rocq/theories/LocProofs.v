(** Proofs about locations. *)
From Verif Require Import Prelude CodecModel CodecSpec CodecProofs SwarSpec LitModel LitSpec
  ClassModel ClassSpec ClassProofs TextModel TextSpec TextProofs LocModel LocSpec.
Open Scope N_scope.

(** ** The loop as steps between states *)

Record lst := Lst { s_idx : nat; s_cur : nat; s_lb : nat; s_nr : N; s_col : N }.

Definition stepf (E : lenc) (c : counting) (inp : list N) (s : lst) : option lst :=
  let rest := skipn (s_cur s) inp in
  if lpeek E rest =? leof E then None
  else match try_match_newline E c (s_idx s) rest with
  | Some (n, idx') => Some (Lst idx' (s_cur s + n) (s_cur s + n) (unsigned_inc (s_nr s)) 1)
  | None =>
    let '(n, idx') := match_column E c (s_idx s) rest in
    Some (Lst idx' (s_cur s + n) (s_lb s) (s_nr s) (unsigned_inc (s_col s)))
  end.

Definition loop (fuel : nat) (E : lenc) (c : counting) (inp : list N) (pos : nat) (s : lst) :=
  loc_loop fuel E c inp pos (s_idx s) (s_cur s) (s_lb s) (s_nr s) (s_cur s) (s_col s).
Definition loc_of (s : lst) : location := Location (s_lb s) (s_nr s) (s_cur s) (s_col s).

Lemma loop_eq fuel E c inp pos s : (s_cur s <= pos)%nat ->
  loop (S fuel) E c inp pos s =
  if (s_cur s =? pos)%nat then Loc (loc_of s)
  else match stepf E c inp s with
       | None => LocAssert
       | Some s' => if (s_cur s' <=? pos)%nat then loop fuel E c inp pos s' else Loc (loc_of s)
       end.
Proof.
  intros Hle. unfold loop. cbn [loc_loop]. unfold stepf. destruct (s_cur s =? pos)%nat; [reflexivity|].
  destruct (lpeek E (skipn (s_cur s) inp) =? leof E); [reflexivity|].
  assert (Hm : forall a, negb (min_range_end a pos =? a)%nat = negb (a <=? pos)%nat).
  { intros a. unfold min_range_end. destruct (Nat.leb_spec a pos); [now rewrite Nat.eqb_refl|].
    destruct (Nat.eqb_spec pos a); [lia|reflexivity]. }
  assert (Hp : forall n, ((s_cur s <=? s_cur s + n) && (s_cur s <=? pos))%nat = true) by (intros n; lia).
  destruct (try_match_newline E c (s_idx s) (skipn (s_cur s) inp)) as [(n, i)|].
  - rewrite Hp, Hm. cbn [negb s_cur s_idx s_lb s_nr s_col]. now destruct (s_cur s + n <=? pos)%nat.
  - destruct (match_column E c (s_idx s) (skipn (s_cur s) inp)) as (n, i). rewrite Hp, Hm.
    cbn [negb s_cur s_idx s_lb s_nr s_col]. now destruct (s_cur s + n <=? pos)%nat.
Qed.

(** The index of the byte strategy, and enough about the width. *)
Definition good (c : counting) (s : lst) : Prop :=
  (s_lb s <= s_cur s)%nat /\
  match c with CBytes w => (0 < w)%nat /\ s_idx s = (s_cur s - s_lb s)%nat /\ (s_idx s < w)%nat
  | _ => s_idx s = 0%nat end.

Lemma newline_match E rest n : no_eof E rest -> match_newline E rest = Some n <-> newline_at rest n.
Proof.
  intros He. destruct (newline_eof_eol E rest He) as (H & _). unfold match_newline. rewrite <- H.
  destruct (newline_try E rest); split; congruence.
Qed.
Lemma newline_match_none E rest : no_eof E rest -> match_newline E rest = None -> forall n, ~ newline_at rest n.
Proof. intros He H n Hn. apply (newline_match E rest n He) in Hn. congruence. Qed.

Lemma newline_len rest n : newline_at rest n -> (1 <= n <= length rest)%nat.
Proof. intros [(-> & l & ->)|(-> & l & ->)]; cbn; lia. Qed.

Lemma point_match E rest n : Forall (fun u => u < lbound E) rest ->
  match_code_point E rest = Some n <-> exists c, reads E rest c n.
Proof.
  intros Hu. unfold match_code_point. rewrite (class_matches E code_point_class rest n Hu).
  - split; intros (c & H); exists c; [exact (proj1 H)|]. split; [exact H|]. cbn. now destruct (c <? 128).
  - intros c _ _. reflexivity.
Qed.

Section Loc.
Variables (E : lenc) (c : counting) (inp : list N).
Hypothesis Hinp : text_units E inp.

Lemma rest_ok p : text_units E (skipn p inp).
Proof. split; [apply units_skipn|apply eof_skipn]; apply Hinp. Qed.

Lemma rest_peek p : (lpeek E (skipn p inp) =? leof E) = (length inp <=? p)%nat.
Proof.
  pose proof (peek_eof E (skipn p inp) (proj2 (rest_ok p))) as H.
  destruct (Nat.leb_spec (length inp) p) as [L|L].
  - apply H. now apply skipn_all2.
  - destruct (lpeek E (skipn p inp) =? leof E); [|reflexivity].
    apply proj1 in H. specialize (H eq_refl). apply (f_equal (@length N)) in H. rewrite skipn_length in H. cbn in H. lia.
Qed.

Lemma column_size idx p : (p < length inp)%nat ->
  (1 <= fst (match_column E c idx (skipn p inp)) <= length inp - p)%nat.
Proof.
  intros Hp. destruct c; cbn [match_column fst]; try lia.
  destruct (match_code_point E (skipn p inp)) as [n|] eqn:Hm; [|lia].
  apply (point_match E _ n (proj1 (rest_ok p))) in Hm as (x & Hx).
  pose proof (reads_pos E _ x n (proj1 (rest_ok p)) Hx) as H. now rewrite skipn_length in H.
Qed.

Lemma newline_size idx p n i : (p < length inp)%nat ->
  try_match_newline E c idx (skipn p inp) = Some (n, i) -> (1 <= n <= length inp - p)%nat.
Proof.
  intros Hp. unfold try_match_newline. rewrite rest_peek.
  assert (Hl : (length inp <=? p)%nat = false) by (apply Nat.leb_gt; exact Hp).
  destruct c as [| |w].
  1,2: destruct (match_newline E (skipn p inp)) as [m|] eqn:Hm; [|discriminate]; intros [= <- <-];
    apply (newline_match E _ m (proj2 (rest_ok p))) in Hm; apply newline_len in Hm; now rewrite skipn_length in Hm.
  destruct (idx =? w - 1)%nat; [|discriminate]. rewrite Hl. intros [= <- <-]. lia.
Qed.

Lemma stepf_some s : (s_cur s < length inp)%nat -> exists s', stepf E c inp s = Some s'.
Proof.
  intros H. unfold stepf. rewrite rest_peek. assert (Hl : (length inp <=? s_cur s)%nat = false) by (apply Nat.leb_gt; exact H).
  rewrite Hl. destruct (try_match_newline E c (s_idx s) (skipn (s_cur s) inp)) as [(n, i)|]; [eauto|].
  destruct (match_column E c (s_idx s) (skipn (s_cur s) inp)); eauto.
Qed.

Lemma stepf_inv s s' : stepf E c inp s = Some s' ->
  (s_cur s < length inp)%nat /\
  ((exists n i, try_match_newline E c (s_idx s) (skipn (s_cur s) inp) = Some (n, i) /\
     (1 <= n <= length inp - s_cur s)%nat /\
     s' = Lst i (s_cur s + n) (s_cur s + n) (unsigned_inc (s_nr s)) 1) \/
   (exists n i, try_match_newline E c (s_idx s) (skipn (s_cur s) inp) = None /\
     match_column E c (s_idx s) (skipn (s_cur s) inp) = (n, i) /\
     (1 <= n <= length inp - s_cur s)%nat /\
     s' = Lst i (s_cur s + n) (s_lb s) (s_nr s) (unsigned_inc (s_col s)))).
Proof.
  unfold stepf. rewrite rest_peek. destruct (Nat.leb_spec (length inp) (s_cur s)) as [L|L]; [discriminate|].
  intros H. split; [exact L|].
  destruct (try_match_newline E c (s_idx s) (skipn (s_cur s) inp)) as [(n, i)|] eqn:Hn.
  - left. exists n, i. split; [reflexivity|]. split; [|congruence]. exact (newline_size _ _ _ _ L Hn).
  - right. pose proof (column_size (s_idx s) (s_cur s) L) as Hs.
    destruct (match_column E c (s_idx s) (skipn (s_cur s) inp)) as (n, i). exists n, i.
    split; [reflexivity|]. split; [reflexivity|]. split; [exact Hs|congruence].
Qed.

Lemma stepf_cur s s' : stepf E c inp s = Some s' -> (s_cur s < s_cur s' <= length inp)%nat.
Proof. intros H. apply stepf_inv in H as (L & [(n & i & _ & Hn & ->)|(n & i & _ & _ & Hn & ->)]); cbn; lia. Qed.

Lemma stepf_good s s' : good c s -> stepf E c inp s = Some s' -> good c s'.
Proof.
  intros (H1 & H2) H. apply stepf_inv in H as (L & [(n & i & Ht & Hn & ->)|(n & i & Ht & Hm & Hn & ->)]); split; cbn.
  - lia.
  - unfold try_match_newline in Ht. destruct c as [| |w].
    1,2: destruct (match_newline E _); congruence.
    destruct (s_idx s =? w - 1)%nat; [|discriminate]. injection Ht as _ <-. lia.
  - lia.
  - unfold try_match_newline in Ht. destruct c as [| |w]; cbn in Hm; injection Hm as <- <-; try exact H2.
    destruct (Nat.eqb_spec (s_idx s) (w - 1)); [discriminate|]. lia.
Qed.

Inductive steps : lst -> lst -> Prop :=
| steps_refl s : steps s s
| steps_more s s' t : stepf E c inp s = Some s' -> steps s' t -> steps s t.

Lemma steps_trans s t u : steps s t -> steps t u -> steps s u.
Proof. induction 1; [auto|]. intros H1. econstructor; eauto. Qed.
Lemma steps_snoc s t u : steps s t -> stepf E c inp t = Some u -> steps s u.
Proof. intros H1 H2. eapply steps_trans; [exact H1|]. econstructor; [exact H2|constructor]. Qed.
Lemma steps_cur s t : steps s t -> (s_cur s <= s_cur t)%nat.
Proof. induction 1 as [|s s' t H _ IH]; [lia|]. apply stepf_cur in H. lia. Qed.
Lemma steps_good s t : good c s -> steps s t -> good c t.
Proof. intros H. induction 1 as [|s s' t Hs _ IH]; [exact H|]. apply IH. eapply stepf_good; eassumption. Qed.
Lemma steps_linear s t u : steps s t -> steps s u -> steps t u \/ steps u t.
Proof.
  intros H. revert u. induction H as [s|s s' t Hs H IH]; intros u Hu; [now left|].
  destruct Hu as [s|s s'' u Hs' Hu]; [right; econstructor; eassumption|].
  rewrite Hs in Hs'. injection Hs' as <-. auto.
Qed.

(** The state in which a search for [pos] ends. *)
Definition final (pos : nat) (s t : lst) : Prop :=
  steps s t /\ (s_cur t = pos \/
    ((s_cur t < pos)%nat /\ exists t', stepf E c inp t = Some t' /\ (pos < s_cur t')%nat)).

Lemma loop_final pos : (pos <= length inp)%nat -> forall fuel s, (s_cur s <= pos)%nat ->
  (length inp - s_cur s < fuel)%nat ->
  exists t, final pos s t /\ loop fuel E c inp pos s = Loc (loc_of t).
Proof.
  intros Hp. induction fuel as [|fuel IH]; intros s Hs Hf; [lia|]. rewrite loop_eq by exact Hs.
  destruct (Nat.eqb_spec (s_cur s) pos) as [He|He].
  - exists s. split; [|reflexivity]. split; [constructor|now left].
  - destruct (stepf_some s ltac:(lia)) as (s' & Hs'). rewrite Hs'. pose proof (stepf_cur s s' Hs') as Hc.
    destruct (Nat.leb_spec (s_cur s') pos) as [L|L].
    + destruct (IH s' L ltac:(lia)) as (t & (Ht1 & Ht2) & Ht3). exists t. split; [|exact Ht3].
      split; [econstructor; eassumption|exact Ht2].
    + exists s. split; [|reflexivity]. split; [constructor|]. right. split; [lia|]. eauto.
Qed.

Lemma final_stuck pos t u : final pos t t -> final pos t u -> t = u.
Proof.
  intros (_ & Ht) (Hu & Hu'). destruct Hu as [t|t t' u Hs Hu]; [reflexivity|]. exfalso.
  pose proof (stepf_cur _ _ Hs) as H1. pose proof (steps_cur _ _ Hu) as H2.
  destruct Ht as [Ht|(Ht & t'' & Ht'' & Hl)].
  - destruct Hu' as [Hu'|(Hu' & _)]; lia.
  - rewrite Hs in Ht''. injection Ht'' as <-. destruct Hu' as [Hu'|(Hu' & _)]; lia.
Qed.
Lemma final_unique pos s t u : final pos s t -> final pos s u -> t = u.
Proof.
  intros (Ht & Ht') (Hu & Hu'). destruct (steps_linear s t u Ht Hu) as [H|H].
  - apply (final_stuck pos t u); split; auto. constructor.
  - symmetry. apply (final_stuck pos u t); split; auto. constructor.
Qed.

Definition start (a : anchor) : lst := Lst 0 (an_line_begin a) (an_line_begin a) (an_line_nr a) 1.
Notation s0 := (start input_anchor).
Definition wide : Prop := match c with CBytes w => (0 < w)%nat | _ => True end.

Lemma start_good a : wide -> good c (start a).
Proof. intros H. split; cbn; [lia|]. unfold wide in H. destruct c; [reflexivity|reflexivity|]. lia. Qed.

Lemma get_final pos a : (an_line_begin a <= pos <= length inp)%nat ->
  exists t, final pos (start a) t /\ get_input_location E c inp pos a = Loc (loc_of t).
Proof. intros H. apply (loop_final pos (proj2 H) (S (length inp)) (start a)); cbn; lia. Qed.

(** *** Anchors *)

Lemma line_state t : wide -> steps s0 t ->
  let sl := Lst 0 (s_lb t) (s_lb t) (s_nr t) 1 in steps s0 sl /\ steps sl t.
Proof.
  intros Hw H.
  assert (G : forall s, good c s -> steps s t ->
    steps s0 s -> let sl := Lst 0 (s_lb s) (s_lb s) (s_nr s) 1 in steps s0 sl /\ steps sl s ->
    let sl := Lst 0 (s_lb t) (s_lb t) (s_nr t) 1 in steps s0 sl /\ steps sl t).
  { clear H. intros s Hg H. induction H as [s|s s' t Hs H IH]; intros H0; cbn zeta; intros (Ha & Hb); [split; assumption|].
    apply IH; [eapply stepf_good; eassumption|exact (steps_snoc _ _ _ H0 Hs)|].
    pose proof Hs as Hs0. apply stepf_inv in Hs as (_ & [(n & i & Ht & Hn & ->)|(n & i & Ht & Hm & Hn & ->)]); cbn [s_lb s_nr].
    - assert (i = 0%nat) as ->.
      { unfold try_match_newline in Ht. destruct Hg as (_ & Hg). destruct c as [| |w].
        1,2: destruct (match_newline E _); [|discriminate]; injection Ht as _ <-; exact Hg.
        destruct (s_idx s =? w - 1)%nat; [|discriminate]. now injection Ht as _ <-. }
      split; [|constructor]. eapply steps_snoc; [exact H0|exact Hs0].
    - split; [exact Ha|]. eapply steps_snoc; [exact Hb|exact Hs0]. }
  apply (G s0); [now apply start_good|exact H|constructor|]. cbn. split; constructor.
Qed.

Lemma from_anchor p q l : wide -> (p <= length inp)%nat -> (q <= length inp)%nat ->
  get_input_location E c inp p input_anchor = Loc l -> (lo_line_begin l <= q)%nat ->
  get_input_location E c inp q (anchor_of l) = get_input_location E c inp q input_anchor.
Proof.
  intros Hw Hp Hq Hl Hle.
  destruct (get_final p input_anchor ltac:(cbn; lia)) as (t & Ht & Hgt). rewrite Hgt in Hl. injection Hl as <-.
  destruct (line_state t Hw (proj1 Ht)) as (H1 & _).
  destruct (get_final q input_anchor ltac:(cbn; lia)) as (u & Hu & ->).
  destruct (get_final q (anchor_of (loc_of t)) ltac:(cbn in *; lia)) as (v & Hv & ->).
  assert (Hv' : final q s0 v) by (split; [eapply steps_trans; [exact H1|apply Hv]|apply Hv]).
  now rewrite (final_unique q s0 u v Hu Hv').
Qed.

(** A position in front of the anchored line. *)
(** Positions behind the end are not found. *)
Lemma behind_end q a : (an_line_begin a <= length inp < q)%nat -> get_input_location E c inp q a = LocAssert.
Proof.
  intros Hq. change (loop (S (length inp)) E c inp q (start a) = LocAssert).
  assert (G : forall fuel s, (s_cur s <= length inp)%nat -> (length inp - s_cur s < fuel)%nat -> loop fuel E c inp q s = LocAssert).
  { induction fuel as [|fuel IH]; intros s Hs Hf; [lia|]. rewrite loop_eq by lia.
    destruct (Nat.eqb_spec (s_cur s) q) as [He|_]; [lia|].
    destruct (stepf E c inp s) as [s'|] eqn:Es; [|reflexivity]. apply stepf_cur in Es.
    destruct (Nat.leb_spec (s_cur s') q) as [L|L]; [|lia]. apply IH; lia. }
  apply G; cbn; lia.
Qed.
Lemma before_anchor q a : (q < an_line_begin a <= length inp)%nat -> get_input_location E c inp q a = LocAssert.
Proof.
  intros Hq. unfold get_input_location. cbn [loc_loop].
  destruct (Nat.eqb_spec (an_line_begin a) q) as [He|_]; [lia|].
  destruct (lpeek E (skipn (an_line_begin a) inp) =? leof E); [reflexivity|].
  assert (Hp : forall n, ((an_line_begin a <=? an_line_begin a + n) && (an_line_begin a <=? q))%nat = false) by (intros n; lia).
  destruct (try_match_newline E c 0 (skipn (an_line_begin a) inp)) as [(n, i)|]; [now rewrite Hp|].
  destruct (match_column E c 0 (skipn (an_line_begin a) inp)) as (n, i). now rewrite Hp.
Qed.

(** *** Order *)

Lemma inc_small x : x + 1 < 2 ^ 32 -> unsigned_inc x = x + 1.
Proof. intros H. unfold unsigned_inc. now apply N.mod_small. Qed.

Lemma step_small t : N.of_nat (length inp) + 1 < 2 ^ 32 -> steps s0 t ->
  1 <= s_nr t <= N.of_nat (s_lb t) + 1 /\ 1 <= s_col t <= N.of_nat (s_cur t - s_lb t) + 1 /\ (s_lb t <= s_cur t)%nat.
Proof.
  intros Hlen H.
  assert (G : forall s, steps s t -> 
    (1 <= s_nr s <= N.of_nat (s_lb s) + 1 /\ 1 <= s_col s <= N.of_nat (s_cur s - s_lb s) + 1 /\ (s_lb s <= s_cur s)%nat) ->
    (1 <= s_nr t <= N.of_nat (s_lb t) + 1 /\ 1 <= s_col t <= N.of_nat (s_cur t - s_lb t) + 1 /\ (s_lb t <= s_cur t)%nat)).
  { clear H. intros s H. induction H as [|s s' t Hs H IH]; [auto|]. intros (H1 & H2 & H3). apply IH.
    apply stepf_inv in Hs as (L & [(n & i & Ht & Hn & ->)|(n & i & Ht & Hm & Hn & ->)]); cbn [s_nr s_lb s_col s_cur];
      rewrite inc_small by lia; lia. }
  apply (G s0 H). cbn. lia.
Qed.

Lemma step_less s s' : N.of_nat (length inp) + 1 < 2 ^ 32 -> steps s0 s -> stepf E c inp s = Some s' ->
  s_nr s < s_nr s' \/ (s_nr s = s_nr s' /\ s_col s < s_col s').
Proof.
  intros Hlen H Hs. destruct (step_small s Hlen H) as (H1 & H2 & H3).
  apply stepf_inv in Hs as (L & [(n & i & Ht & Hn & ->)|(n & i & Ht & Hm & Hn & ->)]); cbn [s_nr s_col];
    rewrite inc_small by lia; lia.
Qed.

Lemma steps_less s t : N.of_nat (length inp) + 1 < 2 ^ 32 -> steps s0 s -> steps s t ->
  s = t \/ ((s_cur s < s_cur t)%nat /\ (s_nr s < s_nr t \/ (s_nr s = s_nr t /\ s_col s < s_col t))).
Proof.
  intros Hlen H0 H. induction H as [s|s s' t Hs H IH]; [now left|]. right.
  pose proof (stepf_cur s s' Hs) as Hc. pose proof (step_less s s' Hlen H0 Hs) as Hl.
  destruct (IH ltac:(eapply steps_snoc; eassumption)) as [<-|(H1 & H2)]; [split; [lia|exact Hl]|].
  split; [lia|]. lia.
Qed.

Lemma locations_ordered p q l m : (p <= length inp)%nat -> (q <= length inp)%nat ->
  N.of_nat (length inp) + 1 < 2 ^ 32 ->
  get_input_location E c inp p input_anchor = Loc l ->
  get_input_location E c inp q input_anchor = Loc m ->
  loc_lt l m = (lo_column_begin l <? lo_column_begin m)%nat /\
  loc_eq l m = (lo_column_begin l =? lo_column_begin m)%nat /\
  loc_le l m = (lo_column_begin l <=? lo_column_begin m)%nat /\
  loc_gt l m = (lo_column_begin m <? lo_column_begin l)%nat /\
  loc_ge l m = (lo_column_begin m <=? lo_column_begin l)%nat /\
  ((p <= q)%nat -> (lo_column_begin l <= lo_column_begin m)%nat).
Proof.
  intros Hp Hq Hlen Hl Hm.
  destruct (get_final p input_anchor ltac:(cbn; lia)) as (t & Ht & Hgt). rewrite Hgt in Hl. injection Hl as <-.
  destruct (get_final q input_anchor ltac:(cbn; lia)) as (u & Hu & Hgu). rewrite Hgu in Hm. injection Hm as <-.
  assert (G : steps t u \/ steps u t) by (eapply steps_linear; [apply Ht|apply Hu]).
  assert (D : t = u \/ ((s_cur t < s_cur u)%nat /\ (s_nr t < s_nr u \/ (s_nr t = s_nr u /\ s_col t < s_col u)))
    \/ ((s_cur u < s_cur t)%nat /\ (s_nr u < s_nr t \/ (s_nr u = s_nr t /\ s_col u < s_col t)))).
  { destruct G as [G|G]; apply steps_less in G; try assumption; try apply Ht; try apply Hu; destruct G; subst; auto. }
  assert (M : (p <= q)%nat -> (s_cur t <= s_cur u)%nat).
  { intros Hpq. destruct G as [G|G]; [now apply steps_cur|]. destruct G as [u|u u' t' Hs G]; [lia|].
    exfalso. pose proof (steps_cur _ _ G) as H1. pose proof (stepf_cur _ _ Hs) as H2. destruct Hu as (_ & Hu), Ht as (_ & Ht).
    assert (s_cur t' <= p)%nat by (destruct Ht as [Ht|(Ht & _)]; lia).
    destruct Hu as [Hu|(Hu & u'' & Hs' & Hu'')]; [lia|]. rewrite Hs in Hs'. injection Hs' as <-. lia. }
  unfold loc_le, loc_ge, loc_gt, loc_lt, loc_eq, loc_of. cbn [lo_line_nr lo_column_nr lo_column_begin].
  clear -D M. repeat match goal with |- _ /\ _ => split end; try exact M;
  (destruct D as [<-|D];
   [rewrite ?N.eqb_refl, ?Nat.ltb_irrefl, ?Nat.eqb_refl, ?Nat.leb_refl; cbn; now rewrite ?N.ltb_irrefl|];
   destruct D as [(D1 & [D2|(D2 & D3)])|(D1 & [D2|(D2 & D3)])]; try rewrite D2; rewrite ?N.eqb_refl; cbn [negb];
   repeat match goal with
   | |- context [(?a =? ?b)%N] => destruct (N.eqb_spec a b); [lia|] 
   end; cbn [negb andb]; 
   repeat match goal with
   | |- context [(?a <? ?b)%N] => destruct (N.ltb_spec a b); try lia
   | |- context [(?a <? ?b)%nat] => destruct (Nat.ltb_spec a b); try lia
   | |- context [(?a <=? ?b)%nat] => destruct (Nat.leb_spec a b); try lia
   | |- context [(?a =? ?b)%nat] => destruct (Nat.eqb_spec a b); try lia
   | |- context [(?a =? ?b)%N] => destruct (N.eqb_spec a b); try lia
   end; try reflexivity).
Qed.
End Loc.
