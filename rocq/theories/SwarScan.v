(** Proofs about the scanning loops: the word loops stop exactly where a
    unit-wise loop stops, and never read outside of the allocation. *)
From Verif Require Import Prelude SwarModel SwarSpec SwarLanes SwarProofs.
Open Scope N_scope.

Lemma run_le q l : (run q l <= length l)%nat.
Proof. induction l as [|x l IH]; cbn [run length]; [lia|]. destruct (q x); lia. Qed.

Lemma run_skipn q : forall k l, (k <= run q l)%nat -> run q (skipn k l) = (run q l - k)%nat.
Proof.
  induction k as [|k IH]; intros l H; [rewrite Nat.sub_0_r; reflexivity|].
  destruct l as [|x l]; cbn [run skipn] in *; [lia|]. destruct (q x); [|lia].
  rewrite IH by lia. lia.
Qed.

Lemma run_all q l : Forall (fun x => q x = true) l -> run q l = length l.
Proof. induction 1 as [|x l Hx Hl IH]; cbn [run length]; [reflexivity|]. now rewrite Hx, IH. Qed.

(** Memory of a sentinel buffer. *)
Definition mem_of (eofc : N) (pad : nat) (contents : list N) : list N :=
  contents ++ repeat eofc pad.
Definition mem_ok (w eofc : N) (pad : nat) (contents : list N) : Prop :=
  width_ok w /\ eofc = 2 ^ w - 1 /\ (S (swar_length w) <= pad)%nat /\
  lanes w contents /\ ~ In eofc contents.

Lemma run_firstn q eofc pad : forall L l,
  q eofc = false -> (L <= length l + pad)%nat ->
  Forall (fun x => q x = true) (firstn L (l ++ repeat eofc pad)) -> (L <= run q l)%nat.
Proof.
  intros L; induction L as [|L IH]; intros l Hq Hlen H; [lia|].
  destruct l as [|x l].
  - cbn [length Nat.add app] in *. destruct pad as [|pad]; [lia|].
    cbn [repeat firstn] in H. inversion H; congruence.
  - cbn [length app firstn run] in *. inversion H as [|? ? H1 H2]; subst. rewrite H1.
    assert (L <= run q l)%nat by (apply IH; [assumption|lia|assumption]). lia.
Qed.

Section Scan.
Variables (w eofc : N) (pad : nat) (contents : list N).
Hypothesis Hok : mem_ok w eofc pad contents.
Let mem := mem_of eofc pad contents.
Lemma Hw : width_ok w. Proof. exact (proj1 Hok). Qed.

Lemma mem_lanes : lanes w mem.
Proof.
  destruct Hok as (_ & He & _ & Hl & _). apply Forall_app. split; [exact Hl|].
  apply lanes_repeat. pose proof (pow_pos w). lia.
Qed.
Lemma mem_length : length mem = (length contents + pad)%nat.
Proof. unfold mem, mem_of. rewrite app_length, repeat_length. reflexivity. Qed.

Lemma mem_skip pos : (pos <= length contents)%nat ->
  skipn pos mem = skipn pos contents ++ repeat eofc pad.
Proof.
  intros H. unfold mem, mem_of. rewrite skipn_app.
  replace (pos - length contents)%nat with 0%nat by lia. reflexivity.
Qed.

Lemma mem_peek pos : (pos <= length contents)%nat ->
  br_peek mem pos = Some (match skipn pos contents with [] => eofc | c :: _ => c end).
Proof.
  intros H. unfold br_peek.
  replace pos with (pos + 0)%nat at 1 by lia.
  rewrite <- (firstn_skipn pos mem) at 1.
  rewrite nth_error_app2; rewrite firstn_length_le; try (rewrite mem_length; lia); [|lia].
  replace (pos + 0 - pos)%nat with 0%nat by lia. rewrite mem_skip by exact H.
  destruct (skipn pos contents); [|reflexivity].
  destruct Hok as (_ & _ & Hp & _). destruct pad; [lia|]. reflexivity.
Qed.

Lemma swar_skip_spec filter q :
  q eofc = false ->
  (forall l, word_lanes w l -> filter (pack w l) = true -> Forall (fun x => q x = true) l) ->
  forall fuel pos, (pos <= length contents)%nat -> (length contents - pos < fuel)%nat ->
  exists p, swar_skip fuel w filter mem pos = At p /\ (pos <= p)%nat /\
            (p <= pos + run q (skipn pos contents))%nat.
Proof.
  intros Hq Hf. induction fuel as [|fuel IH]; intros pos Hp Hfu; [lia|].
  cbn [swar_skip].
  destruct (peek_swar w mem pos) as [v|] eqn:Hpk.
  - destruct (filter v) eqn:Hfv; [|exists pos; split; [reflexivity|lia]].
    destruct (peek_swar_some w mem pos v mem_lanes Hpk) as (l & Hl & -> & El).
    apply Hf in Hfv; [|exact Hl]. subst l. rewrite mem_skip in Hfv by exact Hp.
    destruct Hok as (_ & _ & Hpad & _).
    apply run_firstn in Hfv; [|exact Hq|rewrite skipn_length; lia].
    assert (HL : (swar_length w >= 1)%nat) by (destruct Hw as [->|[->| ->]]; vm_compute; lia).
    pose proof (run_le q (skipn pos contents)) as Hr. rewrite skipn_length in Hr.
    destruct (IH (pos + swar_length w)%nat ltac:(lia) ltac:(lia)) as (p & E & H1 & H2).
    exists p. split; [exact E|]. split; [lia|].
    rewrite <- skipn_skipn, run_skipn in H2 by exact Hfv. lia.
  - exfalso. unfold peek_swar in Hpk.
    destruct (Nat.leb_spec (pos + swar_length w) (length mem)) as [Hle|Hlt]; [discriminate|].
    rewrite mem_length in Hlt. destruct Hok as (_ & _ & Hpad & _). lia.
Qed.

Lemma skipn_head_run q pos :
  (run q (skipn pos contents) = 0 ->
   match skipn pos contents with [] => True | c :: _ => q c = false end)%nat.
Proof. destruct (skipn pos contents) as [|c r]; cbn [run]; [trivial|]. destruct (q c); [lia|auto]. Qed.

Lemma unit_skip_spec q :
  q eofc = false ->
  forall fuel pos, (pos <= length contents)%nat -> (length contents - pos < fuel)%nat ->
  unit_skip fuel q mem pos = At (pos + run q (skipn pos contents)).
Proof.
  intros Hq. induction fuel as [|fuel IH]; intros pos Hp Hfu; [lia|].
  cbn [unit_skip]. rewrite mem_peek by exact Hp.
  destruct (skipn pos contents) as [|c r] eqn:E.
  - rewrite Hq. cbn [run]. f_equal; lia.
  - cbn [run]. destruct (q c) eqn:Hc; [|f_equal; lia].
    assert (Hlen : length (skipn pos contents) = S (length r)) by (rewrite E; reflexivity).
    rewrite skipn_length in Hlen.
    rewrite IH by lia. f_equal. rewrite <- (skipn_skipn contents 1 pos), E. cbn [skipn]. lia.
Qed.

Lemma swar_then_units filter q :
  q eofc = false ->
  (forall l, word_lanes w l -> filter (pack w l) = true -> Forall (fun x => q x = true) l) ->
  forall fuel pos, (pos <= length contents)%nat -> (length contents - pos < fuel)%nat ->
  scan_bind (swar_skip fuel w filter mem pos) (unit_skip fuel q mem)
  = At (pos + run q (skipn pos contents)).
Proof.
  intros Hq Hf fuel pos Hp Hfu.
  destruct (swar_skip_spec filter q Hq Hf fuel pos Hp Hfu) as (p & E & H1 & H2).
  rewrite E. cbn [scan_bind]. pose proof (run_le q (skipn pos contents)) as Hr.
  rewrite skipn_length in Hr. rewrite unit_skip_spec by (assumption || lia).
  f_equal. replace p with (pos + (p - pos))%nat at 2 by lia.
  rewrite <- skipn_skipn, run_skipn by lia. lia.
Qed.

Lemma class_run_spec filter q :
  q eofc = false ->
  (forall l, word_lanes w l -> filter (pack w l) = true -> Forall (fun x => q x = true) l) ->
  forall fuel pos, (pos <= length contents)%nat -> (length contents - pos < fuel)%nat ->
  class_run_swar fuel w filter q mem pos = At (pos + run q (skipn pos contents)).
Proof.
  intros Hq Hf. induction fuel as [|fuel IH]; intros pos Hp Hfu; [lia|].
  cbn [class_run_swar].
  destruct (swar_skip_spec filter q Hq Hf (S fuel) pos Hp Hfu) as (p & E & H1 & H2).
  rewrite E. cbn [scan_bind]. pose proof (run_le q (skipn pos contents)) as Hr.
  rewrite skipn_length in Hr. rewrite mem_peek by lia.
  assert (Er : run q (skipn p contents) = (run q (skipn pos contents) - (p - pos))%nat).
  { replace p with (pos + (p - pos))%nat at 1 by lia.
    rewrite <- skipn_skipn, run_skipn by lia. reflexivity. }
  destruct (skipn p contents) as [|c r] eqn:Ep.
  - rewrite Hq. cbn [run] in Er. f_equal. lia.
  - cbn [run] in Er. destruct (q c) eqn:Hc.
    + assert (Hlen : length (skipn p contents) = S (length r)) by (rewrite Ep; reflexivity).
      rewrite skipn_length in Hlen. rewrite IH by lia. f_equal.
      rewrite <- (skipn_skipn contents 1 p), Ep. cbn [skipn]. lia.
    + f_equal. lia.
Qed.

(** ** [dsl::any] *)
Lemma any_filter l : word_lanes w l ->
  negb (swar_has_char w eofc (pack w l)) = true -> Forall (fun x => negb (x =? eofc) = true) l.
Proof.
  intros Hl H. rewrite has_char_spec in H; [|exact Hw| |exact Hl].
  2:{ destruct Hok as (_ & He & _). pose proof (pow_pos w). lia. }
  apply negb_true_iff in H. apply Forall_forall. intros x Hx.
  destruct (N.eqb_spec x eofc) as [->|Hne]; [|reflexivity].
  exfalso. assert (existsb (fun x => x =? eofc) l = true).
  { apply existsb_exists. exists eofc. split; [exact Hx|apply N.eqb_refl]. }
  congruence.
Qed.

Lemma no_eof_in pos : Forall (fun x => negb (x =? eofc) = true) (skipn pos contents).
Proof.
  apply Forall_forall. intros x Hx. destruct Hok as (_ & _ & _ & _ & Hn).
  destruct (N.eqb_spec x eofc) as [->|Hne]; [|reflexivity].
  exfalso. apply Hn. rewrite <- (firstn_skipn pos contents). apply in_or_app. now right.
Qed.

Lemma any_spec fuel pos :
  (pos <= length contents)%nat -> (length contents - pos < fuel)%nat ->
  any_swar fuel w eofc mem pos = At (length contents).
Proof.
  intros Hp Hfu. unfold any_swar.
  rewrite (swar_then_units _ (fun c => negb (c =? eofc))).
  - rewrite run_all by apply no_eof_in. f_equal. rewrite skipn_length. lia.
  - now rewrite N.eqb_refl.
  - exact any_filter.
  - exact Hp.
  - exact Hfu.
Qed.

(** ** Classes *)
Lemma table_ascii k c : class_table k c = true -> c <= 0x7F.
Proof. destruct k; unfold class_table, in_range; lia. Qed.

Lemma table_eof k : class_table k eofc = false.
Proof.
  destruct (class_table k eofc) eqn:E; [|reflexivity]. apply table_ascii in E.
  destruct Hok as (_ & He & _). pose proof (width_pow w Hw). lia.
Qed.

Lemma digits_spec k fuel pos :
  filter_ok k w -> (pos <= length contents)%nat -> (length contents - pos < fuel)%nat ->
  digits_swar fuel w k mem pos = At (pos + run (class_table k) (skipn pos contents)).
Proof.
  intros Hf Hp Hfu. unfold digits_swar. apply swar_then_units; auto.
  - apply table_eof.
  - intros l Hl H. eapply class_sound; eauto using Hw.
Qed.

Lemma identifier_spec k fuel pos :
  filter_ok k w -> (pos <= length contents)%nat -> (length contents - pos < fuel)%nat ->
  identifier_trailing_swar fuel w k mem pos = At (pos + run (class_table k) (skipn pos contents)).
Proof.
  intros Hf Hp Hfu. unfold identifier_trailing_swar. apply class_run_spec; auto.
  - apply table_eof.
  - intros l Hl H. eapply class_sound; eauto using Hw.
Qed.

Lemma whitespace_spec k fuel pos :
  class_table k 0x20 = true -> (pos <= length contents)%nat -> (length contents - pos < fuel)%nat ->
  whitespace_swar fuel w k mem pos = At (pos + run (class_table k) (skipn pos contents)).
Proof.
  intros Hk Hp Hfu. unfold whitespace_swar. apply class_run_spec; auto.
  - apply table_eof.
  - intros l [Hl Hn] H. pose proof (width_pow w Hw). rewrite fill_pack in H; [|exact Hw|lia].
    apply pack_eqb in H; [|exact Hl|apply lanes_repeat; lia|now rewrite repeat_length].
    subst l. apply Forall_forall. intros x Hx. apply repeat_spec in Hx. now subst.
Qed.

(** ** Digits with separator *)

(** The loop of digit.hpp:318-351 for a reader without SWAR, on the remaining
    units: success flag and number of units consumed. *)
Fixpoint digits_sep_units (fuel : nat) (k : ascii_class) (sep : list N -> option nat)
  (rest : list N) : option (bool * nat) :=
  match fuel with
  | O => None
  | S fuel' =>
    match sep rest with
    | Some n =>
      match skipn n rest with
      | c :: r => if class_table k c
                  then match digits_sep_units fuel' k sep r with
                       | Some (ok, m) => Some (ok, n + 1 + m)%nat
                       | None => None
                       end
                  else Some (false, n)
      | [] => Some (false, n)
      end
    | None =>
      match rest with
      | c :: r => if class_table k c
                  then match digits_sep_units fuel' k sep r with
                       | Some (ok, m) => Some (ok, 1 + m)%nat
                       | None => None
                       end
                  else Some (true, 0%nat)
      | [] => Some (true, 0%nat)
      end
    end
  end.

(** A separator token that behaves the same on the padded memory, stays inside
    the input and does not start with a digit. *)
Definition sep_ok (k : ascii_class) (sep : list N -> option nat) : Prop :=
  (forall rest n, (1 <= n)%nat -> sep (rest ++ repeat eofc n) = sep rest) /\
  (forall rest n, sep rest = Some n -> (1 <= n <= length rest)%nat) /\
  (forall c rest, class_table k c = true -> sep (c :: rest) = None).

Lemma digits_units_skip k sep : sep_ok k sep -> forall n rest fuel,
  (n <= run (class_table k) rest)%nat -> (length rest < fuel)%nat ->
  digits_sep_units fuel k sep rest =
  match digits_sep_units (fuel - n) k sep (skipn n rest) with
  | Some (ok, m) => Some (ok, n + m)%nat
  | None => None
  end.
Proof.
  intros (_ & _ & Hd). induction n as [|n IH]; intros rest fuel Hn Hfu.
  - rewrite Nat.sub_0_r. cbn [skipn Nat.add]. now destruct (digits_sep_units fuel k sep rest) as [[ok m]|].
  - destruct rest as [|c rest]; cbn [run] in Hn; [lia|].
    destruct (class_table k c) eqn:Hc; [|lia]. cbn [length] in Hfu.
    destruct fuel as [|fuel]; [lia|]. cbn [digits_sep_units]. rewrite (Hd c rest Hc), Hc.
    cbn [Nat.sub skipn]. rewrite (IH rest fuel) by lia.
    destruct (digits_sep_units (fuel - n) k sep (skipn n rest)) as [[ok m]|]; reflexivity.
Qed.

Lemma digits_units_fuel k sep : sep_ok k sep -> forall fuel rest,
  (length rest < fuel)%nat ->
  exists ok m, digits_sep_units fuel k sep rest = Some (ok, m) /\ (m <= length rest)%nat /\
    forall fuel', (length rest < fuel')%nat -> digits_sep_units fuel' k sep rest = Some (ok, m).
Proof.
  intros (_ & Hs & _). induction fuel as [|fuel IH]; intros rest Hfu; [lia|].
  cbn [digits_sep_units].
  destruct (sep rest) as [n|] eqn:Es.
  - apply Hs in Es as Hn. destruct (skipn n rest) as [|c r] eqn:Er.
    + exists false, n. split; [reflexivity|]. split; [lia|].
      intros [|f'] Hf'; [lia|]. cbn [digits_sep_units]. now rewrite Es, Er.
    + assert (Hl : length (skipn n rest) = S (length r)) by now rewrite Er.
      rewrite skipn_length in Hl.
      destruct (class_table k c) eqn:Hc.
      * destruct (IH r ltac:(lia)) as (ok & m & E & Hm & Hf). rewrite E.
        exists ok, (n + 1 + m)%nat. split; [reflexivity|]. split; [lia|].
        intros [|f'] Hf'; [lia|]. cbn [digits_sep_units]. rewrite Es, Er, Hc, Hf by lia. reflexivity.
      * exists false, n. split; [reflexivity|]. split; [lia|].
        intros [|f'] Hf'; [lia|]. cbn [digits_sep_units]. now rewrite Es, Er, Hc.
  - destruct rest as [|c r].
    + exists true, 0%nat. split; [reflexivity|]. split; [lia|].
      intros [|f'] Hf'; [lia|]. cbn [digits_sep_units]. now rewrite Es.
    + cbn [length] in Hfu. destruct (class_table k c) eqn:Hc.
      * destruct (IH r ltac:(lia)) as (ok & m & E & Hm & Hf). rewrite E.
        exists ok, (1 + m)%nat. split; [reflexivity|]. cbn [length]. split; [lia|].
        intros [|f'] Hf'; [lia|]. cbn [digits_sep_units]. rewrite Es, Hc, Hf by lia. reflexivity.
      * exists true, 0%nat. split; [reflexivity|]. split; [lia|].
        intros [|f'] Hf'; [lia|]. cbn [digits_sep_units]. now rewrite Es, Hc.
Qed.

(** With SWAR the loop agrees with the unit-wise loop, or it stops in front of a
    separator that directly follows a whole word of digits. *)
Definition stopped_early (k : ascii_class) (sep : list N -> option nat) (p : nat) : Prop :=
  sep (skipn p contents) <> None /\ (swar_length w <= p)%nat /\
  Forall (fun x => class_table k x = true) (firstn (swar_length w) (skipn (p - swar_length w) contents)).

Lemma swar_skip_word filter q :
  q eofc = false ->
  (forall l, word_lanes w l -> filter (pack w l) = true -> Forall (fun x => q x = true) l) ->
  forall fuel pos p, (pos <= length contents)%nat -> 
  swar_skip fuel w filter mem pos = At p ->
  p = pos \/ ((pos + swar_length w <= p)%nat /\
     Forall (fun x => q x = true) (firstn (swar_length w) (skipn (p - swar_length w) contents))).
Proof.
  intros Hq Hf. induction fuel as [|fuel IH]; intros pos p Hp H; [discriminate|].
  cbn [swar_skip] in H.
  destruct (peek_swar w mem pos) as [v|] eqn:Hpk; [|discriminate].
  destruct (filter v) eqn:Hfv; [|left; congruence].
  destruct (peek_swar_some w mem pos v mem_lanes Hpk) as (l & Hl & -> & El).
  apply Hf in Hfv; [|exact Hl]. subst l. rewrite mem_skip in Hfv by exact Hp.
  destruct Hok as (_ & _ & Hpad & _).
  pose proof Hfv as Hfv2.
  apply run_firstn in Hfv; [|exact Hq|rewrite skipn_length; lia].
  pose proof (run_le q (skipn pos contents)) as Hr. rewrite skipn_length in Hr.
  right. apply IH in H; [|lia]. destruct H as [->|[H1 H2]].
  - split; [lia|]. replace (pos + swar_length w - swar_length w)%nat with pos by lia.
    rewrite firstn_app in Hfv2. apply Forall_app in Hfv2. tauto.
  - split; [lia|exact H2].
Qed.

Lemma digits_sep_spec k sep : filter_ok k w -> sep_ok k sep -> forall fuel pos,
  (pos <= length contents)%nat -> (length contents - pos < fuel)%nat ->
  exists ok m, digits_sep_swar fuel w k sep mem pos = Fin ok (pos + m) /\
    (pos + m <= length contents)%nat /\
    (digits_sep_units (S (length contents)) k sep (skipn pos contents) = Some (ok, m) \/
     ok = true /\ stopped_early k sep (pos + m)).
Proof.
  intros Hf Hs. induction fuel as [|fuel IH]; intros pos Hp Hfu; [lia|].
  cbn [digits_sep_swar].
  assert (Hsm : forall p, (p <= length contents)%nat -> sep (skipn p mem) = sep (skipn p contents)).
  { intros p Hp'. rewrite mem_skip by exact Hp'. destruct Hs as (H1 & _). apply H1.
    destruct Hok as (_ & _ & H & _). lia. }
  rewrite Hsm by exact Hp.
  destruct (sep (skipn pos contents)) as [n|] eqn:Es.
  - assert (Hn : (1 <= n <= length (skipn pos contents))%nat) by (destruct Hs as (_ & H & _); eauto).
    rewrite skipn_length in Hn. rewrite mem_peek by lia.
    cbn [digits_sep_units]. rewrite Es, skipn_skipn.
    destruct (skipn (pos + n) contents) as [|c r] eqn:Er.
    + rewrite table_eof. exists false, n. split; [reflexivity|]. split; [lia|]. now left.
    + assert (Hl : length (skipn (pos + n) contents) = S (length r)) by now rewrite Er.
      rewrite skipn_length in Hl.
      destruct (class_table k c) eqn:Hc.
      2:{ exists false, n. split; [reflexivity|]. split; [lia|]. now left. }
      destruct (IH (pos + n + 1)%nat ltac:(lia) ltac:(lia)) as (ok & m & E1 & Hb & E2).
      exists ok, (n + 1 + m)%nat. rewrite E1. split; [f_equal; lia|]. split; [lia|].
      replace (pos + (n + 1 + m))%nat with (pos + n + 1 + m)%nat by lia.
      destruct E2 as [E2|E2]; [left|now right].
      rewrite <- (skipn_skipn contents 1 (pos + n)), Er in E2. cbn [skipn] in E2.
      destruct (digits_units_fuel k sep Hs (S (length contents)) r ltac:(lia)) as (ok' & m' & E3 & _ & Hfu').
      rewrite E2 in E3. injection E3 as <- <-. now rewrite (Hfu' (length contents)) by lia.
  - destruct (swar_skip_spec (class_swar k w) (class_table k) (table_eof k)
       (fun l Hl H => class_sound k w l Hw Hf Hl H) (S fuel) pos Hp Hfu) as (p & E & H1 & H2).
    apply (swar_skip_word _ (class_table k) (table_eof k)
       (fun l Hl H => class_sound k w l Hw Hf Hl H)) in E as Hword; [|exact Hp].
    rewrite E. pose proof (run_le (class_table k) (skipn pos contents)) as Hr.
    rewrite skipn_length in Hr. rewrite mem_peek by lia.
    rewrite (digits_units_skip k sep Hs (p - pos)) by (lia || (rewrite skipn_length; lia)).
    rewrite skipn_skipn. replace (pos + (p - pos))%nat with p by lia.
    destruct (digits_units_fuel k sep Hs (S (length contents) - (p - pos)) (skipn p contents)
                ltac:(rewrite skipn_length; lia)) as (oku & mu & Eu & Hmu & Hfuu).
    rewrite Eu. rewrite skipn_length in Hmu, Hfuu.
    destruct (skipn p contents) as [|c r] eqn:Er.
    + rewrite table_eof. exists true, (p - pos)%nat. split; [f_equal; lia|]. split; [lia|].
      left. assert (Es0 : sep [] = None).
      { destruct (sep []) as [n|] eqn:Es0; [|reflexivity]. destruct Hs as (_ & H & _).
        apply H in Es0. cbn [length] in Es0. lia. }
      specialize (Hfuu (S (length contents)) ltac:(lia)).
      cbn [digits_sep_units] in Hfuu. rewrite Es0 in Hfuu. injection Hfuu as <- <-. do 2 f_equal; lia.
    + assert (Hl : length (skipn p contents) = S (length r)) by now rewrite Er.
      rewrite skipn_length in Hl.
      destruct (class_table k c) eqn:Hc.
      * destruct (IH (p + 1)%nat ltac:(lia) ltac:(lia)) as (ok & m & E1 & Hb & E2).
        exists ok, (p - pos + 1 + m)%nat. rewrite E1. split; [f_equal; lia|]. split; [lia|].
        replace (pos + (p - pos + 1 + m))%nat with (p + 1 + m)%nat by lia.
        destruct E2 as [E2|E2]; [left|now right].
        rewrite <- (skipn_skipn contents 1 p), Er in E2. cbn [skipn] in E2.
        specialize (Hfuu (S (S (length contents))) ltac:(lia)).
        change (digits_sep_units (S (S (length contents))) k sep (c :: r)) with
          (match sep (c :: r) with
           | Some n => match skipn n (c :: r) with
                       | c0 :: r0 => if class_table k c0
                  then match digits_sep_units (S (length contents)) k sep r0 with
                       | Some (ok, m) => Some (ok, n + 1 + m)%nat
                       | None => None
                       end
                  else Some (false, n)
                       | [] => Some (false, n)
                       end
           | None => if class_table k c
                  then match digits_sep_units (S (length contents)) k sep r with
                       | Some (ok, m) => Some (ok, 1 + m)%nat
                       | None => None
                       end
                  else Some (true, 0%nat)
           end) in Hfuu.
        destruct Hs as (_ & _ & H3). rewrite (H3 c r Hc), Hc, E2 in Hfuu.
        injection Hfuu as <- <-. do 2 f_equal; lia.
      * exists true, (p - pos)%nat. split; [f_equal; lia|]. split; [lia|].
        destruct (sep (c :: r)) as [n|] eqn:Esp.
        -- right. split; [reflexivity|]. replace (pos + (p - pos))%nat with p by lia.
           destruct Hword as [->|[H3 H4]]; [congruence|].
           unfold stopped_early. rewrite Er, Esp. split; [discriminate|]. split; [lia|exact H4].
        -- left. specialize (Hfuu (S (length contents)) ltac:(lia)).
           cbn [digits_sep_units] in Hfuu. rewrite Esp, Hc in Hfuu. injection Hfuu as <- <-.
           do 2 f_equal; lia.
Qed.
End Scan.
