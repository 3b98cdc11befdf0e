(** Property theorems C64: token kinds. *)
From Coq Require Import ZArith.
From Verif Require Import Prelude TokModel.
Open Scope Z_scope.

(** The type can represent every stored value (at least 17 bits, or 16 unsigned bits). *)
Definition wide (t : utype) : Prop := 0 < u_bits t /\ 65535 <= u_max t.

Lemma wide_conv t z : wide t -> 0 <= z <= 65535 -> u_conv t z = z.
Proof.
  intros (Hb & Hw) Hz. unfold u_conv, u_max, u_min in *.
  destruct (u_signed t).
  - assert (Hp : 2 ^ u_bits t = 2 * 2 ^ (u_bits t - 1)) by (rewrite <- Z.pow_succ_r by lia; f_equal; lia).
    rewrite Z.mod_small by lia. lia.
  - rewrite Z.sub_0_r, Z.add_0_r. apply Z.mod_small. lia.
Qed.

(** A user-defined kind is accepted exactly in the range that is not used by the predefined
    ones; its value is given back unchanged, it is not predefined, and kinds are equal exactly
    if their values are. *)
Theorem C64_user_partial : forall t v, wide t ->
  (kind_user t v <> None <-> 0 <= v < 65527) /\
  (forall k, kind_user t v = Some k ->
     kind_get t k = v /\ is_predefined k = false /\ kind_bool k = true /\ ignore_if_empty k = false /\
     (forall v' k', kind_user t v' = Some k' -> (kind_eq k k' = true <-> v = v')) /\
     (forall p, kind_eq k (kind_predefined p) = false /\
                kind_get t k <> kind_get t (kind_predefined p))).
Proof.
  intros t v Hw.
  assert (Hk : forall v k, kind_user t v = Some k -> 0 <= v < 65527 /\ k = v).
  { intros w k. unfold kind_user, smallest_predefined, p_value. rewrite !wide_conv by (auto; lia).
    destruct (Z.leb_spec 0 w); cbn [andb]; [|discriminate]. destruct (Z.ltb_spec w 65527); [|discriminate].
    intros [= <-]. rewrite Z.mod_small by lia. lia. }
  split.
  - unfold kind_user, smallest_predefined, p_value. rewrite !wide_conv by (auto; lia).
    destruct (Z.leb_spec 0 v), (Z.ltb_spec v 65527); cbn [andb]; split; intros; try congruence; try lia; discriminate.
  - intros k H. destruct (Hk v k H) as (Hv & ->). unfold kind_get. rewrite wide_conv by (auto; lia).
    split; [reflexivity|]. split; [unfold is_predefined, smallest_predefined, p_value; lia|].
    split; [unfold kind_bool, p_value; lia|]. split; [unfold ignore_if_empty, p_value; lia|].
    split.
    + intros v' k' H'. destruct (Hk v' k' H') as (Hv' & ->). unfold kind_eq. lia.
    + intros p. unfold kind_eq, kind_predefined. rewrite wide_conv by (auto; destruct p; cbn; lia).
      destruct p; unfold p_value; lia.
Qed.
Print Assumptions C64_user_partial.

(** Predefined kinds are pairwise different, in value, [get] and name, and recognised; the raw
    value identifies a kind; for all types and all 65536 values. *)
Theorem C64_predefined : forall t p q, wide t ->
  is_predefined (kind_predefined p) = true /\
  (kind_eq (kind_predefined p) (kind_predefined q) = true <-> p = q) /\
  (kind_get t (kind_predefined p) = kind_get t (kind_predefined q) <-> p = q) /\
  (forall names, kind_name t names (kind_predefined p) = kind_name t names (kind_predefined q) <-> p = q) /\
  (kind_bool (kind_predefined p) = false <-> p = PUnknown) /\
  (ignore_if_empty (kind_predefined p) = true <-> p = PUnknown \/ p = PError \/ p = PWhitespace).
Proof.
  intros t p q Hw. split; [destruct p; reflexivity|]. split; [destruct p, q; vm_compute; split; congruence|].
  split.
  - unfold kind_get. rewrite !wide_conv by (auto; destruct p, q; cbn; lia).
    destruct p, q; vm_compute; split; congruence.
  - split; [intros names; destruct p, q; vm_compute; split; congruence|].
    split; [destruct p; vm_compute; split; congruence|].
    destruct p; vm_compute; split; intros H; try discriminate; auto; intuition discriminate.
Qed.
Print Assumptions C64_predefined.

Theorem C64_raw : forall k k',
  from_raw (to_raw k) = k /\ to_raw (from_raw k) = k /\
  (to_raw k = to_raw k' <-> kind_eq k k' = true) /\
  (0 <= k <= 65535 -> is_predefined k = true <-> exists p, k = kind_predefined p) /\
  (0 <= k <= 65535 -> forall t names, is_predefined k = true -> kind_name t names k <> Unreachable).
Proof.
  intros k k'. split; [reflexivity|]. split; [reflexivity|]. split; [unfold to_raw, kind_eq; lia|].
  assert (Hp : 0 <= k <= 65535 -> is_predefined k = true -> exists p, k = kind_predefined p).
  { unfold is_predefined, smallest_predefined, p_value. intros Hk H.
    assert (k = 65527 \/ k = 65528 \/ k = 65529 \/ k = 65530 \/ k = 65531 \/ k = 65532 \/ k = 65533 \/ k = 65534 \/ k = 65535) as He by lia.
    destruct He as [->|[->|[->|[->|[->|[->|[->|[->| ->]]]]]]]];
      [exists PDigits|exists PIdentifier|exists PEof|exists PPosition|exists PLiteral|exists PAny|exists PWhitespace|exists PError|exists PUnknown]; reflexivity. }
  split.
  - intros Hk. split; [now apply Hp|]. intros (p & ->). destruct p; reflexivity.
  - intros Hk t names H. destruct (Hp Hk H) as (p & ->). destruct p; vm_compute; discriminate.
Qed.
Print Assumptions C64_raw.

(** The kind of a token rule: the first mapping for it in the map of the type; otherwise the
    one lexy or [.kind] gave to the rule if it is compatible; otherwise unknown. *)
Theorem C64_rule : forall t (ms : list (Z * nat)) rule i k, wide t ->
  let m := fold_left (fun m e => tk_add m (fst e) (snd e)) ms tk_empty in
  kind_of_rule t m rule i = Some k ->
  (exists pre v post, ms = pre ++ (v, rule) :: post /\ ~ In rule (map snd pre) /\ kind_user t v = Some k) \/
  (~ In rule (map snd ms) /\
   match i with
   | IPredefined p => k = kind_predefined p
   | IUser v => kind_user t v = Some k
   | IIncompatible => k = kind_predefined PUnknown
   end).
Proof.
  intros t ms rule i k Hw m Hk.
  assert (Hm : forall l acc, fold_left (fun m e => tk_add m (fst e) (snd e)) l acc = acc ++ map (fun e => (snd e, fst e)) l).
  { induction l as [|e l IH]; intros acc; cbn; [now rewrite app_nil_r|]. rewrite IH. unfold tk_add. now rewrite <- app_assoc. }
  assert (Hl : forall l, (exists pre v post, l = pre ++ (v, rule) :: post /\ ~ In rule (map snd pre) /\
                            tk_lookup (map (fun e => (snd e, fst e)) l) rule = Some v) \/
                         (~ In rule (map snd l) /\ tk_lookup (map (fun e => (snd e, fst e)) l) rule = None)).
  { induction l as [|(v, r) l IH]; cbn [map tk_lookup fst snd]; [right; split; [easy|reflexivity]|].
    destruct (Nat.eqb_spec rule r) as [<-|Hne].
    - left. exists [], v, l. split; [reflexivity|]. split; [easy|reflexivity].
    - destruct IH as [(pre & w & post & -> & Hn & Hs)|(Hn & Hs)].
      + left. exists ((v, r) :: pre), w, post. split; [reflexivity|]. split; [|exact Hs]. cbn. intros [H|H]; congruence || contradiction.
      + right. split; [|exact Hs]. cbn. intros [H|H]; congruence || contradiction. }
  subst m. rewrite Hm in Hk. cbn [app tk_empty] in Hk. unfold kind_of_rule in Hk.
  destruct (Hl ms) as [(pre & v & post & He & Hn & Hs)|(Hn & Hs)]; cbn [app] in Hk; unfold tk_empty in Hk; cbn [app] in Hk; rewrite Hs in Hk.
  - left. exists pre, v, post. split; [exact He|]. split; [exact Hn|].
    destruct (kind_user t v) as [k'|] eqn:Hu; [|discriminate].
    destruct (proj2 (C64_user_partial t v Hw) k' Hu) as (_ & _ & Hb & _). rewrite Hb in Hk. exact Hk.
  - right. split; [exact Hn|]. cbn [kind_bool kind_predefined] in Hk. change (kind_bool (kind_predefined PUnknown)) with false in Hk.
    cbn iota in Hk. destruct i; [congruence|exact Hk|congruence].
Qed.
Print Assumptions C64_rule.

Example C64_example :
  wide int_type /\ wide (UType 16 false) /\
  kind_user int_type 5 = Some 5 /\ kind_get int_type 5 = 5 /\
  kind_user int_type (-1) = None /\ kind_user int_type 65527 = None /\ kind_user int_type 65526 = Some 65526 /\
  kind_of_rule int_type (tk_add (tk_add tk_empty 3 1) 4 2) 2 (IPredefined PEof) = Some 4 /\
  kind_of_rule int_type (tk_add (tk_add tk_empty 3 1) 4 2) 7 (IPredefined PEof) = Some (p_value PEof).
Proof. vm_compute. repeat split; congruence. Qed.

(** Finding: for an enumeration with a signed underlying type of 8 or 16 bits, the upper limit
    of the precondition becomes -9: no user-defined kind is accepted at all, although the
    documentation allows every value of 15 bits.  With [unsigned char], 247 to 255 are not
    accepted. *)
Theorem C64_small_enum_refuted :
  (forall v, kind_user (UType 8 true) v = None) /\ (forall v, kind_user (UType 16 true) v = None) /\
  (forall v, kind_user (UType 8 false) v <> None <-> 0 <= v < 247).
Proof.
  assert (H8 : u_conv (UType 8 true) smallest_predefined = -9) by reflexivity.
  assert (H16 : u_conv (UType 16 true) smallest_predefined = -9) by reflexivity.
  assert (Hu : u_conv (UType 8 false) smallest_predefined = 247) by reflexivity.
  unfold kind_user. rewrite H8, H16, Hu.
  change (u_conv (UType 8 true) 0) with 0. change (u_conv (UType 16 true) 0) with 0. change (u_conv (UType 8 false) 0) with 0.
  split; [|split]; intros v.
  - destruct (Z.leb_spec 0 v), (Z.ltb_spec v (-9)); cbn [andb]; try reflexivity; lia.
  - destruct (Z.leb_spec 0 v), (Z.ltb_spec v (-9)); cbn [andb]; try reflexivity; lia.
  - destruct (Z.leb_spec 0 v), (Z.ltb_spec v 247); cbn [andb]; split; intros; try congruence; try lia; discriminate.
Qed.
Print Assumptions C64_small_enum_refuted.
