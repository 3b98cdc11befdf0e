(** Proofs about inputs over memory. *)
From Verif Require Import Prelude.
From Verif Require Import CodecModel CodecSpec CodecProofs InpModel InpSpec.
Close Scope N_scope.
Open Scope nat_scope.

Definition at_ptr (data : option nat) (p : nat) : option nat :=
  match data with Some d => Some (d + p) | None => None end.

(** The text lies in memory where [data] points. *)
Definition holds (mem : list N) (data : option nat) (text : list N) : Prop :=
  match data with
  | Some d => d + length text <= length mem /\
              forall p, p < length text -> nth_error mem (d + p) = nth_error text p
  | None => text = []
  end.

Lemma nth_firstn {A} (l : list A) n p : p < n -> nth_error (firstn n l) p = nth_error l p.
Proof.
  revert l p; induction n; intros l p H; [lia|].
  destruct l; [reflexivity|]. destruct p; [reflexivity|]. cbn. apply IHn. lia.
Qed.
Lemma nth_skipn {A} (l : list A) n p : nth_error (skipn n l) p = nth_error l (n + p).
Proof.
  revert l; induction n; intros l; [reflexivity|]. destruct l; [now destruct p|]. apply IHn.
Qed.

Lemma slice_length mem d n : d + n <= length mem -> length (slice mem d n) = n.
Proof. intros H. unfold slice. rewrite firstn_length, skipn_length. lia. Qed.
Lemma slice_holds mem d n : d + n <= length mem -> holds mem (Some d) (slice mem d n).
Proof.
  intros H. cbn. rewrite (slice_length _ _ _ H). split; [exact H|].
  intros p Hp. unfold slice. now rewrite nth_firstn, nth_skipn.
Qed.

Section Run.
Context (sg : bool) (e : ienc) (mem : list N) (data : option nat) (text : list N).
Context (Hh : holds mem data text).

Definition rdat (p : nat) : rd := Rd (at_ptr data p) (at_ptr data (length text)).

Lemma at_end p : p <= length text ->
  ptr_eqb (at_ptr data p) (at_ptr data (length text)) = (p =? length text).
Proof.
  intros H. destruct data; cbn in *.
  - destruct (Nat.eqb_spec p (length text)); [subst; apply Nat.eqb_refl|apply Nat.eqb_neq; lia].
  - subst text. cbn in *. symmetry. apply Nat.eqb_eq. lia.
Qed.

Lemma peek_is p : p <= length text ->
  rd_peek sg e mem (rdat p)
  = Some (match nth_error text p with Some u => to_int sg e u | None => ieof sg e end).
Proof.
  intros H. unfold rd_peek, rdat. cbn [r_cur r_end]. rewrite at_end by assumption.
  destruct (Nat.eqb_spec p (length text)) as [->|Hn].
  - now rewrite (proj2 (nth_error_None text (length text)) (Nat.le_refl _)).
  - destruct data as [d|]; cbn in *.
    + rewrite (proj2 Hh p) by lia.
      destruct (nth_error text p) eqn:E; [reflexivity|]. apply nth_error_None in E. lia.
    + subst text. cbn in *. lia.
Qed.

Lemma bump_is p : p < length text -> rd_bump (rdat p) = Some (rdat (S p)).
Proof.
  intros H. unfold rd_bump, rdat. cbn [r_cur r_end]. rewrite at_end by lia.
  destruct (Nat.eqb_spec p (length text)); [lia|].
  destruct data as [d|]; cbn in *; [|subst text; cbn in *; lia].
  now rewrite Nat.add_succ_r.
Qed.
Lemma bump_end : rd_bump (rdat (length text)) = None.
Proof. unfold rd_bump, rdat. cbn [r_cur r_end]. now rewrite at_end, Nat.eqb_refl. Qed.

Lemma reset_is p q : q <= length text -> rd_reset (at_ptr data q) (rdat p) = Some (rdat q).
Proof.
  intros H. unfold rd_reset, rdat. cbn [r_cur r_end].
  destruct data as [d|]; cbn in *; [|reflexivity].
  destruct (Nat.leb_spec (d + q) (d + length text)); [reflexivity|lia].
Qed.

Lemma run_uses calls : forall p ms l, p <= length text -> Forall (fun q => q <= length text) ms ->
  uses text p ms calls l ->
  rd_run sg e mem (rdat p) (map (at_ptr data) ms) calls = Some (map (shown sg e data) l).
Proof.
  intros p ms l Hp Hm H. revert Hp Hm. induction H; intros Hp Hm; cbn [rd_run map].
  - reflexivity.
  - rewrite peek_is, H, IHuses by assumption. reflexivity.
  - rewrite peek_is, IHuses by assumption. subst p.
    now rewrite (proj2 (nth_error_None text (length text)) (Nat.le_refl _)).
  - rewrite IHuses by assumption. reflexivity.
  - rewrite bump_is by assumption. apply IHuses; [lia|assumption].
  - cbn [rdat r_cur]. rewrite <- IHuses; [now rewrite map_app|assumption|].
    apply Forall_app; auto.
  - rewrite (map_nth_error _ _ _ H).
    assert (Hq : q <= length text).
    { rewrite Forall_forall in Hm. apply Hm. eapply nth_error_In; eauto. }
    rewrite reset_is by assumption. auto.
Qed.

Lemma uses_run calls : forall p ms s, p <= length text -> Forall (fun q => q <= length text) ms ->
  rd_run sg e mem (rdat p) (map (at_ptr data) ms) calls = Some s ->
  exists l, uses text p ms calls l.
Proof.
  induction calls as [|c cs IH]; intros p ms s Hp Hm H; [eexists; constructor|].
  destruct c; cbn [rd_run] in H.
  - rewrite peek_is in H by assumption.
    destruct (rd_run _ _ _ _ _ cs) eqn:E; [|discriminate].
    apply IH in E; [|assumption|assumption]. destruct E as [k Hk].
    destruct (nth_error text p) eqn:En; [eexists; eapply U_unit; eauto|].
    apply nth_error_None in En. eexists. eapply U_end; eauto. lia.
  - destruct (Nat.eq_dec p (length text)) as [->|Hn]; [now rewrite bump_end in H|].
    rewrite bump_is in H by lia. apply IH in H; [|lia|assumption].
    destruct H as [k Hk]. exists k. apply U_bump; [lia|assumption].
  - destruct (rd_run _ _ _ _ _ cs) eqn:E; [|discriminate].
    apply IH in E; [|assumption|assumption]. destruct E as [k Hk].
    eexists. apply U_at. exact Hk.
  - cbn [rdat r_cur] in H. change [at_ptr data p] with (map (at_ptr data) [p]) in H.
    rewrite <- map_app in H. apply IH in H; [|assumption|apply Forall_app; auto].
    destruct H as [k Hk]. exists k. now apply U_save.
  - rewrite nth_error_map in H. destruct (nth_error ms k) as [q|] eqn:En; [|discriminate].
    cbn [option_map] in H.
    assert (Hq : q <= length text).
    { rewrite Forall_forall in Hm. apply Hm. eapply nth_error_In; eauto. }
    rewrite reset_is in H by assumption. apply IH in H; [|assumption|assumption].
    destruct H as [j Hj]. exists j. eapply U_back; eauto.
Qed.

(** Literals on byte input. *)
Lemma match_is cs : forall p n, e = EByte -> p <= length text ->
  match_lit sg e mem (rdat p) n cs
  = Some (shared cs (skipn p text) =? length cs, n + shared cs (skipn p text)).
Proof.
  induction cs as [|c cs IH]; intros p n He Hp; cbn [match_lit].
  - cbn. now rewrite Nat.add_0_r.
  - rewrite peek_is by assumption.
    assert (Hn0 : nth_error text p = nth_error (skipn p text) 0)
      by now rewrite nth_skipn, Nat.add_0_r.
    rewrite Hn0.
    destruct (skipn p text) as [|u rest] eqn:E; cbn [nth_error].
    + subst e. cbn [ieof to_int shared]. replace (-1 =? Z.of_N c)%Z with false by lia.
      cbn [length Nat.eqb]. now rewrite Nat.add_0_r.
    + assert (Hl : p < length text).
      { assert (H : length (skipn p text) = S (length rest)) by now rewrite E.
        rewrite skipn_length in H. lia. }
      assert (Hr : skipn (S p) text = rest).
      { transitivity (skipn 1 (skipn p text)); [rewrite skipn_skipn; f_equal; lia|now rewrite E]. }
      rewrite He. cbn [to_int shared]. rewrite <- He.
      destruct (N.eqb_spec c u) as [->|Hn].
      * rewrite Z.eqb_refl, bump_is by assumption. rewrite IH by (assumption || lia).
        rewrite Hr. cbn [length Nat.eqb]. now rewrite Nat.add_succ_comm.
      * replace (Z.of_N u =? Z.of_N c)%Z with false by lia. cbn. now rewrite Nat.add_0_r.
Qed.
End Run.

(** string_input's constructors. *)
Lemma reader_size mem d n : d + n <= length mem ->
  sin_reader mem (sin_size d (N.of_nat n)) = Some (Rd (Some d) (Some (d + n))).
Proof.
  intros H. unfold sin_reader, sin_size, ptr_add, rd_make. cbn [s_data s_size].
  replace (N.of_nat d + N.of_nat n <=? N.of_nat (length mem))%N with true by lia.
  rewrite Nat2N.id. unfold ptr_leb. destruct (Nat.leb_spec d (d + n)); [reflexivity|lia].
Qed.
Lemma range_is b e : b <= e -> (Z.of_nat e < 2 ^ 64)%Z -> sin_range b e = sin_size b (N.of_nat (e - b)).
Proof.
  intros H Hb. unfold sin_range. f_equal. rewrite Z.mod_small by lia. lia.
Qed.
Lemma range_reversed mem b e : e < b -> (Z.of_nat (length mem) < 2 ^ 63)%Z -> b <= length mem ->
  sin_reader mem (sin_range b e) = None.
Proof.
  intros H Hl Hb. unfold sin_reader, sin_range, sin_size, ptr_add. cbn [s_data s_size].
  replace ((Z.of_nat e - Z.of_nat b) mod 2 ^ 64)%Z with (2 ^ 64 + (Z.of_nat e - Z.of_nat b))%Z.
  - destruct (N.leb_spec (N.of_nat b + Z.to_N (2 ^ 64 + (Z.of_nat e - Z.of_nat b)))%N
                (N.of_nat (length mem))); [lia|reflexivity].
  - symmetry. rewrite <- (Z_mod_plus_full _ 1). rewrite Z.mod_small; lia.
Qed.

Lemma zscan_some mem : forall p n, zscan mem p = Some n <->
  exists k, n = p + k /\ nth_error mem k = Some 0%N /\ Forall (fun u => u <> 0%N) (firstn k mem).
Proof.
  induction mem as [|u mem IH]; intros p n; cbn [zscan].
  - split; [discriminate|]. intros (k & _ & H & _). destruct k; discriminate.
  - destruct (N.eqb_spec u 0) as [->|Hu].
    + split.
      * intros [= <-]. exists 0. split; [lia|]. split; [reflexivity|constructor].
      * intros (k & -> & H & HF). destruct k as [|k]; [f_equal; lia|].
        inversion HF. congruence.
    + rewrite IH. split; intros (k & -> & H & HF).
      * exists (S k). split; [lia|]. split; [exact H|]. constructor; assumption.
      * destruct k as [|k]; [now inversion H|]. exists k. split; [lia|].
        split; [exact H|]. now inversion HF.
Qed.
Lemma zscan_none mem : forall p, zscan mem p = None <-> Forall (fun u => u <> 0%N) mem.
Proof.
  induction mem as [|u mem IH]; intros p; cbn [zscan]; [split; auto|].
  destruct (N.eqb_spec u 0) as [->|Hu].
  - split; [discriminate|]. intros H. inversion H. congruence.
  - rewrite IH. split; [auto|]. intros H. now inversion H.
Qed.

(** The integers of units. *)
Lemma to_int_inj sg e u v : (u < cbound (char_type e))%N -> (v < cbound (char_type e))%N ->
  to_int sg e u = to_int sg e v -> u = v.
Proof.
  destruct e, sg; cbn; intros Hu Hv; try lia; unfold schar; cbn [andb];
    destruct (0x80 <=? u)%N eqn:A; destruct (0x80 <=? v)%N eqn:B; cbv iota; lia.
Qed.
Lemma to_int_eof sg e u : (u < cbound (char_type e))%N ->
  to_int sg e u = ieof sg e <->
  match e with
  | EDefault | EUtf16 | EByte => False
  | EAscii | EUtf8 | EUtf8c => u = 0xFF%N
  | EUtf32 => u = 0xFFFFFFFF%N
  end.
Proof.
  destruct e, sg; cbn; intros Hu; try lia; unfold schar; cbn [andb];
    destruct (0x80 <=? u)%N eqn:A; change (128 <=? 255)%N with true; cbn; lia.
Qed.

(** Units of valid texts are none of the end markers. *)
Lemma encode_not_marker e cp : cp_is_scalar cp = true -> (e = Ascii -> cp <= 0x7F)%N ->
  Forall (fun u => u < match e with Utf32 => 0xFFFFFFFF | Utf16 => 0x10000 | _ => 0xFF end)%N
    (encode_code_point e cp).
Proof.
  intros Hs Ha. unfold cp_is_scalar, cp_is_valid in Hs.
  assert (Hv : (cp <= 0x10FFFF)%N) by lia. clear Hs. destruct e.
  - cbn. constructor; [|constructor]. specialize (Ha eq_refl).
    rewrite N.mod_small; lia.
  - cbn [encode_code_point].
    rewrite !land6, !land5, !land4, !land3.
    pose proof (fun a b H => mod_lt_pos a b H) as M.
    destruct (cp <=? 0x7F)%N eqn:A; [constructor; [lia|constructor]|].
    destruct (cp <=? 0x7FF)%N eqn:B;
      [|destruct (cp <=? 0xFFFF)%N eqn:C];
      repeat (apply Forall_cons || apply Forall_nil);
      match goal with
      | |- (N.lor 0x80 ?x < _)%N => assert (x < 64)%N by (apply M; lia); rewrite lor80 by assumption; lia
      | |- (N.lor 0xC0 ?x < _)%N => assert (x < 32)%N by (apply M; lia); rewrite lorC0 by assumption; lia
      | |- (N.lor 0xE0 ?x < _)%N => assert (x < 16)%N by (apply M; lia); rewrite lorE0 by assumption; lia
      | |- (N.lor 0xF0 ?x < _)%N => assert (x < 8)%N by (apply M; lia); rewrite lorF0 by assumption; lia
      end.
  - apply Forall_forall. intros u Hu.
        cbn [encode_code_point] in Hu.
    destruct (cp <=? 0xFFFF)%N eqn:A.
    + destruct Hu as [<-|[]]. lia.
    + cbv zeta in Hu. cbn [In] in Hu. destruct Hu as [<-|[<-|[]]]; apply mod_lt_pos; lia.
  - cbn. constructor; [lia|constructor].
Qed.

(** The byte order mark. *)
Lemma bom_is_mark e en : bom e en = mark e en.
Proof. destruct e, en; vm_compute; reflexivity. Qed.

Lemma transcode_byte h8 cs : transcode_all h8 CUchar cs = Some cs.
Proof. induction cs; cbn; [reflexivity|]. now rewrite IHcs. Qed.
Lemma transcode_none h8 e be en : bom be en <> [] -> e <> EByte -> (e = EUtf8 -> h8 = true) ->
  transcode_all h8 (char_type e) (bom be en) = None.
Proof.
  intros H1 H2 H3. destruct e; try congruence; destruct be, en; try (exfalso; now apply H1);
    try (rewrite (H3 eq_refl)); try reflexivity; destruct h8; reflexivity.
Qed.
