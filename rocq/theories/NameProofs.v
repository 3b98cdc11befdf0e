(** Proofs about string views and names. *)
From Verif Require Import Prelude NameModel NameSpec.
From Coq Require Import String List.
Close Scope N_scope.

Lemma skipn_skip {A} (l : list A) : forall i j, skipn i (skipn j l) = skipn (j + i) l.
Proof. intros i j. revert l. induction j as [|j IH]; intros l; [reflexivity|]. destruct l; [now rewrite !skipn_nil|apply IH]. Qed.

Lemma text_len v : good v -> List.length (text v) = sv_size v.
Proof. intros [H _]. unfold text. rewrite firstn_length, skipn_length. lia. Qed.

Lemma nth_skip {A} (l : list A) : forall i j, nth_error (skipn i l) j = nth_error l (i + j).
Proof. induction l as [|x l IH]; intros [|i] j; cbn; auto; now destruct j. Qed.
Lemma nth_first {A} (l : list A) : forall n j, j < n -> nth_error (firstn n l) j = nth_error l j.
Proof. induction l as [|x l IH]; intros [|n] [|j] H; cbn; auto; try lia. apply IH. lia. Qed.

Lemma rd_text v i : good v -> i < sv_size v -> rd (sv_buf v) (sv_ptr v + i) = nth_error (text v) i.
Proof. intros _ H. unfold rd, text. now rewrite nth_first, nth_skip. Qed.

Lemma at_text v i : good v -> i < sv_size v -> sv_at v i = nth_error (text v) i.
Proof. intros Hg H. unfold sv_at, require. rewrite (proj2 (Nat.leb_le i (sv_size v))) by lia. cbn [bind]. now apply rd_text. Qed.

(** *** C strings *)
Lemma strlen_reads l : forall n, strlen l = Some n <-> reads l 0 (firstn n l) /\ n <= List.length l.
Proof.
  induction l as [|u l IH]; intros n.
  - split; [discriminate|]. intros [[[r H] _] _]. rewrite firstn_nil in H. discriminate.
  - cbn [strlen]. destruct (u =? 0)%N eqn:Hu.
    + apply N.eqb_eq in Hu. subst u. split.
      * intros [= <-]. split; [|cbn; lia]. split; [now exists l|]. intros [].
      * intros [[[r H] Hn] _]. destruct n as [|n]; [reflexivity|]. exfalso. apply Hn. now left.
    + apply N.eqb_neq in Hu. split.
      * destruct (strlen l) as [k|] eqn:Hk; [|discriminate]. cbn [bind]. intros [= <-].
        destruct (proj1 (IH k) eq_refl) as [[[r H] Hn] Hl]. split; [|cbn; lia]. split.
        -- exists r. cbn in *. now rewrite H at 1.
        -- intros [He|Hi]; [congruence|auto].
      * intros [[[r H] Hn] Hl]. destruct n as [|n].
        -- cbn in H. congruence.
        -- cbn in H, Hl. assert (Hk : strlen l = Some n).
           { apply IH. split; [|lia]. split; [|intros Hi; apply Hn; now right]. exists r. cbn. congruence. }
           now rewrite Hk.
Qed.

Lemma reads_nil b p s : reads b p s <-> reads (skipn p b) 0 s.
Proof. unfold reads. reflexivity. Qed.

Lemma cstr_sv b p s : reads b p s -> sv_cstr b p = Some (Sv b p (List.length s) true).
Proof.
  intros [[r H] Hn]. unfold sv_cstr.
  assert (Hs : strlen (skipn p b) = Some (List.length s)).
  { apply strlen_reads. rewrite H, <- app_assoc, firstn_app, Nat.sub_diag, firstn_all2, app_nil_r by lia.
    split; [split; [now exists r; rewrite <- app_assoc|exact Hn]|]. rewrite app_length. lia. }
  now rewrite Hs.
Qed.
Lemma cstr_good b p v : sv_cstr b p = Some v -> good v /\ reads b p (text v) /\ sv_nt v = true.
Proof.
  unfold sv_cstr. destruct (strlen (skipn p b)) as [n|] eqn:Hn; [|discriminate]. cbn. intros [= <-].
  apply strlen_reads in Hn. destruct Hn as [[[r H] H0] Hl]. unfold text. cbn. rewrite skipn_length in Hl.
  assert (Hlen : List.length (firstn n (skipn p b)) = n) by (rewrite firstn_length, skipn_length; lia).
  split; [|split; [|reflexivity]].
  - cbn [skipn] in H. split; cbn; [|intros _].
    + destruct (Nat.le_gt_cases (p + n) (List.length b)); [assumption|]. exfalso.
      assert (Hz : skipn p b = []) by (apply skipn_all2; destruct (Nat.le_gt_cases p (List.length b)); lia).
      rewrite Hz in H. rewrite firstn_nil in H. discriminate.
    + rewrite <- nth_skip, H, <- app_assoc, nth_error_app2 by lia. now rewrite Hlen, Nat.sub_diag.
  - split; [now exists r|exact H0].
Qed.
Lemma cstr_text b p s v : reads b p s -> sv_cstr b p = Some v -> text v = s.
Proof.
  intros H H1. rewrite (cstr_sv _ _ _ H) in H1. injection H1 as <-. destruct H as [[r H] _]. unfold text. cbn.
  rewrite H, <- app_assoc, firstn_app, Nat.sub_diag, firstn_all2 by lia. now rewrite app_nil_r.
Qed.

(** *** comparison *)
Lemma eq_loop_spec a b : forall n i j, i + n <= List.length a -> j + n <= List.length b ->
  exists r, eq_loop a b i j n = Some r /\ (r = true <-> firstn n (skipn i a) = firstn n (skipn j b)).
Proof.
  induction n as [|n IH]; intros i j Hi Hj; cbn [eq_loop].
  - exists true. cbn. tauto.
  - unfold rd. destruct (nth_error a i) as [x|] eqn:Hx; [|apply nth_error_None in Hx; lia].
    destruct (nth_error b j) as [y|] eqn:Hy; [|apply nth_error_None in Hy; lia]. cbn [bind].
    assert (Hsx : skipn i a = x :: skipn (S i) a).
    { clear -Hx. revert i Hx. induction a as [|z a IH]; intros [|i] Hx; try discriminate; cbn in *; [congruence|now apply IH]. }
    assert (Hsy : skipn j b = y :: skipn (S j) b).
    { clear -Hy. revert j Hy. induction b as [|z b IH]; intros [|i] Hx; try discriminate; cbn in *; [congruence|now apply IH]. }
    rewrite Hsx, Hsy. cbn [firstn]. destruct (x =? y)%N eqn:He.
    + apply N.eqb_eq in He. subst y. destruct (IH (S i) (S j)) as (r & Hr & H); [lia|lia|].
      exists r. split; [exact Hr|]. rewrite H. split; [now intros ->|]. intros [=]. assumption.
    + apply N.eqb_neq in He. exists false. split; [reflexivity|]. split; [discriminate|]. intros [=]. contradiction.
Qed.

Lemma eq_spec v w : good v -> good w -> exists r, sv_eq v w = Some r /\ (r = true <-> text v = text w).
Proof.
  intros Hv Hw. unfold sv_eq. destruct (sv_size v =? sv_size w) eqn:He; cbn [negb].
  - apply Nat.eqb_eq in He. destruct (eq_loop_spec (sv_buf v) (sv_buf w) (sv_size v) (sv_ptr v) (sv_ptr w)) as (r & Hr & H).
    + apply Hv.
    + rewrite He. apply Hw.
    + exists r. split; [exact Hr|]. unfold text. now rewrite <- He.
  - apply Nat.eqb_neq in He. exists false. split; [reflexivity|]. split; [discriminate|]. intros H. exfalso.
    apply He. now rewrite <- (text_len v Hv), <- (text_len w Hw), H.
Qed.

(** *** taking parts *)
Lemma text_sub b p n i m nt nt' : i + m <= n -> text (Sv b (p + i) m nt) = firstn m (skipn i (text (Sv b p n nt'))).
Proof.
  intros H. unfold text. cbn. rewrite skipn_firstn_comm, firstn_firstn, skipn_skip. f_equal. lia.
Qed.

Lemma remove_prefix_spec v n : good v -> n <= sv_size v ->
  exists w, sv_remove_prefix v n = Some w /\ good w /\ text w = skipn n (text v) /\ sv_nt w = sv_nt v.
Proof.
  intros [H1 H2] Hn. unfold sv_remove_prefix, require. rewrite (proj2 (Nat.leb_le n (sv_size v)) Hn). cbn [bind].
  eexists. split; [reflexivity|]. split; [|split; [|reflexivity]].
  - split; cbn; [lia|]. intros Ht. rewrite <- (H2 Ht). f_equal. lia.
  - destruct v as [b p s nt]; cbn [sv_buf sv_ptr sv_size sv_nt] in *. rewrite (text_sub b p s n (s - n) nt nt) by lia.
    apply firstn_all2. rewrite skipn_length, text_len by (split; assumption). cbn. lia.
Qed.
Lemma remove_suffix_spec v n : good v -> n <= sv_size v ->
  exists w, sv_remove_suffix v n = Some w /\ good w /\ text w = firstn (sv_size v - n) (text v).
Proof.
  intros [H1 H2] Hn. unfold sv_remove_suffix, require. rewrite (proj2 (Nat.leb_le n (sv_size v)) Hn). cbn [bind].
  eexists. split; [reflexivity|]. split; [split; cbn; [lia|discriminate]|].
  unfold text. cbn. rewrite firstn_firstn. f_equal. lia.
Qed.
Lemma substr_spec v i n : good v -> i < sv_size v ->
  exists w, sv_substr v i n = Some w /\ good w /\ text w = firstn n (skipn i (text v)).
Proof.
  intros Hg Hi. pose proof Hg as [H1 H2]. unfold sv_substr, require. rewrite (proj2 (Nat.ltb_lt i (sv_size v)) Hi). cbn [bind].
  destruct (sv_size v - i <=? n) eqn:Hn.
  - apply Nat.leb_le in Hn. unfold sv_range, require. rewrite (proj2 (Nat.leb_le _ _)) by lia. cbn [bind sv_buf sv_ptr sv_size].
    eexists. split; [reflexivity|]. split.
    + split; cbn; [lia|]. intros Ht. rewrite <- (H2 Ht). f_equal. lia.
    + replace (sv_ptr v + sv_size v - (sv_ptr v + i)) with (sv_size v - i) by lia.
      destruct v as [b p s nt]; cbn [sv_buf sv_ptr sv_size sv_nt] in *. rewrite (text_sub b p s i (s - i) nt nt) by lia.
      rewrite !firstn_all2; try reflexivity; rewrite skipn_length, text_len by assumption; cbn; lia.
  - apply Nat.leb_gt in Hn. eexists. split; [reflexivity|]. split; [split; cbn; [lia|discriminate]|].
    destruct v as [b p s nt]; cbn [sv_buf sv_ptr sv_size sv_nt] in *. unfold sv_sized. apply text_sub. lia.
Qed.

Lemma prefix_firstn s l : begins s l <-> firstn (List.length s) l = s.
Proof.
  split.
  - intros [r ->]. rewrite firstn_app, Nat.sub_diag, firstn_all2, app_nil_r; auto.
  - intros H. exists (skipn (List.length s) l). rewrite <- H at 1. symmetry. apply firstn_skipn.
Qed.

Lemma starts_with_spec v p : good v -> good p -> sv_size v <> 0 ->
  exists r, sv_starts_with v p = Some r /\ (r = true <-> begins (text p) (text v)).
Proof.
  intros Hv Hp Hn. unfold sv_starts_with. destruct (substr_spec v 0 (sv_size p) Hv) as (w & Hw & Hg & Ht); [lia|].
  rewrite Hw. cbn [bind]. destruct (eq_spec w p Hg Hp) as (r & Hr & H). exists r. split; [exact Hr|].
  rewrite H, Ht, prefix_firstn, text_len by assumption. reflexivity.
Qed.

Lemma try_remove_prefix_spec v p : good v -> good p -> sv_size v <> 0 ->
  exists w, good w /\ sv_nt w = sv_nt v /\
    ((sv_try_remove_prefix v p = Some (true, w) /\ text v = text p ++ text w) \/
     (sv_try_remove_prefix v p = Some (false, w) /\ w = v /\ ~ begins (text p) (text v))).
Proof.
  intros Hv Hp Hn. unfold sv_try_remove_prefix. destruct (starts_with_spec v p Hv Hp Hn) as (r & Hr & H). rewrite Hr. cbn [bind].
  destruct r.
  - pose proof (proj1 H eq_refl) as [x Hx].
    destruct (remove_prefix_spec v (sv_size p) Hv) as (w & Hw & Hg & Ht & Hnt).
    { rewrite <- (text_len v Hv), Hx, app_length, (text_len p Hp). lia. }
    rewrite Hw. cbn [bind]. exists w. split; [exact Hg|]. split; [exact Hnt|]. left. split; [reflexivity|].
    rewrite Ht, Hx. f_equal. rewrite skipn_app, <- (text_len p Hp), Nat.sub_diag, skipn_all2; auto.
  - exists v. split; [exact Hv|]. split; [reflexivity|]. right. repeat split. intros Hx. apply H in Hx. discriminate.
Qed.

Lemma find_loop_spec v s : good v -> good s -> forall n i, i + n = sv_size v ->
  (exists j, find_loop v s i n = Some (Some j) /\ i <= j < sv_size v /\ stands (text s) (text v) j /\
     forall j', i <= j' < j -> ~ stands (text s) (text v) j') \/
  (find_loop v s i n = Some None /\ forall j', i <= j' < sv_size v -> ~ stands (text s) (text v) j').
Proof.
  intros Hv Hs. induction n as [|n IH]; intros i Hi; cbn [find_loop].
  - right. split; [reflexivity|]. intros j' Hj. lia.
  - destruct (substr_spec v i (sv_size s) Hv) as (w & Hw & Hg & Ht); [lia|]. rewrite Hw. cbn [bind].
    destruct (eq_spec w s Hg Hs) as (r & Hr & H). rewrite Hr. cbn [bind].
    assert (HS : r = true <-> stands (text s) (text v) i).
    { rewrite H, Ht. unfold stands. rewrite prefix_firstn, text_len by assumption. reflexivity. }
    destruct r.
    + left. exists i. split; [reflexivity|]. split; [lia|]. split; [now apply HS|]. intros j' Hj. lia.
    + assert (Hno : ~ stands (text s) (text v) i) by (intros Hx; apply HS in Hx; discriminate).
      destruct (IH (S i)) as [(j & Hj & Hb & H1 & H2)|[Hj H1]]; [lia| |].
      * left. exists j. split; [exact Hj|]. split; [lia|]. split; [exact H1|].
        intros j' Hj'. destruct (Nat.eq_dec j' i) as [->|]; [exact Hno|apply H2; lia].
      * right. split; [exact Hj|]. intros j' Hj'. destruct (Nat.eq_dec j' i) as [->|]; [exact Hno|apply H1; lia].
Qed.

Lemma find_spec v s p : good v -> good s ->
  (exists j, sv_find v s p = Some (Some j) /\ p <= j < sv_size v /\ stands (text s) (text v) j /\
     forall j', p <= j' < j -> ~ stands (text s) (text v) j') \/
  (sv_find v s p = Some None /\ forall j', p <= j' < sv_size v -> ~ stands (text s) (text v) j').
Proof.
  intros Hv Hs. unfold sv_find. destruct (Nat.le_gt_cases p (sv_size v)).
  - apply find_loop_spec; auto. lia.
  - replace (sv_size v - p) with 0 by lia. right. split; [reflexivity|]. intros j' Hj. lia.
Qed.

Lemma seq_at_spec v : good v -> forall n i, i + n = sv_size v -> seq_at v i n = Some (skipn i (text v)).
Proof.
  intros Hv. induction n as [|n IH]; intros i Hi; cbn [seq_at].
  - rewrite skipn_all2; [reflexivity|]. rewrite text_len by assumption. lia.
  - rewrite at_text by (auto; lia). destruct (nth_error (text v) i) as [u|] eqn:Hu.
    + cbn [bind]. rewrite IH by lia. cbn [bind]. f_equal. clear -Hu. revert i Hu. generalize (text v) as l.
      induction l as [|z l IH]; intros [|i] Hu; try discriminate; cbn in *; [congruence|now apply IH].
    + apply nth_error_None in Hu. rewrite text_len in Hu by assumption. lia.
Qed.
Lemma make_cstr_spec v : good v -> make_cstr v = Some (text v ++ [0%N]).
Proof. intros Hv. unfold make_cstr. rewrite (seq_at_spec v Hv) by lia. reflexivity. Qed.

(** ** Names *)
Lemma codes_cstr s : cstr s = codes s ++ [0%N].
Proof. reflexivity. Qed.
Lemma codes_app s t : codes (s ++ t) = codes s ++ codes t.
Proof. unfold codes. induction s as [|a s IH]; cbn; [reflexivity|]. now f_equal. Qed.

Lemma lit_spec s : ~ In 0%N (codes s) -> exists v, lit_sv s = Some v /\ good v /\ text v = codes s /\ sv_size v = List.length (codes s).
Proof.
  intros H. unfold lit_sv. assert (HR : reads (cstr s) 0 (codes s)) by (split; [exists []; now rewrite app_nil_r|exact H]).
  rewrite (cstr_sv _ _ _ HR). eexists. split; [reflexivity|].
  pose proof (cstr_sv _ _ _ HR) as HS. split; [apply (cstr_good _ _ _ HS)|]. split; [exact (cstr_text _ _ _ _ HR HS)|reflexivity].
Qed.

Ltac no0 := let H := fresh in intros H; vm_compute in H; repeat (destruct H as [H|H]; [discriminate H|]); exact H.

Lemma try_remove_spec v s : ~ In 0%N (codes s) -> good v -> sv_size v <> 0 ->
  exists w, good w /\
    ((try_remove v s = Some (true, w) /\ text v = codes s ++ text w) \/
     (try_remove v s = Some (false, w) /\ w = v /\ ~ begins (codes s) (text v))).
Proof.
  intros H0 Hv Hn. unfold try_remove. destruct (lit_spec s H0) as (p & Hp & Hg & Ht & _). rewrite Hp. cbn [bind].
  destruct (try_remove_prefix_spec v p Hv Hg Hn) as (w & Hw & _ & H). rewrite Ht in H. eauto.
Qed.

Lemma app_same {A} (a b c : list A) : a ++ b = a ++ c -> b = c.
Proof. apply app_inv_head. Qed.
Lemma last_same {A} (a b : list A) n : firstn (List.length (a ++ b) - n) (a ++ b) = a \/ n <> List.length b.
Proof.
  destruct (Nat.eq_dec n (List.length b)) as [->|]; [left|now right].
  rewrite app_length. replace (List.length a + List.length b - List.length b) with (List.length a) by lia.
  rewrite firstn_app, Nat.sub_diag, firstn_all2, app_nil_r; auto.
Qed.

(** What the function is spelled like, without what is before and behind the type. *)
Lemma trimmed k f ty : ~ In 0%N ty -> f = codes (pre k) ++ ty ++ codes (suf k) ++ [0%N] ->
  exists p s v0 v1 v2, lit_sv (pre k) = Some p /\ lit_sv (suf k) = Some s /\ sv_cstr f 0 = Some v0 /\
    sv_remove_prefix v0 (sv_size p) = Some v1 /\ sv_remove_suffix v1 (sv_size s) = Some v2 /\ good v2 /\ text v2 = ty.
Proof.
  intros H0 Hf.
  assert (Hp0 : ~ In 0%N (codes (pre k))) by (destruct k; no0).
  assert (Hs0 : ~ In 0%N (codes (suf k))) by (destruct k; no0).
  destruct (lit_spec _ Hp0) as (p & Hp & Hgp & Htp & Hlp). destruct (lit_spec _ Hs0) as (s & Hs & Hgs & Hts & Hls).
  assert (HR : reads f 0 (codes (pre k) ++ ty ++ codes (suf k))).
  { split; [exists []; rewrite Hf; cbn [skipn]; now rewrite app_nil_r, <- !app_assoc|]. rewrite !in_app_iff. tauto. }
  pose proof (cstr_sv _ _ _ HR) as HC. pose proof (proj1 (cstr_good _ _ _ HC)) as Hg0. pose proof (cstr_text _ _ _ _ HR HC) as Ht0.
  set (v0 := Sv f 0 (List.length (codes (pre k) ++ ty ++ codes (suf k))) true) in *.
  destruct (remove_prefix_spec v0 (sv_size p) Hg0) as (v1 & Hv1 & Hg1 & Ht1 & _).
  { cbn. rewrite Hlp, app_length. lia. }
  assert (Ht1' : text v1 = ty ++ codes (suf k)).
  { rewrite Ht1, Ht0, Hlp, skipn_app, Nat.sub_diag, skipn_all2; auto. }
  assert (Hl1 : sv_size v1 = List.length (ty ++ codes (suf k))) by (rewrite <- Ht1'; symmetry; now apply text_len).
  destruct (remove_suffix_spec v1 (sv_size s) Hg1) as (v2 & Hv2 & Hg2 & Ht2).
  { rewrite Hl1, Hls, app_length. lia. }
  exists p, s, v0, v1, v2. repeat (split; [assumption|]).
  rewrite Ht2, Ht1', Hl1, Hls. destruct (last_same ty (codes (suf k)) (List.length (codes (suf k)))); [assumption|congruence].
Qed.

(** The first unit of a name decides that no keyword and no anonymous namespace is in front. *)
Lemma not_prefix_mem (s : list N) l u : In u s -> ~ In u l -> ~ begins s l.
Proof. intros H1 H2 [r ->]. apply H2. rewrite in_app_iff. now left. Qed.

Lemma full_name_spec k f ty : spells k f ty -> ty <> [] -> ~ In 0%N ty -> ~ begins (codes (anon k)) ty ->
  (k = Msvc -> ~ begins (codes "class ") ty /\ ~ begins (codes "struct ") ty) ->
  exists v, full_type_name k f = Some v /\ good v /\ text v = ty.
Proof.
  intros (w & a & Hw & Ha & Hf) Hne H0 Han Hkw.
  assert (Ha0 : ~ In 0%N a) by (destruct Ha as [->| ->]; [intros []|destruct k; no0]).
  assert (Hw0 : ~ In 0%N w) by (destruct k; cbn in Hw; [subst; intros []|subst; intros []|destruct Hw as [->| ->]; no0]).
  destruct (trimmed k f (w ++ a ++ ty)) as (p & s & v0 & v1 & v2 & E1 & E2 & E3 & E4 & E5 & Hg & Ht); [rewrite !in_app_iff; tauto|exact Hf|].
  unfold full_type_name. rewrite E1, E2, E3. cbn [bind]. rewrite E4. cbn [bind]. rewrite E5. cbn [bind].
  assert (HA : forall v, good v -> text v = a ++ ty ->
    exists v', (do x <- try_remove v (anon k); Some (snd x)) = Some v' /\ good v' /\ text v' = ty).
  { intros v Hv Htv. assert (Hn : sv_size v <> 0).
    { rewrite <- (text_len v Hv), Htv, app_length. destruct ty; [contradiction|cbn; lia]. }
    destruct (try_remove_spec v (anon k)) as (v' & Hg' & [[Hr Hx]|(Hr & -> & Hx)]); [destruct k; no0|exact Hv|exact Hn| |];
      rewrite Hr; cbn [bind snd]; eexists; (split; [reflexivity|]); (split; [assumption|]).
    - destruct Ha as [->| ->].
      + exfalso. apply Han. exists (text v'). rewrite <- Hx, Htv. reflexivity.
      + rewrite Htv in Hx. symmetry. now apply app_inv_head in Hx.
    - destruct Ha as [->| ->]; [exact Htv|]. exfalso. apply Hx. exists ty. exact Htv. }
  assert (HN : forall v x y, good v -> text v = x ++ y ++ ty -> sv_size v <> 0).
  { intros v x y Hv Htv. rewrite <- (text_len v Hv), Htv, !app_length. destruct ty; [contradiction|cbn; lia]. }
  destruct k; cbn in Hw; [subst w; cbn [bind]; now apply HA|subst w; cbn [bind]; now apply HA|].
  destruct (try_remove_spec v2 "struct ") as (v3 & Hg3 & [[Hr Hx]|(Hr & -> & Hx)]); [no0|exact Hg|eauto| |]; rewrite Hr; cbn [bind fst snd].
  - apply HA; [exact Hg3|]. destruct Hw as [->| ->].
    + rewrite Ht in Hx. symmetry. now apply app_inv_head in Hx.
    + rewrite Ht in Hx. discriminate Hx.
  - destruct (try_remove_spec v2 "class ") as (v4 & Hg4 & [[Hr3 Hx3]|(Hr3 & -> & Hx3)]); [no0|exact Hg|eauto| |]; rewrite Hr3; cbn [bind fst snd].
    + apply HA; [exact Hg4|]. destruct Hw as [->| ->].
      * rewrite Ht in Hx3. discriminate Hx3.
      * rewrite Ht in Hx3. symmetry. now apply app_inv_head in Hx3.
    + exfalso. destruct Hw as [->| ->]; [apply Hx|apply Hx3]; exists (a ++ ty); exact Ht.
Qed.

(** *** removing namespaces *)
Lemma stands_qualified c rest j : Forall ident_unit c -> j < List.length c -> ~ stands (codes "::") (c ++ rest) j.
Proof.
  intros HF Hj [r Hr].
  assert (Hn : nth_error (c ++ rest) j = Some 58%N).
  { replace j with (j + 0) by lia. rewrite <- nth_skip, Hr. reflexivity. }
  rewrite nth_error_app1 in Hn by assumption. apply nth_error_In in Hn. rewrite Forall_forall in HF. apply HF in Hn. unfold ident_unit in Hn. lia.
Qed.

Lemma no_colons c : Forall ident_unit c -> forall j, ~ stands (codes "::") c j.
Proof.
  intros HF j [r Hr]. assert (Hn : nth_error c j = Some 58%N) by (replace j with (j + 0) by lia; rewrite <- nth_skip, Hr; reflexivity).
  apply nth_error_In in Hn. rewrite Forall_forall in HF. apply HF in Hn. unfold ident_unit in Hn. lia.
Qed.

Definition without (n : nat) (cs : list (list N)) : list (list N) := skipn (Nat.min n (List.length cs - 1)) cs.

Lemma ns_loop_spec : forall n cs v, Forall identifier cs -> cs <> [] -> good v -> text v = qualified cs ->
  exists w, ns_loop v n = Some w /\ good w /\ text w = qualified (without n cs).
Proof.
  induction n as [|n IH]; intros cs v HF Hne Hg Ht.
  - exists v. split; [reflexivity|]. split; [exact Hg|]. exact Ht.
  - cbn [ns_loop]. destruct (lit_spec "::") as (c & Hc & Hgc & Htc & _); [no0|]. rewrite Hc. cbn [bind].
    destruct cs as [|x [|y cs]]; [contradiction| |].
    + (* a single component *)
      assert (HX : Forall ident_unit x) by (inversion HF as [|? ? [_ H] ?]; exact H). cbn in Ht.
      destruct (find_spec v c 0 Hg Hgc) as [(j & _ & _ & Hj & _)|[-> _]].
      * exfalso. rewrite Htc, Ht in Hj. exact (no_colons x HX j Hj).
      * cbn [bind]. exists v. split; [reflexivity|]. split; [exact Hg|]. unfold without. cbn [List.length]. rewrite Nat.min_0_r. exact Ht.
    + inversion HF as [|? ? [Hx0 HX] HF']; subst. cbn [qualified] in Ht. fold qualified in Ht.
      assert (Hq : text v = x ++ codes "::" ++ qualified (y :: cs)) by exact Ht. clear Ht.
      assert (Hs : stands (codes "::") (text v) (List.length x)).
      { exists (qualified (y :: cs)). rewrite Hq, skipn_app, Nat.sub_diag, skipn_all2; auto. }
      assert (Hl : sv_size v = List.length x + (2 + List.length (qualified (y :: cs)))).
      { rewrite <- (text_len v Hg), Hq, !app_length. reflexivity. }
      assert (Hj : sv_find v c 0 = Some (Some (List.length x))).
      { destruct (find_spec v c 0 Hg Hgc) as [(j & -> & Hb & Hj & Hm)|[_ Hm]].
        - rewrite Htc in Hj, Hm. do 2 f_equal. assert (Hlt : ~ j < List.length x).
          { intros Hlt. rewrite Hq in Hj. exact (stands_qualified x _ j HX Hlt Hj). }
          destruct (Nat.eq_dec j (List.length x)) as [|Hd]; [assumption|]. exfalso. apply (Hm (List.length x)); [lia|exact Hs].
        - exfalso. rewrite Htc in Hm. apply (Hm (List.length x)); [lia|exact Hs]. }
      rewrite Hj. cbn [bind]. destruct (remove_prefix_spec v (List.length x + 2) Hg) as (w & Hw & Hgw & Htw & _); [lia|].
      rewrite Hw. cbn [bind].
      assert (Htw' : text w = qualified (y :: cs)).
      { rewrite Htw, Hq, skipn_app, skipn_all2 by lia. replace (List.length x + 2 - List.length x) with 2 by lia. reflexivity. }
      destruct (IH (y :: cs) w HF' ltac:(discriminate) Hgw Htw') as (w' & H1 & H2 & H3). exists w'. split; [exact H1|]. split; [exact H2|].
      rewrite H3. unfold without. cbn [List.length]. replace (Nat.min (S n) (S (S (List.length cs)) - 1)) with (S (Nat.min n (S (List.length cs) - 1))) by lia.
      reflexivity.
Qed.

Lemma qualified_units cs : Forall identifier cs -> Forall (fun u => ident_unit u \/ u = 58%N) (qualified cs).
Proof.
  induction cs as [|c cs IH]; intros HF; [constructor|]. inversion HF as [|? ? [_ HC] HF']; subst.
  assert (H : Forall (fun u => ident_unit u \/ u = 58%N) c) by (eapply Forall_impl; [|exact HC]; cbn; auto).
  destruct cs as [|d cs]; [exact H|]. change (qualified (c :: d :: cs)) with (c ++ codes "::" ++ qualified (d :: cs)).
  apply Forall_app. split; [exact H|]. apply Forall_app. split; [|now apply IH]. repeat constructor; now right.
Qed.
Lemma qualified_not cs u : Forall identifier cs -> ~ ident_unit u -> u <> 58%N -> ~ In u (qualified cs).
Proof. intros HF H1 H2 Hi. pose proof (qualified_units cs HF) as H. rewrite Forall_forall in H. destruct (H u Hi); auto. Qed.
Lemma qualified_ne cs : Forall identifier cs -> cs <> [] -> qualified cs <> [].
Proof. intros HF Hne. destruct cs as [|c cs]; [contradiction|]. inversion HF as [|? ? [Hc _] _]; subst. destruct cs; cbn; [exact Hc|]. destruct c; [contradiction|discriminate]. Qed.

Lemma find_char_none v c p : good v -> ~ In c (text v) -> sv_find_char v c p = Some None.
Proof.
  intros Hv Hc. unfold sv_find_char.
  assert (Hg : good (sv_sized [c] 0 1)) by (split; cbn; [lia|discriminate]).
  destruct (find_spec v (sv_sized [c] 0 1) p Hv Hg) as [(j & _ & _ & [r Hr] & _)|[H _]]; [|exact H].
  exfalso. apply Hc. cbn in Hr. apply (nth_error_In _ j). replace j with (j + 0) by lia. rewrite <- nth_skip, Hr. reflexivity.
Qed.
Lemma find_char_some v c : good v -> In c (text v) -> exists i, sv_find_char v c 0 = Some (Some i).
Proof.
  intros Hv Hc. unfold sv_find_char.
  assert (Hg : good (sv_sized [c] 0 1)) by (split; cbn; [lia|discriminate]).
  destruct (find_spec v (sv_sized [c] 0 1) 0 Hv Hg) as [(j & H & _)|[_ H]]; [eauto|].
  exfalso. destruct (In_nth_error _ _ Hc) as [i Hi].
  assert (Hl : i < sv_size v) by (rewrite <- (text_len v Hv); apply nth_error_Some; congruence).
  apply (H i); [lia|]. exists (skipn (S i) (text v)). cbn. clear -Hi. revert i Hi. generalize (text v) as l.
  induction l as [|z l IH]; intros [|i] Hu; try discriminate; cbn in *; [congruence|now apply IH].
Qed.

Lemma full_qualified k f cs : Forall identifier cs -> cs <> [] -> spells k f (qualified cs) ->
  exists v, full_type_name k f = Some v /\ good v /\ text v = qualified cs.
Proof.
  intros HF Hne HS. apply full_name_spec; auto.
  - now apply qualified_ne.
  - apply qualified_not; auto; unfold ident_unit; lia.
  - intros Hp. refine (not_prefix_mem _ _ (match k with Clang => 40 | Gcc => 123 | Msvc => 96 end)%N _ _ Hp).
    + destruct k; now left.
    + apply qualified_not; auto; destruct k; unfold ident_unit; lia.
  - intros _. split; intros Hp.
    + refine (not_prefix_mem _ _ 32%N _ _ Hp); [cbn; tauto|]. apply qualified_not; auto; unfold ident_unit; lia.
    + refine (not_prefix_mem _ _ 32%N _ _ Hp); [cbn; tauto|]. apply qualified_not; auto; unfold ident_unit; lia.
Qed.

Lemma type_name_qualified k f cs n : Forall identifier cs -> cs <> [] -> spells k f (qualified cs) ->
  type_name k (Unnamed f) n = Some (qualified (without n cs) ++ [0%N]).
Proof.
  intros HF Hne HS. destruct (full_qualified k f cs HF Hne HS) as (v & Hv & Hg & Ht).
  unfold type_name, short_name. rewrite Hv. cbn [bind]. rewrite (find_char_none v 60%N 0 Hg).
  2: { rewrite Ht. apply qualified_not; auto; unfold ident_unit; lia. }
  cbn [bind]. destruct (ns_loop_spec n cs v HF Hne Hg Ht) as (w & Hw & Hgw & Htw). rewrite Hw. cbn [bind].
  now rewrite make_cstr_spec, Htw.
Qed.

Lemma without_1 cs : qualified (without 1 cs) = documented cs.
Proof.
  destruct cs as [|x [|y cs]]; [reflexivity|reflexivity|]. unfold without. cbn [List.length].
  replace (Nat.min 1 (S (S (List.length cs)) - 1)) with 1 by lia. reflexivity.
Qed.
Lemma without_idents n cs : Forall identifier cs -> Forall identifier (without n cs).
Proof. unfold without. generalize (Nat.min n (List.length cs - 1)) as i. intros i. revert cs. induction i as [|i IH]; intros cs H; [exact H|]. destruct cs; [exact H|]. inversion H; subst. now apply IH. Qed.

(** Qualified names are read in one way. *)
Lemma qualified_cut x y r r' : Forall ident_unit x -> Forall ident_unit y ->
  (r = [] \/ begins (codes "::") r) -> (r' = [] \/ begins (codes "::") r') -> x ++ r = y ++ r' -> x = y /\ r = r'.
Proof.
  intros Hx Hr. revert y Hr. induction Hx as [|u x Hu Hx IH]; intros y Hy H1 H2 H; destruct Hy as [|u' y Hu' Hy]; cbn in H.
  - auto.
  - exfalso. destruct H1 as [->|[z ->]]; [discriminate|]. injection H as H _. assert (He : u' = 58%N) by (rewrite <- H; reflexivity). unfold ident_unit in Hu'. lia.
  - exfalso. destruct H2 as [->|[z ->]]; [discriminate|]. injection H as H _. assert (He : u = 58%N) by (rewrite H; reflexivity). unfold ident_unit in Hu. lia.
  - injection H as <- H. destruct (IH y Hy H1 H2 H) as [-> ->]. auto.
Qed.
Lemma qualified_inj cs : forall cs', Forall identifier cs -> Forall identifier cs' -> qualified cs = qualified cs' -> cs = cs'.
Proof.
  induction cs as [|x cs IH]; intros cs' HF HF' H.
  - destruct cs' as [|y cs']; [reflexivity|]. exfalso. symmetry in H. revert H. apply qualified_ne; [exact HF'|discriminate].
  - destruct cs' as [|y cs']; [exfalso; revert H; apply qualified_ne; [exact HF|discriminate]|].
    inversion HF as [|? ? [_ Hx] HF1]; inversion HF' as [|? ? [_ Hy] HF2]; subst.
    set (r := match cs with [] => [] | _ => codes "::" ++ qualified cs end).
    set (r' := match cs' with [] => [] | _ => codes "::" ++ qualified cs' end).
    assert (E1 : qualified (x :: cs) = x ++ r) by (unfold r; destruct cs; cbn; [now rewrite app_nil_r|reflexivity]).
    assert (E2 : qualified (y :: cs') = y ++ r') by (unfold r'; destruct cs'; cbn; [now rewrite app_nil_r|reflexivity]).
    rewrite E1, E2 in H. apply qualified_cut in H; auto.
    + destruct H as [-> H]. f_equal. unfold r, r' in H. destruct cs as [|z cs], cs' as [|z' cs']; try discriminate; [reflexivity|].
      apply app_inv_head in H. apply IH; auto.
    + unfold r. destruct cs; [now left|right]. now eexists.
    + unfold r'. destruct cs'; [now left|right]. now eexists.
Qed.

Lemma is_spec k a b (s t : list N) msg tag : reads msg 0 s -> type_name k tag 1 = Some (t ++ [0%N]) -> ~ In 0%N t -> a = s -> b = t ->
  exists r, error_is k msg tag = Some r /\ (r = true <-> a = b).
Proof.
  intros Hm Ht H0 -> ->. unfold error_is. rewrite Ht. cbn [bind].
  assert (HR : reads (t ++ [0%N]) 0 t) by (split; [exists []; now rewrite app_nil_r|exact H0]).
  pose proof (cstr_sv _ _ _ Hm) as E1. pose proof (cstr_sv _ _ _ HR) as E2.
  rewrite E1, E2. cbn [bind]. destruct (eq_spec _ _ (proj1 (cstr_good _ _ _ E1)) (proj1 (cstr_good _ _ _ E2))) as (r & Hr & H).
  exists r. split; [exact Hr|]. rewrite H, (cstr_text _ _ _ _ Hm E1), (cstr_text _ _ _ _ HR E2). reflexivity.
Qed.
