(** Proofs about incremental reading, files and the shell. *)
From Verif Require Import Prelude BufferModel IoModel IoSpec.
Open Scope N_scope.
Arguments Nat.mul : simpl never.
Arguments Nat.pow : simpl never.
Arguments Nat.div : simpl never.
Arguments repeat : simpl never.

(** ** The builder *)

Definition bb_ok (b : builder) (got : list N) : Prop :=
  (0 < bb_width b)%nat /\ length (bb_data b) = (bb_capacity b * bb_width b)%nat /\
  bb_read_bytes b = map Some got /\ length got = (bb_read b * bb_width b)%nat.

Lemma ok_new w : (0 < w)%nat -> bb_ok (bb_new w) [].
Proof. intros H. unfold bb_ok, bb_new, bb_capacity, bb_read_bytes. cbn. rewrite repeat_length. auto. Qed.

Lemma ok_clear b got : bb_ok b got -> bb_ok (bb_clear b) [].
Proof.
  intros (H1 & H2 & H3 & H4). unfold bb_ok, bb_clear, bb_capacity, bb_read_bytes in *. cbn. split; [exact H1|].
  split; [rewrite H2; f_equal; lia|]. auto.
Qed.

Lemma ok_append b got bytes b1 b2 n : bb_ok b got -> length bytes = (n * bb_width b)%nat ->
  bb_fill b bytes = Some b1 -> bb_commit b1 n = Some b2 -> bb_ok b2 (got ++ bytes) /\ bb_width b2 = bb_width b.
Proof.
  intros (H1 & H2 & H3 & H4) Hn Hf Hc. unfold bb_fill in Hf. destruct (Nat.leb_spec (length bytes) (bb_write b * bb_width b)) as [L|]; [|discriminate].
  injection Hf as <-. unfold bb_commit in Hc. cbn in Hc. destruct (Nat.leb_spec n (bb_write b)) as [L2|]; [|discriminate]. injection Hc as <-.
  unfold bb_capacity, bb_read_bytes in *. cbn in *. split; [|reflexivity].
  assert (Hl : length (firstn (bb_read b * bb_width b) (bb_data b)) = (bb_read b * bb_width b)%nat) by (rewrite firstn_length; lia).
  split; [exact H1|]. cbn. split; [|split].
  - rewrite !app_length, Hl, map_length, skipn_length. unfold bb_capacity. cbn. nia.
  - unfold bb_read_bytes. cbn. replace ((bb_read b + n) * bb_width b)%nat with (bb_read b * bb_width b + n * bb_width b)%nat by lia.
    rewrite firstn_app, firstn_firstn, Hl. replace (Nat.min _ _) with (bb_read b * bb_width b)%nat by lia.
    rewrite H3, map_app. f_equal. replace (bb_read b * bb_width b + n * bb_width b - bb_read b * bb_width b)%nat with (length (map (@Some N) bytes)) by (rewrite map_length; lia).
    rewrite firstn_app, Nat.sub_diag, firstn_all. cbn. apply app_nil_r.
  - rewrite app_length. nia.
Qed.

Lemma ok_fill_commit b got bytes n : bb_ok b got -> length bytes = (n * bb_width b)%nat -> (n <= bb_write b)%nat ->
  exists b1 b2, bb_fill b bytes = Some b1 /\ bb_commit b1 n = Some b2 /\ bb_write b2 = (bb_write b - n)%nat /\ bb_read b2 = (bb_read b + n)%nat.
Proof.
  intros (H1 & H2 & H3 & H4) Hn Hle. unfold bb_fill.
  destruct (Nat.leb_spec (length bytes) (bb_write b * bb_width b)) as [L|L]; [|nia].
  eexists _, _. split; [reflexivity|]. unfold bb_commit. cbn. destruct (Nat.leb_spec n (bb_write b)); [|lia].
  split; [reflexivity|]. auto.
Qed.

(** Filling more than is committed. *)
Lemma ok_fill_more b got bytes more : bb_ok b got -> bb_width b = 1%nat -> (length (bytes ++ more) <= bb_write b)%nat ->
  exists b1 b2, bb_fill b (bytes ++ more) = Some b1 /\ bb_commit b1 (length bytes) = Some b2 /\ bb_ok b2 (got ++ bytes) /\
    bb_write b2 = (bb_write b - length bytes)%nat /\ bb_width b2 = 1%nat /\ bb_read b2 = (bb_read b + length bytes)%nat.
Proof.
  intros (H1 & H2 & H3 & H4) Hw Hle. rewrite app_length in Hle. unfold bb_fill. rewrite app_length. rewrite Hw in *.
  destruct (Nat.leb_spec (length bytes + length more) (bb_write b * 1)) as [L|L]; [|lia].
  eexists _, _. split; [reflexivity|]. unfold bb_commit. cbn [bb_write bb_read bb_data bb_width bb_block bb_next bb_log].
  destruct (Nat.leb_spec (length bytes) (bb_write b)); [|lia]. split; [reflexivity|]. cbn [bb_write bb_read bb_width].
  split; [|auto]. unfold bb_ok, bb_capacity, bb_read_bytes in *. cbn [bb_write bb_read bb_data bb_width] in *.
  rewrite ?Nat.mul_1_r in *. rewrite ?Hw, ?Nat.mul_1_r in *.
  assert (Hl : length (firstn (bb_read b) (bb_data b)) = bb_read b) by (rewrite firstn_length; lia).
  split; [lia|]. split; [|split].
  - rewrite !app_length, Hl, map_length, skipn_length, app_length. lia.
  - rewrite firstn_app, firstn_firstn, Hl. replace (Nat.min _ _) with (bb_read b) by lia. rewrite H3, !map_app. f_equal.
    replace (bb_read b + length bytes - bb_read b)%nat with (length (map (@Some N) bytes)) by (rewrite map_length; lia).
    rewrite <- app_assoc, firstn_app, Nat.sub_diag, firstn_all. cbn. apply app_nil_r.
  - rewrite app_length. lia.
Qed.

Lemma ok_grow b got : bb_ok b got -> bb_width b = 1%nat -> bb_ok (bb_grow b) got.
Proof.
  intros (H1 & H2 & H3 & H4) Hw. unfold bb_ok, bb_capacity, bb_read_bytes in *. unfold bb_grow, bb_capacity. cbn [bb_width bb_data bb_read bb_write].
  rewrite Hw in *. rewrite ?Nat.mul_1_r in *.
  assert (Hl : length (firstn (bb_read b) (bb_data b)) = bb_read b) by (rewrite firstn_length; lia).
  split; [lia|]. split; [rewrite app_length, repeat_length, Hl; lia|]. split; [|exact H4].
  rewrite firstn_app, firstn_firstn, Nat.min_id, Hl, Nat.sub_diag. cbn [firstn]. rewrite app_nil_r. exact H3.
Qed.

Lemma grow_write b : (bb_write (bb_grow b) = bb_capacity b + bb_write b)%nat.
Proof. unfold bb_grow, bb_capacity. cbn. lia. Qed.

Lemma run_ok : forall ops b b' got, bb_width b = 1%nat -> bb_ok b got -> brun b ops = Some b' ->
  bb_ok b' (appended ops got) /\ bb_width b' = 1%nat.
Proof.
  induction ops as [|o ops IH]; intros b b' got Hw Hb Hr; cbn in Hr.
  - injection Hr as <-. auto.
  - destruct (bstep b o) as [b1|] eqn:Hs; [|discriminate]. destruct o; cbn in Hs; cbn [appended].
    + destruct (bb_fill b bytes) as [b0|] eqn:Hf; [|discriminate]. rewrite Hw, Nat.div_1_r in Hs.
      destruct (ok_append b got bytes b0 b1 (length bytes) Hb ltac:(rewrite Hw; lia) Hf Hs) as (H1 & H2).
      apply (IH b1); [congruence|exact H1|exact Hr].
    + injection Hs as <-. apply (IH (bb_grow b)); [exact Hw|now apply ok_grow|exact Hr].
    + injection Hs as <-. apply (IH (bb_clear b)); [exact Hw|now apply (ok_clear b got)|exact Hr].
Qed.

Lemma builder_contents ops b : brun (bb_new 1) ops = Some b ->
  bb_read_bytes b = map Some (appended ops []) /\ length (appended ops []) = bb_read b.
Proof.
  intros H. destruct (run_ok ops (bb_new 1) b [] eq_refl (ok_new 1 ltac:(lia)) H) as ((_ & _ & H3 & H4) & Hw).
  split; [exact H3|]. rewrite H4, Hw. lia.
Qed.

(** Without growth, for units of any width. *)
Lemma run_nogrow : forall ops b b' got, Forall (fun o => whole (bb_width b) o /\ o <> BGrow) ops -> bb_ok b got -> brun b ops = Some b' ->
  bb_ok b' (appended ops got) /\ bb_width b' = bb_width b.
Proof.
  induction ops as [|o ops IH]; intros b b' got Ho Hb Hr; cbn in Hr.
  - injection Hr as <-. auto.
  - destruct (bstep b o) as [b1|] eqn:Hs; [|discriminate]. inversion_clear Ho as [|x y (Hw & Hg) Ho']. destruct o; cbn in Hs; cbn [appended].
    + destruct (bb_fill b bytes) as [b0|] eqn:Hf; [|discriminate]. destruct Hw as (k & Hk).
      assert (Hd : (length bytes / bb_width b = k)%nat) by (rewrite Hk; apply Nat.div_mul; destruct Hb; lia). rewrite Hd in Hs.
      destruct (ok_append b got bytes b0 b1 k Hb Hk Hf Hs) as (H1 & H2).
      rewrite <- H2. apply (IH b1); [now rewrite H2|exact H1|exact Hr].
    + now destruct Hg.
    + injection Hs as <-. apply (IH (bb_clear b)); [exact Ho'|now apply (ok_clear b got)|exact Hr].
Qed.

(** Appending within the write area works, and growth makes room for any amount. *)
Lemma append_defined ops b bytes : brun (bb_new 1) ops = Some b -> (length bytes <= bb_write b)%nat ->
  exists b', brun (bb_new 1) (ops ++ [BAppend bytes]) = Some b'.
Proof.
  intros H Hl. destruct (run_ok ops (bb_new 1) b [] eq_refl (ok_new 1 ltac:(lia)) H) as (Hok & Hw).
  destruct (ok_fill_commit b _ bytes (length bytes) Hok ltac:(rewrite Hw; lia) Hl) as (b1 & b2 & H1 & H2 & _).
  exists b2. assert (Happ : forall o o' x, brun x (o ++ o') = match brun x o with Some y => brun y o' | None => None end).
  { clear. induction o as [|a o IH]; intros o' x; cbn; [reflexivity|]. destruct (bstep x a); [apply IH|reflexivity]. }
  rewrite Happ, H. cbn. rewrite H1, Hw, Nat.div_1_r, H2. reflexivity.
Qed.

Lemma brun_app o o' x : brun x (o ++ o') = match brun x o with Some y => brun y o' | None => None end.
Proof. revert x. induction o as [|a o IH]; intros x; cbn; [reflexivity|]. destruct (bstep x a); [apply IH|reflexivity]. Qed.

(** Stable iterators. *)
Lemma appended_prefix ops : forall got, ~ In BClear ops -> exists l, appended ops got = got ++ l.
Proof.
  induction ops as [|o ops IH]; intros got Hc; [exists []; cbn; now rewrite app_nil_r|].
  assert (Hc' : ~ In BClear ops) by (intros H; apply Hc; now right). destruct o; cbn.
  - destruct (IH (got ++ bytes) Hc') as (l & ->). exists (bytes ++ l). now rewrite app_assoc.
  - apply IH, Hc'.
  - exfalso. apply Hc. now left.
Qed.

Lemma deref_ok b got i : bb_ok b got -> bb_width b = 1%nat ->
  bb_deref b i = match nth_error got i with Some c => Some [Some c] | None => None end.
Proof.
  intros (H1 & H2 & H3 & H4) Hw. unfold bb_deref, bb_capacity, bb_read_bytes in *. rewrite Hw in *. rewrite Nat.mul_1_r in *.
  destruct (Nat.ltb_spec i (bb_read b)) as [L|L].
  - destruct (nth_error got i) as [c|] eqn:Hc; [|apply nth_error_None in Hc; lia].
    assert (Hd : nth_error (bb_data b) i = Some (Some c)).
    { assert (G : nth_error (firstn (bb_read b) (bb_data b)) i = Some (Some c)).
      { rewrite H3. now rewrite nth_error_map, Hc. }
      clear -G. revert i G. generalize (bb_data b) as l. induction (bb_read b) as [|n IH]; intros [|x l] [|i] G; cbn in *; try discriminate; auto. }
    clear -Hd. revert i Hd. induction (bb_data b) as [|x l IH]; intros [|i] Hd; cbn in *; try discriminate.
    + injection Hd as ->. reflexivity.
    + now apply IH.
  - assert (Hn : nth_error got i = None) by (apply nth_error_None; lia). now rewrite Hn.
Qed.

Lemma iterators_stable ops ops' b b' i c : brun (bb_new 1) ops = Some b -> brun b ops' = Some b' -> ~ In BClear ops' ->
  bb_deref b i = Some c -> bb_deref b' i = Some c.
Proof.
  intros H1 H2 Hc Hd. destruct (run_ok ops (bb_new 1) b [] eq_refl (ok_new 1 ltac:(lia)) H1) as (Hok & Hw).
  destruct (run_ok ops' b b' _ Hw Hok H2) as (Hok' & Hw').
  destruct (appended_prefix ops' (appended ops []) Hc) as (l & Hl). rewrite Hl in Hok'.
  rewrite (deref_ok b _ i Hok Hw) in Hd. rewrite (deref_ok b' _ i Hok' Hw').
  destruct (nth_error (appended ops []) i) as [x|] eqn:Hx; [|discriminate].
  rewrite nth_error_app1; [now rewrite Hx|]. apply nth_error_Some. congruence.
Qed.

(** *** Memory *)

Definition mem_ok (b : builder) : Prop :=
  replay [] (rev (bb_log b)) = Some (match bb_block b with Some k => [k] | None => [] end) /\
  match bb_block b with Some k => (k < bb_next b)%nat | None => True end /\
  length (bb_data b) = match bb_log b with
    | [] => (stack_buffer_size (bb_width b) * bb_width b)%nat
    | ANew _ n :: _ | ADelete _ :: ANew _ n :: _ => n
    | _ => 0%nat end.

Lemma replay_app l l' : forall live, replay live (l ++ l') = match replay live l with Some x => replay x l' | None => None end.
Proof.
  induction l as [|e l IH]; intros live; cbn; [reflexivity|]. destruct e; destruct (existsb _ live); auto.
Qed.

Lemma mem_step b o b' : bb_ok b (match o with _ => [] end) \/ (0 < bb_width b /\ length (bb_data b) = bb_capacity b * bb_width b)%nat ->
  mem_ok b -> bstep b o = Some b' -> mem_ok b' /\ (0 < bb_width b' /\ length (bb_data b') = bb_capacity b' * bb_width b')%nat.
Proof.
  intros Hb (M1 & M2 & M3) Hs.
  assert (Hg : (0 < bb_width b /\ length (bb_data b) = bb_capacity b * bb_width b)%nat) by (destruct Hb as [(? & ? & _)|Hb]; auto).
  destruct Hg as (Hw & Hd). clear Hb. destruct o; cbn in Hs.
  - unfold bb_fill in Hs. destruct (Nat.leb_spec (length bytes) (bb_write b * bb_width b)) as [L|]; [|discriminate].
    unfold bb_commit in Hs. cbn in Hs. destruct (Nat.leb_spec (length bytes / bb_width b) (bb_write b)) as [L2|]; [|discriminate]. injection Hs as <-.
    assert (Hlen : length (firstn (bb_read b * bb_width b) (bb_data b) ++ map Some bytes ++ skipn (bb_read b * bb_width b + length bytes) (bb_data b)) = length (bb_data b)).
    { rewrite !app_length, firstn_length, map_length, skipn_length. unfold bb_capacity in Hd. nia. }
    unfold mem_ok, bb_capacity in *. cbn [bb_width bb_data bb_read bb_write bb_block bb_next bb_log]. rewrite Hlen.
    split; [split; [exact M1|split; [exact M2|exact M3]]|]. split; [exact Hw|]. rewrite Hd. f_equal. lia.
  - injection Hs as <-. unfold mem_ok, bb_grow, bb_capacity in *. cbn [bb_width bb_data bb_read bb_write bb_block bb_next bb_log].
    assert (Hc : (length (firstn (bb_read b) (bb_data b)) <= 2 * (bb_read b + bb_write b) * bb_width b)%nat).
    { rewrite firstn_length. nia. }
    assert (Hlen : length (firstn (bb_read b) (bb_data b) ++ repeat None (2 * (bb_read b + bb_write b) * bb_width b - length (firstn (bb_read b) (bb_data b)))) = (2 * (bb_read b + bb_write b) * bb_width b)%nat).
    { rewrite app_length, repeat_length. lia. }
    rewrite Hlen. split; [|split; [exact Hw|f_equal; lia]].
    split; [|split; [lia|]].
    + destruct (bb_block b) as [k|] eqn:Hk; cbn [rev]; rewrite ?replay_app, M1; cbn.
      * destruct (Nat.eqb_spec (bb_next b) k); [lia|]. cbn. rewrite Nat.eqb_refl, ?orb_true_r.
        destruct (Nat.eqb_spec k (bb_next b)); [lia|]. cbn. destruct (Nat.eqb_spec (bb_next b) k); [lia|]. reflexivity.
      * reflexivity.
    + destruct (bb_block b); reflexivity.
  - injection Hs as <-. unfold mem_ok, bb_clear, bb_capacity in *. cbn. split; [auto|]. split; [exact Hw|]. rewrite Hd. f_equal. lia.
Qed.

Lemma mem_run : forall ops b b', (0 < bb_width b /\ length (bb_data b) = bb_capacity b * bb_width b)%nat -> mem_ok b -> brun b ops = Some b' -> mem_ok b'.
Proof.
  induction ops as [|o ops IH]; intros b b' Hg Hm Hr; cbn in Hr; [injection Hr as <-; exact Hm|].
  destruct (bstep b o) as [b1|] eqn:Hs; [|discriminate]. destruct (mem_step b o b1 (or_intror Hg) Hm Hs) as (H1 & H2).
  exact (IH b1 b' H2 H1 Hr).
Qed.

Lemma mem_new w : mem_ok (bb_new w).
Proof. unfold mem_ok, bb_new. cbn. rewrite repeat_length. auto. Qed.

Lemma new_shape w : (0 < w)%nat -> (0 < bb_width (bb_new w) /\ length (bb_data (bb_new w)) = bb_capacity (bb_new w) * bb_width (bb_new w))%nat.
Proof. intros H. cbn. rewrite repeat_length. auto. Qed.

Lemma mem_destroy b : mem_ok b -> replay [] (rev (bb_destroy b)) = Some [].
Proof.
  intros (H1 & _). unfold bb_destroy. destruct (bb_block b) as [k|]; cbn [rev]; [|exact H1].
  rewrite replay_app, H1. cbn. rewrite Nat.eqb_refl. cbn. reflexivity.
Qed.

Lemma builder_memory w ops b : (0 < w)%nat -> brun (bb_new w) ops = Some b ->
  replay [] (rev (bb_destroy b)) = Some [] /\
  replay [] (rev (bb_log b)) = Some (match bb_block b with Some k => [k] | None => [] end).
Proof.
  intros Hw Hr. pose proof (mem_run ops (bb_new w) b (new_shape w Hw) (mem_new w) Hr) as Hm.
  split; [now apply mem_destroy|apply Hm].
Qed.

(** ** stdin *)

Lemma fread_spec n chunks l r : fread n chunks = (l, r) ->
  concat chunks = l ++ concat r /\ (length l <= n)%nat /\ ((length l < n)%nat -> concat r = []).
Proof.
  revert n l r. induction chunks as [|c chunks IH]; intros n l r H; cbn in H.
  - injection H as <- <-. cbn. split; [reflexivity|]. split; [lia|auto].
  - destruct (Nat.leb_spec (length c) n) as [L|L].
    + destruct (fread (n - length c) chunks) as (l', r') eqn:Hf. injection H as <- <-.
      destruct (IH _ _ _ Hf) as (H1 & H2 & H3). cbn. rewrite H1, app_assoc, app_length. split; [reflexivity|]. split; [lia|]. intros Hlt. apply H3. lia.
    + injection H as <- <-. cbn. rewrite app_assoc, firstn_skipn, firstn_length. split; [reflexivity|]. split; [lia|]. lia.
Qed.

Lemma stdin_loop_ok : forall fuel b got s, bb_ok b got -> bb_width b = 1%nat -> mem_ok b -> (0 < bb_write b)%nat ->
  (length (concat (sm_chunks s)) < fuel)%nat ->
  exists log, stdin_loop fuel b s =
    (if sm_error s then Stdin Fos_error None log else Stdin Fsuccess (Some (map Some (got ++ concat (sm_chunks s)))) log) /\
    replay [] (rev log) = Some [].
Proof.
  induction fuel as [|fuel IH]; intros b got s Hok Hw Hm Hpos Hf; [lia|]. cbn [stdin_loop].
  destruct (Nat.eqb_spec (bb_write b) 0); [lia|].
  destruct (fread (bb_write b) (sm_chunks s)) as (bytes, chunks) eqn:Hfr.
  destruct (fread_spec _ _ _ _ Hfr) as (H1 & H2 & H3).
  destruct (ok_fill_commit b got bytes (length bytes) Hok ltac:(rewrite Hw; lia) H2) as (b1 & b2 & Hb1 & Hb2 & Hwr & Hrd).
  rewrite Hb1, Hb2.
  destruct (ok_append b got bytes b1 b2 (length bytes) Hok ltac:(rewrite Hw; lia) Hb1 Hb2) as (Hok2 & Hw2).
  assert (Hm2 : mem_ok b2).
  { assert (Hs : bstep b (BAppend bytes) = Some b2) by (cbn; rewrite Hb1, Hw, Nat.div_1_r; exact Hb2).
    apply (mem_step b (BAppend bytes) b2); [right; split; [apply Hok|apply Hok]|exact Hm|exact Hs]. }
  destruct (Nat.ltb_spec (length bytes) (bb_write b)) as [L|L].
  - specialize (H3 L). exists (bb_destroy b2). split; [|now apply mem_destroy].
    destruct (sm_error s); [reflexivity|]. do 2 f_equal. rewrite H1, H3, app_nil_r. apply Hok2.
  - assert (Hlen : (length (concat (sm_chunks s)) = length bytes + length (concat chunks))%nat) by (rewrite H1, app_length; reflexivity).
    destruct (IH (bb_grow b2) (got ++ bytes) (Stream chunks (sm_error s))) as (log & Hl & Hr).
    + apply ok_grow; [exact Hok2|congruence].
    + cbn. congruence.
    + assert (Hs : bstep b2 BGrow = Some (bb_grow b2)) by reflexivity.
      apply (mem_step b2 BGrow (bb_grow b2)); [right; split; [apply Hok2|apply Hok2]|exact Hm2|exact Hs].
    + rewrite grow_write. unfold bb_capacity. lia.
    + cbn. lia.
    + exists log. split; [|exact Hr]. rewrite Hl. cbn [sm_error sm_chunks]. rewrite H1, app_assoc. reflexivity.
Qed.

Lemma read_stdin_ok s : exists log, read_stdin s =
    (if sm_error s then Stdin Fos_error None log else Stdin Fsuccess (Some (map Some (concat (sm_chunks s)))) log) /\
    replay [] (rev log) = Some [].
Proof. apply (stdin_loop_ok _ (bb_new 1) []); [apply ok_new; lia|reflexivity|apply mem_new|apply Nat.ltb_lt; vm_compute; reflexivity|lia]. Qed.

(** ** Files *)

Lemma sizes : small_file_size = (2 ^ 12)%nat /\ medium_file_size = (2 ^ 15)%nat.
Proof. split; reflexivity. Qed.

Lemma file_success o bytes : fst (read_file o) = Fsuccess /\ passed (snd (read_file o)) = [bytes] <-> all_calls_succeed o bytes.
Proof.
  unfold all_calls_succeed, read_file. rewrite (proj1 sizes), (proj2 sizes). destruct (os_open o) as [e|].
  { split; [intros (H & _); cbn in H; destruct e; discriminate|intros (H & _); discriminate]. }
  destruct (os_seek_end o) as [size|]; [|split; [intros (H & _); discriminate|intros (_ & s & H & _); discriminate]].
  destruct (Nat.leb_spec size (2 ^ 12)) as [L|L]; [|destruct (Nat.leb_spec size (2 ^ 15)) as [L2|L2]].
  1,2: assert (L3 : (size <= 2 ^ 15)%nat) by lia; clear L; try clear L2;
    destruct (os_seek_set o); cbn [negb fst snd app passed].
  1,3: destruct (os_read o size) as [bs|] eqn:Hr; [destruct (Nat.eqb_spec (length bs) size) as [Hl|Hl]|]; cbn [fst snd app passed]; split.
  1,7: intros (_ & H2); injection H2 as <-; split; [reflexivity|]; exists size; split; [reflexivity|]; left; auto.
  1,6: intros (_ & s & [= <-] & [(_ & _ & H & _)|(H & _)]); [rewrite Hr in H; injection H as <-; auto|lia].
  1,3,5,7: intros (H & _); discriminate.
  1,2,3,4: intros (_ & s & [= <-] & [(_ & _ & H & H')|(H & _)]); [congruence|lia].
  1,2: split; [intros (H & _); discriminate|intros (_ & s & [= <-] & [(_ & H & _)|(H & _)]); [discriminate|lia]].
  destruct (os_mmap o size) as [bs|] eqn:Hm; cbn.
  - split; [intros (_ & H); injection H as <-; split; [reflexivity|]; exists size; split; [reflexivity|]; right; auto|].
    intros (_ & s & [= <-] & [(H & _)|(_ & H)]); [lia|]. rewrite Hm in H. injection H as <-. auto.
  - split; [intros (H & _); discriminate|]. intros (_ & s & [= <-] & [(H & _)|(_ & H)]); [lia|congruence].
Qed.

Ltac file_cases o :=
  unfold read_file, read_file_portable; destruct (os_open o) as [[]|]; [..|destruct (os_seek_end o) as [size|];
   [rewrite ?(proj1 sizes), ?(proj2 sizes); try (destruct (Nat.leb_spec size (2 ^ 12)); [|destruct (Nat.leb_spec size (2 ^ 15))]);
    destruct (os_seek_set o); cbn [negb]; try destruct (os_read o size) as [bs|]; try destruct (os_mmap o size) as [ms|]; repeat match goal with |- context [(length ?b =? ?n)%nat] => destruct (Nat.eqb_spec (length b) n) end|]].

Lemma file_errors o :
  (fst (read_file o) = Fsuccess <-> exists bytes, passed (snd (read_file o)) = [bytes]) /\
  (fst (read_file o) <> Fsuccess <-> passed (snd (read_file o)) = []) /\
  (forall e, os_open o = Some e -> fst (read_file o) =
     match e with ENOENT | ENOTDIR | ELOOP => Fnot_found | EACCES | EPERM => Fpermission | EOther => Fos_error end) /\
  (os_open o = None -> fst (read_file o) = Fsuccess \/ fst (read_file o) = Fos_error).
Proof.
  split; [|split; [|split]].
  - file_cases o; cbn; split; intros H'; try discriminate; eauto; destruct H' as (x & H'); discriminate.
  - file_cases o; cbn; split; intros H'; try reflexivity; try discriminate; try congruence; exfalso; now apply H'.
  - unfold read_file. intros e ->. now destruct e.
  - file_cases o; cbn; intros H'; try discriminate; auto.
Qed.

Lemma file_resources o :
  (count is_close (snd (read_file o)) = match os_open o with None => 1 | Some _ => 0 end)%nat /\
  (os_open o = None -> exists l, snd (read_file o) = l ++ [KClose]) /\
  mapping_released o (snd (read_file o)) /\
  (forall cap n, In (KRead cap n) (snd (read_file o)) -> (n <= cap)%nat).
Proof.
  split; [|split; [|split]].
  - file_cases o; reflexivity.
  - intros Ho. unfold read_file. rewrite Ho. cbn [snd fst]. eexists (KOpen :: _). reflexivity.
  - unfold mapping_released, read_file. intros k.
    destruct (os_open o) as [[]|]; [cbn; intros Hin; decompose [or] Hin; (discriminate || contradiction)..|].
    destruct (os_seek_end o) as [size|]; [|cbn; intros Hin; decompose [or] Hin; (discriminate || contradiction)].
    destruct (size <=? small_file_size)%nat; [|destruct (size <=? medium_file_size)%nat].
    1,2: destruct (os_seek_set o); cbn [negb]; try destruct (os_read o size) as [bs|]; try destruct (length bs =? size)%nat;
      cbn; intros Hin; decompose [or] Hin; (discriminate || contradiction).
    destruct (os_mmap o size) as [ms|] eqn:Hm; cbn; intros Hin; decompose [or] Hin; try discriminate; try contradiction;
      match goal with H : KMmap _ = KMmap _ |- _ => injection H as <- end; rewrite Hm; [|reflexivity].
    exists [KOpen; KSeekEnd]. split; reflexivity.
  - file_cases o; cbn; intros cap k Hin; decompose [or] Hin; try discriminate; try contradiction;
    match goal with H : KRead _ _ = KRead _ _ |- _ => injection H as <- <- end; lia.
Qed.

Lemma portable_success o bytes : fst (read_file_portable o) = Fsuccess /\ passed (snd (read_file_portable o)) = [bytes] <->
  all_portable_calls_succeed o bytes.
Proof.
  unfold all_portable_calls_succeed, read_file_portable. destruct (os_open o) as [e|].
  { split; [intros (H & _); cbn in H; destruct e; discriminate|intros (H & _); discriminate]. }
  destruct (os_seek_end o) as [size|]; [|split; [intros (H & _); discriminate|intros (_ & s & H & _); discriminate]].
  destruct (os_seek_set o); cbn [negb fst snd app passed].
  2: split; [intros (H & _); discriminate|intros (_ & s & [= <-] & H & _); discriminate].
  destruct (os_read o size) as [bs|] eqn:Hr; [destruct (Nat.eqb_spec (length bs) size) as [Hl|Hl]|]; cbn [fst snd app passed]; split.
  - intros (_ & H2); injection H2 as <-; split; [reflexivity|]; exists size; auto.
  - intros (_ & s & [= <-] & _ & H & _). rewrite Hr in H. injection H as <-. auto.
  - intros (H & _); discriminate.
  - intros (_ & s & [= <-] & _ & H & H'). congruence.
  - intros (H & _); discriminate.
  - intros (_ & s & [= <-] & _ & H & H'). congruence.
Qed.

Lemma portable_errors o :
  (fst (read_file_portable o) <> Fsuccess <-> passed (snd (read_file_portable o)) = []) /\
  (forall e, os_open o = Some e -> fst (read_file_portable o) =
     match e with ENOENT | ENOTDIR | ELOOP => Fnot_found | EACCES | EPERM => Fpermission | EOther => Fos_error end) /\
  (os_open o = None -> fst (read_file_portable o) = Fsuccess \/ fst (read_file_portable o) = Fos_error) /\
  (count is_close (snd (read_file_portable o)) = match os_open o with None => 1 | Some _ => 0 end)%nat.
Proof.
  unfold read_file_portable.
  destruct (os_open o) as [[]|]; [split; [split; [reflexivity|discriminate]|split; [intros e [= <-]; reflexivity|split; [discriminate|reflexivity]]]..|].
  destruct (os_seek_end o) as [size|]; [destruct (os_seek_set o); [destruct (os_read o size) as [bs|]; [destruct (length bs =? size)%nat|]|]|]; cbn;
    (split; [split; [try reflexivity; intros H; exfalso; now apply H|discriminate]|split; [discriminate|split; [auto|reflexivity]]]).
Qed.

Lemma file_contents content o make units : good_file content o -> make content = Some units ->
  read_file_result make (read_file o) = FileBuffer units /\
  read_file_result make (read_file_portable o) = FileBuffer units.
Proof.
  intros (H1 & H2 & H3 & H4 & H5) Hm. split.
  - destruct (proj2 (file_success o content)) as (G1 & G2).
    { split; [exact H1|]. exists (length content). split; [exact H2|]. destruct (Nat.le_gt_cases (length content) (2 ^ 15)); [left; auto|right; auto]. }
    unfold read_file_result. now rewrite G1, G2, Hm.
  - destruct (proj2 (portable_success o content)) as (G1 & G2).
    { split; [exact H1|]. exists (length content). auto. }
    unfold read_file_result. now rewrite G1, G2, Hm.
Qed.
