(** Proofs about simple case folding with the tables, and about literals and strings that
    use it. *)
From Verif Require Import Prelude CodecModel CodecSpec LitModel LitSpec LitProofs ClassModel UniTables UniModel
  UniSpec UniProofs UniCheck UniMain.
Open Scope N_scope.

Lemma scalar_iff : forall c, cp_is_scalar c = true <-> scalar c.
Proof. intros c. unfold cp_is_scalar, cp_is_valid, cp_is_surrogate, scalar. lia. Qed.
Lemma fold_mod : forall c, c < 2 ^ 32 -> Z.to_N ((Z.of_N c + 0) mod 2 ^ 32) = c.
Proof. intros c H. change (2 ^ 32) with 4294967296 in H. change (2 ^ 32)%Z with 4294967296%Z. lia. Qed.

Lemma folds_fun : forall c d d', folds c d -> folds c d' -> d = d'.
Proof. unfold folds. intros. congruence. Qed.

(** What a fold does to a code point. *)
Lemma fold_cases : forall c, c <= 0x10FFFF -> exists d, folds c d /\
  (c < 128 -> d = lower c) /\
  (d = c \/
   d <> c /\ scalar c /\ scalar d /\ d / 0x10000 = c / 0x10000 /\
   (d < 128 -> c < 128 \/ c = 0x17F \/ c = 0x212A) /\
   folds d d /\ has alphabetic c /\ has alphabetic d /\ (has xid_continue d <-> has xid_continue c) /\
   (has xid_start c -> has xid_start d)).
Proof.
  intros c Hc. destruct (has_row c Hc) as ((k & (p & o)) & Hr).
  pose proof (checked_row _ _ fold_good_block_ok folds_good c _ Hr) as F. unfold fold_good in F.
  exists (Z.to_N ((Z.of_N c + o) mod 2 ^ 32)). split; [exact (row_fold _ _ _ _ Hr)|].
  set (d := Z.to_N ((Z.of_N c + o) mod 2 ^ 32)) in *.
  apply andb_prop in F. destruct F as (F1 & F2). split.
  { intros Hl. assert (E : (c <? 128) = true) by lia. rewrite E in F1. now apply N.eqb_eq in F1. }
  destruct (Z.eqb_spec o 0) as [Ho|Ho].
  - left. unfold d. subst o. apply fold_mod. change (2 ^ 32) with 4294967296. lia.
  - right.
    repeat match type of F2 with
         | (_ && _)%bool = true => let A := fresh "G" in apply andb_prop in F2; destruct F2 as (F2 & A)
         end.
    destruct (property_index d) as [j|] eqn:Ej; [|discriminate].
    destruct (nth_error rows (N.to_nat j)) as [(k' & (p' & o'))|] eqn:En; [|discriminate].
    assert (Hr' : row_of d (k', (p', o'))).
    { apply row_at_row. unfold row_at. rewrite Ej. exact En. }
    repeat match goal with
         | G : (_ && _)%bool = true |- _ => let A := fresh "G" in apply andb_prop in G; destruct G as (G & A)
         end.
    rewrite !(row_has _ _ _ _ _ Hr), !(row_has _ _ _ _ _ Hr').
    split; [lia|]. split; [now apply scalar_iff|]. split; [now apply scalar_iff|].
    split; [lia|]. split; [lia|]. split.
    { unfold folds. rewrite (row_fold _ _ _ _ Hr'). f_equal.
      match goal with G : (o' =? 0)%Z = true |- _ => apply Z.eqb_eq in G; rewrite G end.
      apply fold_mod. pose proof (row_valid _ _ Hr'). change (2 ^ 32) with 4294967296. lia. }
    split; [assumption|]. split; [assumption|]. split.
    + match goal with G : Bool.eqb (bit p' xid_continue) _ = true |- _ => apply eqb_prop in G; rewrite G end. tauto.
    + match goal with G : implb (bit p xid_start) _ = true |- _ => intros E; rewrite E in G; exact G end.
Qed.

Lemma fold_invalid : forall c, 0x10FFFF < c -> folds c c.
Proof.
  intros c H. unfold folds, simple_case_fold_db, cp_is_valid.
  assert (E : (c <=? 0x10FFFF) = false) by lia. rewrite E. reflexivity.
Qed.

Lemma fold_facts : forall c, exists d, folds c d /\ folds d d /\
  (c <= 0x10FFFF <-> d <= 0x10FFFF) /\ (scalar c <-> scalar d) /\
  (c < 128 -> d = lower c) /\
  (d < 128 -> c = d \/ d = lower c \/ (c = 0x17F /\ d = 0x73) \/ (c = 0x212A /\ d = 0x6B)) /\
  (d <> c -> documented Ualpha c /\ documented Ualpha d) /\
  d / 0x10000 = c / 0x10000.
Proof.
  intros c. destruct (N.le_gt_cases c 0x10FFFF) as [Hc|Hc].
  - destruct (fold_cases c Hc) as (d & Hf & Ha & [->|H]).
    + exists c. repeat (split; [solve [auto; tauto]|]). reflexivity.
    + destruct H as (Hne & Hs & Hd & Hp & Ht & Hi & A1 & A2 & _). exists d.
      split; [exact Hf|]. split; [exact Hi|]. split; [unfold scalar in *; lia|]. split; [tauto|].
      split; [exact Ha|]. split; [|split; [auto|exact Hp]].
      intros Hl. destruct (Ht Hl) as [H|[->| ->]]; [right; left; auto| |].
      * right. right. left. split; [reflexivity|]. eapply folds_fun; [exact Hf|]. vm_compute. reflexivity.
      * right. right. right. split; [reflexivity|]. eapply folds_fun; [exact Hf|]. vm_compute. reflexivity.
  - exists c. pose proof (fold_invalid c Hc). repeat (split; [solve [auto; tauto|lia|intros; exfalso; lia|intros; exfalso; congruence]|]).
    reflexivity.
Qed.

Lemma fold_classes : forall c d, folds c d ->
  (documented Ualpha d <-> documented Ualpha c) /\
  (documented Uword d <-> documented Uword c) /\
  (documented Uxid_continue d <-> documented Uxid_continue c) /\
  (documented Uxid_start c -> documented Uxid_start d).
Proof.
  intros c d Hf. destruct (N.le_gt_cases c 0x10FFFF) as [Hc|Hc].
  - destruct (fold_cases c Hc) as (d' & Hf' & _ & [->|H]);
      pose proof (folds_fun _ _ _ Hf Hf') as ->.
    + tauto.
    + destruct H as (_ & _ & _ & _ & _ & _ & A1 & A2 & A3 & A4). cbn [documented]. tauto.
  - pose proof (folds_fun _ _ _ Hf (fold_invalid c Hc)) as ->. tauto.
Qed.

(** ** As a total function *)
Lemma db_fold_folds : forall c, folds c (db_fold c).
Proof. intros c. destruct (fold_facts c) as (d & H & _). unfold db_fold. rewrite H. exact H. Qed.
Lemma db_fold_eq : forall c d, folds c d -> db_fold c = d.
Proof. intros c d H. exact (folds_fun _ _ _ (db_fold_folds c) H). Qed.
Lemma scf_db : forall c, simple_case_fold db_fold c = db_fold c.
Proof.
  intros c. unfold simple_case_fold, cp_is_valid. destruct (c <=? 0x10FFFF) eqn:E; [reflexivity|].
  symmetry. apply db_fold_eq. apply fold_invalid. lia.
Qed.
Lemma db_fold_idem : forall c, db_fold (db_fold c) = db_fold c.
Proof.
  intros c. destruct (fold_facts c) as (d & H & Hi & _). rewrite (db_fold_eq _ _ H). now apply db_fold_eq.
Qed.
Lemma db_fold_readable : forall e c, readable e c -> readable e (db_fold c).
Proof.
  intros e c (H1 & H2 & H3). destruct (fold_facts c) as (d & Hf & _ & Hv & Hs & _ & _ & _ & Hp).
  rewrite (db_fold_eq _ _ Hf). unfold scalar in Hs.
  split; [apply Hv; exact H1|]. split; [lia|]. destruct e; auto.
  rewrite Hp. destruct H3 as [H3|H3]; [|right; exact H3]. left.
  assert (c / 0x10000 = 0) by (apply N.div_small; exact H3).
  assert (d / 0x10000 = 0) by congruence.
  pose proof (N.div_mod d 0x10000 ltac:(lia)). pose proof (N.mod_lt d 0x10000 ltac:(lia)). lia.
Qed.

(** ** Literals *)
Lemma unicode_literal_db : forall e inp lcps cps pos,
  e = Utf8 \/ e = Utf16 ->
  no_eof (Enc e) inp -> skipn pos inp = text e cps ->
  Forall (readable e) lcps -> Forall (readable e) cps ->
  exists ok k,
    cfl_unicode db_fold e inp (lcp_string e lcps) pos = (ok, (pos + length (text e (firstn k cps)))%nat) /\
    leading lcps (map db_fold cps) k /\ (ok = true <-> k = length lcps).
Proof.
  intros e inp lcps cps pos He Hn Ht Hl Hc. apply unicode_literal; try assumption.
  revert Hc. apply Forall_impl. intros c. apply db_fold_readable.
Qed.
Lemma utf32_set_db : forall ls inp pos,
  set_try db_fold UnicodeFold (Enc Utf32) ls inp pos
  = set_try db_fold NoFold (Enc Utf32) ls (map db_fold inp) pos.
Proof.
  intros ls inp pos. rewrite utf32_set.
  - f_equal. apply map_ext. apply scf_db.
  - intros c. rewrite !scf_db. apply db_fold_idem.
Qed.
Lemma map_firstn_eq : forall (f : N -> N) k l, map f (firstn k l) = firstn k (map f l).
Proof. induction k as [|k IH]; intros [|x l]; cbn; try reflexivity. now rewrite IH. Qed.
Lemma leading_whole : forall l m, leading l m (length l) -> exists r, m = l ++ r.
Proof.
  intros l m (_ & _ & H & _). rewrite firstn_all in H. exists (skipn (length l) m).
  rewrite H at 1. symmetry. apply firstn_skipn.
Qed.
(** The literal matches exactly the texts of which it is the folded form: a literal that
    is not in folded form never matches. *)
Lemma literal_matches_db : forall e inp lcps cps pos,
  e = Utf8 \/ e = Utf16 ->
  no_eof (Enc e) inp -> skipn pos inp = text e cps ->
  Forall (readable e) lcps -> Forall (readable e) cps ->
  (fst (cfl_unicode db_fold e inp (lcp_string e lcps) pos) = true <->
     exists a b, cps = a ++ b /\ map db_fold a = lcps) /\
  (fst (cfl_unicode db_fold e inp (lcp_string e lcps) pos) = true -> Forall (fun c => folds c c) lcps) /\
  (forall a b, cps = a ++ b -> map db_fold a = lcps ->
     snd (cfl_unicode db_fold e inp (lcp_string e lcps) pos) = (pos + length (text e a))%nat).
Proof.
  intros e inp lcps cps pos He Hn Ht Hl Hc.
  destruct (unicode_literal_db e inp lcps cps pos He Hn Ht Hl Hc) as (ok & k & E & L & Hk).
  rewrite E. cbn [fst snd].
  assert (Hiff : ok = true <-> exists a b, cps = a ++ b /\ map db_fold a = lcps).
  { rewrite Hk. split.
    - intros ->. destruct (leading_whole _ _ L) as (r & Hr).
      exists (firstn (length lcps) cps), (skipn (length lcps) cps).
      split; [symmetry; apply firstn_skipn|]. rewrite map_firstn_eq, Hr.
      rewrite firstn_app, firstn_all, Nat.sub_diag. cbn. apply app_nil_r.
    - intros (a & b & -> & Ha). destruct L as (L1 & L2 & L3 & [L4|L4]); [exact L4|].
      destruct (Nat.eq_dec k (length lcps)) as [Hq|Hq]; [exact Hq|].
      exfalso. apply L4. rewrite map_app, Ha. symmetry. apply nth_error_app1. lia. }
  split; [exact Hiff|]. split.
  - intros Hok. apply Hiff in Hok. destruct Hok as (a & b & _ & <-). apply Forall_forall.
    intros x Hx. apply in_map_iff in Hx. destruct Hx as (y & <- & _).
    unfold folds. rewrite <- (db_fold_idem y) at 2. apply db_fold_folds.
  - intros a b Ecps Ha. assert (Hok : ok = true) by (apply Hiff; eauto).
    apply Hk in Hok. rewrite Hok, Ecps, <- Ha, map_length, firstn_app, firstn_all, Nat.sub_diag.
    cbn [firstn]. rewrite app_nil_r. reflexivity.
Qed.

(** ** Tables of symbols and strings *)
Lemma db_fold_scalar : forall c, scalar c -> scalar (db_fold c).
Proof.
  intros c H. destruct (fold_facts c) as (d & Hf & _ & _ & Hs & _).
  rewrite (db_fold_eq _ _ Hf). now apply Hs.
Qed.
Lemma db_fold_valid : forall c, c <= 0x10FFFF -> db_fold c <= 0x10FFFF.
Proof.
  intros c H. destruct (fold_facts c) as (d & Hf & _ & Hv & _). rewrite (db_fold_eq _ _ Hf). now apply Hv.
Qed.
Lemma db_fold_plane : forall c, db_fold c / 0x10000 = c / 0x10000.
Proof.
  intros c. destruct (fold_facts c) as (d & Hf & _ & _ & _ & _ & _ & _ & Hp). now rewrite (db_fold_eq _ _ Hf).
Qed.
Lemma db_fold_ascii : forall c, c < 128 -> db_fold c = lower c.
Proof.
  intros c H. destruct (fold_facts c) as (d & Hf & _ & _ & _ & Ha & _).
  rewrite (db_fold_eq _ _ Hf). now apply Ha.
Qed.
