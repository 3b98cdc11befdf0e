(** Moving positions through the functions of the engine. *)
From Verif Require Import Prelude RuleModel HaltSpec ShiftSpec.
Close Scope N_scope.

(** ** Parts of rules *)
Lemma inside_here P r : inside P r -> P r.
Proof. destruct r; cbn [inside]; intros H; apply H. Qed.

Lemma inside_all P rs : (fix all (rs : list rule) : Prop :=
    match rs with [] => True | r :: rs => inside P r /\ all rs end) rs <-> Forall (inside P) rs.
Proof.
  induction rs as [|r rs IH]; [split; auto|]. rewrite Forall_cons_iff. cbn. now rewrite IH.
Qed.

Definition isep (P : rule -> Prop) (sep : option (rule * sepk)) : Prop :=
  match sep with Some (r, _) => inside P r | None => True end.
Definition iopt (P : rule -> Prop) (o : option rule) : Prop :=
  match o with Some r => inside P r | None => True end.

Section Parts.
Variable P : rule -> Prop.
Lemma inside_seq rs : inside P (RSeq rs) -> Forall (inside P) rs.
Proof. cbn [inside]. intros [_ H]. now apply inside_all. Qed.
Lemma inside_chc rs : inside P (RChc rs) -> Forall (inside P) rs.
Proof. cbn [inside]. intros [_ H]. now apply inside_all. Qed.
Lemma inside_reco l rs : inside P (RReco l rs) -> Forall (inside P) rs.
Proof. cbn [inside]. intros [_ H]. now apply inside_all. Qed.
Lemma inside_br b rs : inside P (RBr b rs) -> inside P b /\ Forall (inside P) rs.
Proof. cbn [inside]. intros (_ & H1 & H2). split; auto. now apply inside_all. Qed.
Lemma inside_comb d els rs : inside P (RComb d els rs) -> iopt P els /\ Forall (inside P) rs.
Proof. cbn [inside]. intros (_ & H1 & H2). split; auto. now apply inside_all. Qed.
End Parts.

Notation okr := movable_rule.

Lemma ok_chc rs : Forall okr rs -> okr (RChc rs).
Proof. intros H. unfold movable_rule. cbn [inside]. split; [exact I|]. now apply inside_all. Qed.
Lemma ok_br b rs : okr b -> Forall okr rs -> okr (RBr b rs).
Proof. intros Hb H. unfold movable_rule. cbn [inside]. split; [exact I|]. split; auto. now apply inside_all. Qed.
Lemma ok_alts rs : Forall okr rs -> okr (alts_of rs).
Proof.
  intros H. unfold alts_of. destruct rs as [|r [|r2 rs]]; try now apply ok_chc. now inversion H.
Qed.
Lemma ok_chc_or a b : okr a -> okr b -> okr (chc_or a b).
Proof.
  intros Ha Hb. unfold chc_or. destruct a; apply ok_chc; try (apply Forall_cons; [exact Ha|]; apply Forall_cons; [exact Hb|constructor]).
  apply inside_chc in Ha. apply Forall_app. split; auto.
Qed.
Lemma ok_comb_alts rs : forall i, Forall okr rs -> Forall okr (comb_alts i rs).
Proof.
  induction rs as [|r rs IH]; intros i H; [constructor|]. inversion H as [|? ? Hr Hrs]; subst.
  assert (Hi : okr (RCombIt i)) by (split; exact I).
  assert (H1 : Forall okr [RCombIt i]) by (constructor; auto).
  destruct r; cbn [comb_alts]; (constructor; [|now apply IH]); try (apply ok_br; assumption).
  apply inside_br in Hr. apply ok_br; [tauto|]. apply Forall_app. tauto.
Qed.
Lemma ok_comb els rs : iopt (fun r => match r with
  | RTok t | RLstT _ _ _ t | RReco t _ => movable_token t
  | RFind f | RLook f _ => movable_finder f
  | RCtxNew _ v => plain_value v
  | _ => True
  end) els -> Forall okr rs -> okr (comb_choice els rs).
Proof.
  intros He H. unfold comb_choice. apply ok_alts. apply Forall_app. split; [now apply ok_comb_alts|].
  destruct els; constructor; auto.
Qed.
Lemma ok_strip w : okr w -> okr (strip_ws w).
Proof. destruct w; auto. intros H. apply H. Qed.

(** ** Lists and variables *)
Section Move.
Variable d : nat.
Notation mv := (move_val d).
Notation mvs := (map (move_val d)).
Notation mvss := (map (map (move_val d))).
Notation me := (move_event d).
Notation ms := (move_st d).
Notation mvar := (map (move_var d)).

Lemma ms_emit e s : ms (emit e s) = emit (me e) (ms s).
Proof. reflexivity. Qed.
Lemma ms_setpos p s : ms (setpos p s) = setpos (d + p) (ms s).
Proof. reflexivity. Qed.
Lemma ms_emits es s : ms (emits es s) = emits (map me es) (ms s).
Proof. unfold move_st, emits. cbn. now rewrite map_app, map_rev. Qed.
Lemma mv_push vs acc : mvss (push vs acc) = push (mvs vs) (mvss acc).
Proof. destruct vs; cbn; auto. now rewrite map_app. Qed.
Lemma mv_vget id vs : vget id (mvar vs) = option_map mv (vget id vs).
Proof. induction vs as [|[i v] vs IH]; cbn; auto. destruct (i =? id); auto. Qed.
Lemma mv_vset id v vs : mvar (vset id v vs) = vset id (mv v) (mvar vs).
Proof.
  induction vs as [|[i w] vs IH]; cbn; auto. destruct (i =? id); cbn; auto. now rewrite IH.
Qed.
Lemma mv_eqb v w : val_eqb (mv v) (mv w) = val_eqb v w.
Proof. destruct v, w; reflexivity. Qed.
Lemma mv_eqb_r v w : val_eqb (mv v) w = val_eqb v w.
Proof. destruct v, w; reflexivity. Qed.
Lemma mv_all_eq v ids vs : all_eq (mv v) ids (mvar vs) = all_eq v ids vs.
Proof.
  induction ids as [|i ids IH]; cbn; auto. rewrite mv_vget. destruct (vget i vs); cbn; auto.
  now rewrite IH, mv_eqb.
Qed.
Lemma mv_count vs : count_of (mvs vs) = count_of vs.
Proof.
  destruct vs as [|v [|w vs]]; auto. cbn. revert v. fix IH 1.
  destruct v; try reflexivity; destruct vs as [|v [|w vs]]; try reflexivity; cbn; apply IH.
Qed.
Lemma mv_plain v : plain_value v -> mv v = v.
Proof. destruct v; cbn; intros []; reflexivity. Qed.
Lemma is_err_me e : is_err (me e) = is_err e.
Proof. destruct e; reflexivity. Qed.
Lemma mv_errors l : filter is_err (map me l) = map me (filter is_err l).
Proof. induction l as [|e l IH]; cbn; auto. rewrite is_err_me. destruct (is_err e); cbn; now rewrite IH. Qed.
Lemma mv_has_err l : existsb is_err (map me l) = existsb is_err l.
Proof. induction l as [|e l IH]; cbn; auto. now rewrite is_err_me, IH. Qed.
Lemma mv_unlink n s : ms (unlink n s) = unlink n (ms s).
Proof. unfold unlink, move_st. cbn. now rewrite map_length, skipn_map. Qed.
Lemma mv_report k b e s : ms (report_trailing k b e s) = report_trailing k (d + b) (d + e) (ms s).
Proof. destruct k; reflexivity. Qed.
Lemma mv_recovered b s : ms (lstt_recovered b s) = lstt_recovered (d + b) (ms s).
Proof. reflexivity. Qed.

(** Branch parsers. *)
Fixpoint move_bst (b : bst) : bst :=
  match b with
  | BNone => BNone
  | BEnd e => BEnd (d + e)
  | BRange b e => BRange (d + b) (d + e)
  | BAt p b => BAt (d + p) (move_bst b)
  | BChc i bs => BChc i (map move_bst bs)
  end.
Definition move_bres (r : bres) : bres :=
  match r with BR ok b => BR ok (move_bst b) | BNoFuel => BNoFuel | BCrash => BCrash end.
Definition move_tres (r : tres) : tres :=
  match r with TR ok e => TR ok (d + e) | TNoFuel => TNoFuel | TCrash => TCrash end.
Definition move_ls (l : lstate) : lstate := match l with LSearch b => LSearch (d + b) | l => l end.

Lemma mb_hd bs : hd BNone (map move_bst bs) = move_bst (hd BNone bs).
Proof. destruct bs; reflexivity. Qed.
Lemma mb_tl bs : tl (map move_bst bs) = map move_bst (tl bs).
Proof. destruct bs; reflexivity. Qed.
Lemma mb_alts b : b_alts (move_bst b) = map move_bst (b_alts b).
Proof. destruct b; reflexivity. Qed.
Lemma mb_in b : b_in (move_bst b) = move_bst (b_in b).
Proof. destruct b; reflexivity. Qed.
End Move.

Section Input.
Variables pre inp : list N.
Notation d := (length pre).
Notation inp' := (pre ++ inp).

Lemma skipn_pre p : skipn (d + p) inp' = skipn p inp.
Proof.
  rewrite skipn_app. replace (d + p - d) with p by lia.
  rewrite skipn_all2 by lia. reflexivity.
Qed.
Lemma mv_slice b e : slice inp' (d + b) (d + e) = slice inp b e.
Proof. unfold slice. rewrite skipn_pre. f_equal. lia. Qed.
Lemma mv_lex_eqb v b e : lex_eqb inp' (move_val d v) (d + b) (d + e) = lex_eqb inp v b e.
Proof. destruct v; cbn [lex_eqb move_val]; auto. now rewrite !mv_slice. Qed.
Lemma mv_eof p : eof inp' (d + p) = eof inp p.
Proof. unfold eof. rewrite app_length. destruct (Nat.leb_spec (d + length inp) (d + p)), (Nat.leb_spec (length inp) p); auto; lia. Qed.
Lemma mv_null : null_pos inp' = d + null_pos inp.
Proof. unfold null_pos. rewrite app_length. lia. Qed.
Lemma mv_b_end b : b_end inp' (move_bst d b) = d + b_end inp b.
Proof. destruct b; cbn [b_end move_bst]; auto using mv_null. Qed.
Lemma mv_b_at b : b_at inp' (move_bst d b) = d + b_at inp b.
Proof. destruct b; cbn [b_at move_bst]; auto using mv_null. Qed.
Lemma mv_b_range b : b_range inp' (move_bst d b) = (d + fst (b_range inp b), d + snd (b_range inp b)).
Proof. destruct b; cbn [b_range move_bst fst snd]; rewrite ?mv_null; auto. Qed.

Lemma mv_search f : movable_finder f -> forall n p,
  search inp' f n (d + p)
    = (fst (fst (search inp f n p)), d + snd (fst (search inp f n p)), d + snd (search inp f n p)).
Proof.
  intros Hf. induction n as [|n IH]; intros p; cbn [search]; rewrite (Hf pre inp p);
    destruct (fd_try f inp p) as [[[|] e]|]; cbn [option_map fst snd]; auto.
  rewrite <- IH. f_equal. lia.
Qed.
Lemma mv_search_from f p : movable_finder f ->
  search_from inp' f (d + p)
    = (fst (fst (search_from inp f p)), d + snd (fst (search_from inp f p)), d + snd (search_from inp f p)).
Proof.
  intros Hf. unfold search_from. rewrite app_length. replace (d + length inp - (d + p)) with (length inp - p) by lia.
  now apply mv_search.
Qed.
End Input.
