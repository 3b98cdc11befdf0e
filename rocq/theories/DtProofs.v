(** Proofs about descriptions of parse trees. *)
From Coq Require Import String Ascii ZArith.
From Verif Require Import Prelude CodecModel CodecSpec LitModel ClassSpec LocSpec RuleModel
  PtModel PtSpec PtMem PtProofs PtNav PtWalk PtActSpec PtMain VisModel VisSpec RepSpec RepProofs RepText RepMain TvModel TvSpec TvMain TvRead
  DtModel DtSpec.
Close Scope string_scope.
Open Scope N_scope.

Lemma dtree_rec (P : dtree -> Prop) : (forall k s, P (DLeaf k s)) ->
  (forall n kids, (forall x, In x kids -> P x) -> P (DNode n kids)) -> forall d, P d.
Proof.
  intros H1 H2. fix IH 1. intros [k s|n kids]; [apply H1|]. apply H2.
  induction kids as [|x kids IHk]; [intros y []|intros y [<-|Hy]]; [apply IH|now apply IHk].
Qed.
Lemma good_node signed n kids : good signed (DNode n kids) <-> good_name n /\ forall x, In x kids -> good signed x.
Proof.
  cbn [good]. split; intros (Hn & H); (split; [exact Hn|]).
  - induction kids as [|y kids IH]; intros x Hx; [destruct Hx|]. destruct H as (H1 & H2).
    destruct Hx as [<-|Hx]; [exact H1|now apply IH].
  - induction kids as [|y kids IH]; [exact I|]. split; [apply H; now left|]. apply IH. intros x Hx. apply H. now right.
Qed.

(** ** Spelling *)
Lemma hex_digit_inj a b : a < 16 -> b < 16 -> hex_digit a = hex_digit b -> a = b.
Proof. unfold hex_digit. intros Ha Hb. destruct (N.ltb_spec a 10), (N.ltb_spec b 10); lia. Qed.
Lemma hex_digit_range a : a < 16 -> 0x30 <= hex_digit a <= 0x66.
Proof. unfold hex_digit. intros Ha. destruct (N.ltb_spec a 10); lia. Qed.
Lemma hex_inj a b x y : a < 256 -> b < 256 -> hex a ++ [0x7D] ++ x = hex b ++ [0x7D] ++ y -> a = b /\ x = y.
Proof.
  intros Ha Hb. unfold hex.
  assert (Hd : forall c, c < 16 -> hex_digit c <> 0x7D) by (intros c Hc; pose proof (hex_digit_range c Hc); lia).
  destruct (N.ltb_spec a 16) as [Ha'|Ha'], (N.ltb_spec b 16) as [Hb'|Hb']; cbn [app]; intros H.
  - injection H as H ->. apply hex_digit_inj in H; auto.
  - injection H as _ H _. exfalso. apply (Hd (b mod 16)); [apply N.mod_lt; lia|now symmetry].
  - injection H as _ H _. exfalso. apply (Hd (a mod 16)); [apply N.mod_lt; lia|assumption].
  - injection H as H1 H2 ->. assert (a / 16 < 16) by (apply N.div_lt_upper_bound; lia).
    assert (b / 16 < 16) by (apply N.div_lt_upper_bound; lia).
    apply hex_digit_inj in H1; auto. apply hex_digit_inj in H2; [|apply N.mod_lt; lia..]. split; [|reflexivity].
    rewrite (N.div_mod a 16), (N.div_mod b 16) by lia. congruence.
Qed.

Definition char_text (c : N) : list N :=
  if c =? 0x22 then [0x5C; 0x22]
  else if (0x20 <=? c) && (c <=? 0x7E) then [c]
  else [0x5C; 0x7B] ++ hex c ++ [0x7D].
Lemma spell_good signed c : good_char signed c -> spell signed c = Some (char_text c).
Proof.
  intros (H1 & H2). unfold spell, char_text, isprint, as_unsigned. destruct (c =? 0x22); [reflexivity|].
  destruct (N.ltb_spec c 0x80) as [Hc|Hc].
  - destruct ((0x20 <=? c) && (c <=? 0x7E)); [reflexivity|].
    replace (signed && (0x80 <=? c))%bool with false by (destruct signed; lia).
    rewrite N.mod_small by lia. reflexivity.
  - destruct signed; [lia|]. cbn [andb]. replace ((0x20 <=? c) && (c <=? 0x7E)) with false by lia.
    rewrite N.mod_small by lia. reflexivity.
Qed.
Definition token_text (s : list N) : list N := concat (map char_text s).
Lemma spell_all_good signed s : Forall (good_char signed) s -> spell_all signed s = Some (token_text s).
Proof.
  induction 1 as [|c s Hc Hs IH]; [reflexivity|]. cbn [spell_all]. rewrite (spell_good signed c Hc), IH. reflexivity.
Qed.
Lemma char_text_inj signed c c' x y : good_char signed c -> good_char signed c' ->
  char_text c ++ x = char_text c' ++ y -> c = c' /\ x = y.
Proof.
  intros (Hc & Hr) (Hc' & Hr'). assert (c < 256 /\ c' < 256) as (Hb & Hb') by (destruct signed; lia). unfold char_text.
  destruct (N.eqb_spec c 0x22) as [->|Hq], (N.eqb_spec c' 0x22) as [->|Hq'].
  - cbn [app]. intros H. injection H as ->. auto.
  - destruct (_ && _); cbn [app]; intros H; [injection H as H _; congruence|discriminate].
  - destruct (_ && _); cbn [app]; intros H; [injection H as H _; congruence|discriminate].
  - destruct ((0x20 <=? c) && (c <=? 0x7E)), ((0x20 <=? c') && (c' <=? 0x7E)); cbn [app]; intros H.
    + injection H as -> ->. auto.
    + injection H as H _. congruence.
    + injection H as H _. congruence.
    + injection H as H. rewrite <- !app_assoc in H. now apply hex_inj in H.
Qed.
Lemma char_text_quote signed c x y : good_char signed c -> char_text c ++ x <> 0x22 :: y.
Proof.
  intros (Hc & _). unfold char_text. destruct (N.eqb_spec c 0x22) as [->|Hq]; [discriminate|].
  destruct (_ && _); cbn [app]; [|discriminate]. congruence.
Qed.
Lemma token_text_inj signed s : forall s', Forall (good_char signed) s -> Forall (good_char signed) s' ->
  token_text s ++ [0x22] = token_text s' ++ [0x22] -> s = s'.
Proof.
  induction s as [|c s IH]; intros [|c' s'] Hs Hs' H; auto.
  - inversion Hs'; subst. unfold token_text in H. cbn [map concat app] in H. rewrite <- app_assoc in H.
    symmetry in H. now apply (char_text_quote signed c') in H.
  - inversion Hs; subst. unfold token_text in H. cbn [map concat app] in H. rewrite <- app_assoc in H.
    now apply (char_text_quote signed c) in H.
  - inversion Hs; inversion Hs'; subst. unfold token_text in H. cbn [map concat] in H. rewrite <- !app_assoc in H.
    apply (char_text_inj signed) in H; auto. destruct H as (-> & H). f_equal. now apply IH.
Qed.
Lemma char_text_line c : c < 256 -> one_line (char_text c).
Proof.
  intros Hb. unfold char_text, one_line, LF. destruct (c =? 0x22); [cbn; intuition discriminate|].
  destruct (N.leb_spec 0x20 c), (N.leb_spec c 0x7E); cbn [andb];
    try (intros [E|[]]; lia); unfold hex; destruct (N.ltb_spec c 16); cbn [app In]; intros Hi;
    repeat (destruct Hi as [Hi|Hi]); try discriminate; try contradiction;
    match type of Hi with hex_digit ?d = _ => assert (Hd : d < 16) by
      (first [assumption | apply N.mod_lt; lia | apply N.div_lt_upper_bound; lia]); pose proof (hex_digit_range d Hd); lia end.
Qed.
Lemma token_text_line signed s : Forall (good_char signed) s -> one_line (token_text s).
Proof.
  induction 1 as [|c s Hc Hs IH]; [intros []|]. unfold token_text. cbn [map concat]. apply one_line_app; [|exact IH].
  apply char_text_line. destruct Hc as (_ & Hc). destruct signed; lia.
Qed.

(** ** Rows *)
Definition row (d : dtree) : list N :=
  match d with
  | DLeaf k s => k ++ str ": """ ++ token_text s ++ [0x22]
  | DNode n _ => n ++ str ":"
  end.
Fixpoint rows (d : dtree) : outline :=
  match d with
  | DLeaf k s => Node (row (DLeaf k s)) []
  | DNode n kids => Node (row (DNode n kids)) (map rows kids)
  end.
Definition root (o : outline) : list N := match o with Node r _ => r end.
Lemma rows_root d : root (rows d) = row d.
Proof. destruct d; reflexivity. Qed.
Definition ascii : options := Options 0 0 0 0.

Lemma quote_split a b x y : ~ In 0x22 a -> ~ In 0x22 b -> a ++ 0x22 :: x = b ++ 0x22 :: y -> a = b /\ x = y.
Proof.
  revert b. induction a as [|c a IH]; intros [|c' b] Ha Hb H; cbn [app] in H.
  - injection H as ->. auto.
  - injection H as <- _. destruct Hb. now left.
  - injection H as -> _. destruct Ha. now left.
  - injection H as -> H. apply IH in H; [|intros Hi; apply Ha; now right|intros Hi; apply Hb; now right].
    destruct H as (-> & ->). auto.
Qed.
Lemma row_leaf k s : row (DLeaf k s) = (k ++ str ": ") ++ 0x22 :: token_text s ++ [0x22].
Proof. cbn [row]. rewrite <- app_assoc. reflexivity. Qed.
Lemma row_last d : exists x, row d = x ++ [match d with DLeaf _ _ => 0x22 | DNode _ _ => 0x3A end].
Proof.
  destruct d as [k s|n kids].
  - exists (k ++ str ": """ ++ token_text s). cbn [row]. now rewrite <- !app_assoc.
  - exists n. reflexivity.
Qed.

Lemma rows_inj signed d : forall d', good signed d -> good signed d' -> rows d = rows d' -> d = d'.
Proof.
  induction d as [k s|n kids IH] using dtree_rec; intros [k' s'|n' kids'] Hg Hg' H.
  - apply (f_equal root) in H. rewrite !rows_root, !row_leaf in H. destruct Hg as ((_ & Hk) & Hs), Hg' as ((_ & Hk') & Hs').
    assert (Hq : forall k, ~ In 0x22 k -> ~ In 0x22 (k ++ str ": ")).
    { intros a Ha Hi. apply in_app_or in Hi. destruct Hi as [Hi|Hi]; [exact (Ha Hi)|]. vm_compute in Hi. intuition discriminate. }
    apply quote_split in H; auto. destruct H as (H1 & H2). apply app_inv_tail in H1. apply (token_text_inj signed) in H2; auto.
    congruence.
  - exfalso. apply (f_equal root) in H. rewrite !rows_root in H. destruct (row_last (DLeaf k s)) as (x & Hx), (row_last (DNode n' kids')) as (y & Hy).
    rewrite Hx, Hy in H. apply app_inj_tail in H. destruct H as (_ & H). discriminate.
  - exfalso. apply (f_equal root) in H. rewrite !rows_root in H. destruct (row_last (DNode n kids)) as (x & Hx), (row_last (DLeaf k' s')) as (y & Hy).
    rewrite Hx, Hy in H. apply app_inj_tail in H. destruct H as (_ & H). discriminate.
  - cbn [rows] in H. injection H as H1 H2. cbn [row] in H1. apply app_inv_tail in H1. subst n'. f_equal.
    apply good_node in Hg. apply good_node in Hg'. destruct Hg as (_ & Hg), Hg' as (_ & Hg').
    revert kids' H2 Hg'. induction kids as [|x kids IHk]; intros [|x' kids'] H2 Hg'; try discriminate; auto.
    cbn [map] in H2. injection H2 as H3 H4. f_equal.
    + apply IH; auto; [now left|apply Hg; now left|apply Hg'; now left].
    + apply IHk; auto; [intros; apply IH; auto; now right|intros; apply Hg; now right|intros; apply Hg'; now right].
Qed.

(** ** The text of a description *)
Definition pad : list N := spaces 12.
Definition ind (n : nat) : list N := concat (repeat (str "  ") n).
Lemma ind_snoc n : ind n ++ str "  " = ind (S n).
Proof.
  unfold ind. induction n as [|n IH]; [reflexivity|].
  change (concat (repeat (str "  ") (S n))) with (str "  " ++ concat (repeat (str "  ") n)) at 1.
  rewrite <- app_assoc, IH. reflexivity.
Qed.
Definition place (l : nat) (rs : list (list N)) : list (list N) :=
  match l with O => rs | S l' => map (app (ind l')) (hung ascii true rs) end.
Definition own (l : nat) : list N := match l with O => [] | S l' => ind l' ++ str "- " end.
Lemma prefix_own l : prefix (Z.of_nat l) = pad ++ own l.
Proof.
  unfold prefix, pad, own. f_equal. destruct l as [|l]; [reflexivity|].
  replace (0 <? Z.of_nat (S l))%Z with true by lia. replace (Z.to_nat (Z.of_nat (S l) - 1)) with l by lia. reflexivity.
Qed.
Lemma place_cons l r rs : place l (r :: rs) = (own l ++ r) :: map (app (ind l)) rs.
Proof.
  destruct l as [|l]; cbn [place own].
  - f_equal. change (ind 0) with (@nil N). cbn [app]. now rewrite map_id.
  - cbn [hung map]. change (connector ascii true) with (str "- "). change (trunk ascii true) with (str "  ").
    rewrite app_assoc. f_equal. rewrite map_map. apply map_ext. intros x. now rewrite app_assoc, ind_snoc.
Qed.
Lemma hung_ascii q q' rs : hung ascii q rs = hung ascii q' rs.
Proof. destruct q, q'; reflexivity. Qed.

Definition text_rows (l : nat) (d : dtree) : list N := lines (map (app pad) (place l (layout ascii (rows d)))).

Lemma do_calls_app signed cs cs' : forall d, do_calls signed d (cs ++ cs') =
  match do_calls signed d cs with Some d => do_calls signed d cs' | None => None end.
Proof.
  induction cs as [|c cs IH]; intros d; [reflexivity|]. cbn [app do_calls]. destruct (do_call signed d c); [apply IH|reflexivity].
Qed.

Lemma calls_text signed d : good signed d -> forall t l,
  do_calls signed (Desc t (Z.of_nat l)) (calls_of d) = Some (Desc (t ++ text_rows l d) (Z.of_nat l)).
Proof.
  induction d as [k s|n kids IH] using dtree_rec; intros Hg t l.
  - cbn [calls_of do_calls do_call]. destruct Hg as (_ & Hs). rewrite (spell_all_good signed s Hs).
    cbn [d_tree d_level]. f_equal. f_equal. f_equal. unfold text_rows. cbn [rows layout].
    rewrite place_cons. cbn [map]. rewrite lines_cons. cbn [map lines concat]. rewrite prefix_own, app_nil_r.
    cbn [row]. rewrite <- !app_assoc. reflexivity.
  - apply good_node in Hg. destruct Hg as (Hn & Hg).
    assert (HK : forall t, do_calls signed (Desc t (Z.of_nat (S l))) (flat_map calls_of kids) =
      Some (Desc (t ++ lines (map (app pad) (map (app (ind l)) (laid ascii (map rows kids))))) (Z.of_nat (S l)))).
    { clear Hn. induction kids as [|x kids IHk]; intros t'; cbn [flat_map].
      - cbn [do_calls map laid lines concat]. now rewrite app_nil_r.
      - rewrite do_calls_app, IH by (try (now left); apply Hg; now left).
        rewrite IHk by (intros; try apply IH; try apply Hg; auto; now right).
        f_equal. f_equal. rewrite <- app_assoc. f_equal. cbn [map]. rewrite laid_cons, !map_app, lines_app.
        unfold text_rows. cbn [place]. rewrite (hung_ascii true (match map rows kids with [] => true | _ => false end)).
        reflexivity. }
    cbn [calls_of do_calls do_call d_tree d_level]. replace (Z.of_nat l + 1)%Z with (Z.of_nat (S l)) by lia.
    rewrite do_calls_app, HK. cbn [do_calls do_call d_tree d_level]. f_equal. f_equal; [|lia].
    rewrite <- app_assoc. f_equal. unfold text_rows. cbn [rows layout]. fold (laid ascii (map rows kids)).
    rewrite place_cons. cbn [map]. rewrite lines_cons, prefix_own. cbn [row]. rewrite <- !app_assoc. reflexivity.
Qed.

Lemma row_line signed d : good signed d -> one_line (row d).
Proof.
  destruct d as [k s|n kids].
  - intros ((Hk & _) & Hs). cbn [row]. apply one_line_app; [exact Hk|].
    apply one_line_app; [apply one_line_str; reflexivity|]. apply one_line_app; [exact (token_text_line signed s Hs)|].
    apply one_line_str. reflexivity.
  - intros H. apply good_node in H. destruct H as ((H & _) & _). cbn [row]. apply one_line_app; [exact H|].
    apply one_line_str. reflexivity.
Qed.
Lemma rows_line signed d : good signed d -> Forall one_line (layout ascii (rows d)).
Proof.
  induction d as [k s|n kids IH] using dtree_rec; intros Hg; pose proof (row_line signed _ Hg) as Hr.
  - cbn [rows layout]. constructor; [exact Hr|constructor].
  - apply good_node in Hg. destruct Hg as (_ & Hg). cbn [rows layout]. fold (laid ascii (map rows kids)).
    constructor; [exact Hr|]. clear Hr. induction kids as [|x kids IHk]; [constructor|]. cbn [map]. rewrite laid_cons.
    apply Forall_app. split.
    + apply one_line_hung, IH; [now left|apply Hg; now left].
    + apply IHk; intros; try apply IH; try apply Hg; auto; now right.
Qed.

Lemma text_inj signed d d' : good signed d -> good signed d' -> text_rows 0 d = text_rows 0 d' -> d = d'.
Proof.
  intros Hg Hg' H. unfold text_rows in H. cbn [place] in H.
  assert (Hp : one_line pad) by (apply one_line_str; reflexivity).
  apply lines_inj in H.
  2,3: apply Forall_map; eapply Forall_impl; [|eapply rows_line; eassumption]; intros a Ha; now apply one_line_app.
  assert (Hm : forall a b, map (app pad) a = map (app pad) b -> a = b).
  { induction a as [|x a IHa]; intros [|y b] E; try discriminate; auto. cbn [map] in E. injection E as E1 E2.
    f_equal; [|now apply IHa]. exact E1. }
  apply Hm in H. apply (layout_inj ascii (S (size (rows d)))) in H; [|apply Nat.lt_succ_diag_r].
  now apply (rows_inj signed).
Qed.

(** ** The text of a parse tree *)
Section Mem.
Variables (token_name : tkind -> list N) (production_name : nat -> list N) (signed : bool) (inp : list N).
Notation described := (described token_name production_name inp).

Lemma convert_app m l l' : forall d, convert_loop token_name production_name signed inp m d (l ++ l') =
  match convert_loop token_name production_name signed inp m d l with
  | Some d => convert_loop token_name production_name signed inp m d l' | None => None end.
Proof.
  induction l as [|x l IH]; intros d; [reflexivity|]. cbn [app convert_loop].
  destruct (node_call token_name production_name inp m x); [|reflexivity].
  destruct (do_call signed d c); [apply IH|reflexivity].
Qed.
Lemma convert_calls m s : rep m s -> forall d,
  convert_loop token_name production_name signed inp m d (tevents s) = do_calls signed d (calls_of (described (erase s))).
Proof.
  induction s as [a k b e'|a id tok kids IH] using ltree_rec; intros Hr d.
  - cbn [tevents convert_loop erase DtSpec.described calls_of do_calls]. unfold node_call.
    destruct Hr as (Hr1 & Hr2 & Hr3 & Hr4).
    unfold kind_name, lexeme_units, lexeme, token_kind, token_begin, token_end. rewrite Hr1, Hr2, Hr3.
    replace (b + (e' - b) - b)%nat with (e' - b)%nat by lia.
    destruct (do_call signed d _); reflexivity.
  - apply rep_prod in Hr. destruct Hr as (Hr1 & Hr2 & _ & _ & _ & _ & Hkids).
    cbn [tevents convert_loop erase DtSpec.described calls_of do_calls]. unfold node_call at 1.
    unfold kind_name, production_id. rewrite Hr1, Hr2. cbn [option_map do_call].
    rewrite convert_app, do_calls_app.
    assert (HK : forall d, convert_loop token_name production_name signed inp m d (flat_map tevents kids) =
      do_calls signed d (flat_map calls_of (map described (map erase kids)))).
    { induction kids as [|x kids IHk]; intros d'; [reflexivity|]. inversion Hkids; subst. cbn [flat_map map].
      rewrite convert_app, do_calls_app, IH by (auto; now left).
      destruct (do_calls signed d' _); [|reflexivity]. apply IHk; auto. intros; apply IH; auto; now right. }
    rewrite HK. destruct (do_calls signed _ (flat_map _ _)); reflexivity.
Qed.

Lemma convert_made cap tr t b e' : (4 <= cap)%nat -> made cap tr t b e' ->
  convert token_name production_name signed inp (2 * nodes t) tr
  = option_map to_string (do_calls signed empty_desc (calls_of (described t))).
Proof.
  intros Hcap Hm. destruct (made_whole cap tr t b e' Hcap Hm) as (lt & eof & E1 & E2 & HW & _).
  unfold convert. rewrite E1, (traverse_ok _ _ _ _ _ HW lt (2 * nodes t)); [|constructor|rewrite <- E2; apply tevents_nodes].
  rewrite (convert_calls _ lt (W_rep _ _ _ _ _ HW)), E2. reflexivity.
Qed.

Lemma finishes d n : do_calls signed d (repeat CFinish n) = Some (Desc (d_tree d) (d_level d - Z.of_nat n)).
Proof.
  revert d. induction n as [|n IH]; intros d; cbn [repeat do_calls do_call].
  - destruct d as [t l]. cbn [d_tree d_level]. f_equal. f_equal. lia.
  - rewrite IH. cbn [d_tree d_level]. f_equal. f_equal. lia.
Qed.

Lemma equal_made cap tr t b e' d cs n : (4 <= cap)%nat -> made cap tr t b e' ->
  good signed (described t) -> good signed d -> calls_of d = cs ++ repeat CFinish n ->
  exists r, equal token_name production_name signed inp (2 * nodes t) cs tr = Some r /\ (r = true <-> described t = d).
Proof.
  intros Hcap Hm Hg Hd Hcs. unfold equal. rewrite (convert_made cap tr t b e' Hcap Hm).
  pose proof (calls_text signed d Hd [0x0A] 0) as E. change (Desc [0x0A] (Z.of_nat 0)) with empty_desc in E.
  rewrite Hcs, do_calls_app in E.
  destruct (do_calls signed empty_desc cs) as [[x l]|]; [|discriminate].
  rewrite finishes in E. cbn [d_tree d_level] in E. injection E as -> _.
  pose proof (calls_text signed _ Hg [0x0A] 0) as E'. change (Desc [0x0A] (Z.of_nat 0)) with empty_desc in E'.
  rewrite E'. cbn [option_map]. eexists. split; [reflexivity|]. unfold same_text, to_string. cbn [d_tree].
  destruct (list_eq_dec _ _ _) as [H|H]; split; intros H'; try reflexivity; try discriminate.
  - apply app_inv_tail in H. apply (app_inv_head [0x0A]) in H. symmetry in H. now apply (text_inj signed) in H.
  - destruct H. now rewrite H'.
Qed.
End Mem.
