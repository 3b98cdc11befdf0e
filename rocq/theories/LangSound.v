(** What the engine parses without an error is described by the grammar. *)
From Verif Require Import Prelude RuleModel RuleSpec RuleDen RuleSem RuleLists LangSpec.
Close Scope N_scope.

Definition clean (es : list event) : Prop := existsb is_err es = false.
Definition dirty (s : st) : Prop := existsb is_err (trace s) = true.
(** The outcome has an error in it. *)
Definition dres (X : res) : Prop := match X with Res _ s _ => dirty s /\ wsf s = true | _ => True end.
Definition dk (k : cont) : Prop := k_nows k = false /\ forall s a, dirty s -> wsf s = true -> dres (k_fn k s a).
(** [s], moved to [q] with the events [es], the newest first. *)
Definition go (s : st) (q : nat) (es : list event) : st := St q (depth s) (wsf s) (vars s) (es ++ trace s).

Lemma clean_app a b : clean a -> clean b -> clean (a ++ b).
Proof. unfold clean. intros Ha Hb. rewrite existsb_app, Ha, Hb. reflexivity. Qed.
Lemma clean_nil : clean [].
Proof. reflexivity. Qed.
Lemma clean_rev es : has_error es = false -> clean (rev es).
Proof.
  unfold clean, has_error. intros H. destruct (existsb is_err (rev es)) eqn:E; auto.
  apply existsb_exists in E. destruct E as (x & Hx & He). apply in_rev in Hx.
  rewrite <- H. symmetry. apply existsb_exists. eauto.
Qed.
Lemma clean_filter es : clean es -> filter is_err es = [].
Proof. unfold clean. induction es as [|e es IH]; cbn; auto. destruct (is_err e); [discriminate|auto]. Qed.
Lemma dirty_go s q es : dirty s -> dirty (go s q es).
Proof. unfold dirty, go. cbn. intros H. rewrite existsb_app, H. apply orb_true_r. Qed.
Lemma dirty_err s q t b e es : dirty (go s q (EError t b e :: es)).
Proof. reflexivity. Qed.
Lemma go_go s q es q' es' : go (go s q es) q' es' = go s q' (es' ++ es).
Proof. unfold go. cbn. now rewrite app_assoc. Qed.
Lemma go_id s : go s (pos s) [] = s.
Proof. destruct s. reflexivity. Qed.

Definition sem (J : list val -> nat -> Prop) (s : st) (K : cont -> list val -> res) : Prop :=
  (exists vs q es, clean es /\ J vs q /\ forall k a, k_nows k = false -> K k a = k_fn k (go s q es) (a ++ vs)) \/
  (forall k a, dk k -> dres (K k a)).
Definition dsem (J : list val -> nat -> Prop) (s : st) (X : res) : Prop :=
  (exists vs q es, clean es /\ J vs q /\ X = Res (OTrue vs) (go s q es) 0) \/ dres X.

Lemma dk_final : dk final.
Proof. split; [reflexivity|]. intros s a H1 H2. split; assumption. Qed.

Lemma sem_dirty J s K k a : sem J s K -> dirty s -> wsf s = true -> dk k -> dres (K k a).
Proof.
  intros [(vs & q & es & Hc & HJ & HK)|H] Hd Hw Hk; [|auto].
  rewrite HK by apply Hk. apply Hk; [now apply dirty_go|assumption].
Qed.
Lemma dsem_dirty J s X : dsem J s X -> dirty s -> wsf s = true -> dres X.
Proof. intros [(vs & q & es & Hc & HJ & ->)|H] Hd Hw; auto. split; [now apply dirty_go|assumption]. Qed.

Lemma sem_ret (J : list val -> nat -> Prop) s K q es vs : clean es -> J vs q ->
  (forall k a, k_nows k = false -> K k a = k_fn k (go s q es) (a ++ vs)) -> sem J s K.
Proof. intros. left. exists vs, q, es. auto. Qed.
Lemma sem_dret J s K s' vs : dirty s' -> wsf s' = true ->
  (forall k a, k_nows k = false -> K k a = k_fn k s' (a ++ vs)) -> sem J s K.
Proof. intros Hd Hw HK. right. intros k a Hk. rewrite HK by apply Hk. now apply Hk. Qed.
Lemma sem_dres J s K : (forall k a, k_nows k = false -> dres (K k a)) -> sem J s K.
Proof. intros H. right. intros k a Hk. apply H. apply Hk. Qed.
Lemma sem_dres' (J : list val -> nat -> Prop) s K : (forall k a, dk k -> dres (K k a)) -> sem J s K.
Proof. now right. Qed.
Lemma sem_mono (J J' : list val -> nat -> Prop) s K : (forall vs q, J vs q -> J' vs q) -> sem J s K -> sem J' s K.
Proof. intros HJ [(vs & q & es & Hc & H & HK)|H]; [left; exists vs, q, es; auto|now right]. Qed.
Lemma sem_ext J s K K' : (forall k a, k_nows k = false -> K' k a = K k a) -> sem J s K -> sem J s K'.
Proof.
  intros HX [(vs & q & es & Hc & H & HK)|H].
  - left. exists vs, q, es. repeat split; auto. intros. rewrite HX by assumption. auto.
  - right. intros k a Hk. rewrite HX by apply Hk. auto.
Qed.
Lemma sem_pre J s q es K : clean es -> sem J (go s q es) K -> sem J s K.
Proof.
  intros Hc [(vs & q' & es' & Hc' & H & HK)|H]; [left|now right].
  exists vs, q', (es' ++ es). split; [now apply clean_app|split; [assumption|]]. intros. rewrite HK by assumption. now rewrite go_go.
Qed.
Lemma dsem_pre J s q es X : clean es -> dsem J (go s q es) X -> dsem J s X.
Proof.
  intros Hc [(vs & q' & es' & Hc' & H & ->)|H]; [left|now right].
  exists vs, q', (es' ++ es). split; [now apply clean_app|split; [assumption|]]. now rewrite go_go.
Qed.
Lemma dsem_mono (J J' : list val -> nat -> Prop) s X : (forall vs q, J vs q -> J' vs q) -> dsem J s X -> dsem J' s X.
Proof. intros HJ [(vs & q & es & Hc & H & HK)|H]; [left; exists vs, q, es; auto|now right]. Qed.
Lemma sem_args (J J' : list val -> nat -> Prop) s P v : sem J s P -> (forall vs q, J vs q -> J' (v ++ vs) q) ->
  sem J' s (fun k a => P k (a ++ v)).
Proof.
  intros [(vs & q & es & Hc & H & HK)|H] HJ.
  - left. exists (v ++ vs), q, es. repeat split; auto. intros. now rewrite HK, app_assoc.
  - right. auto.
Qed.

Lemma sem_bind (J1 : list val -> nat -> Prop) (J2 : nat -> nat -> list val -> nat -> Prop) (J : list val -> nat -> Prop) s P F :
  sem J1 s P -> wsf s = true -> (forall k, k_nows k = false -> k_nows (F k) = false) ->
  (forall s1, wsf s1 = true -> sem (J2 (depth s1) (pos s1)) s1 (fun k a => k_fn (F k) s1 a)) ->
  (forall v q vs q', J1 v q -> J2 (depth s) q vs q' -> J (v ++ vs) q') ->
  sem J s (fun k a => P (F k) a).
Proof.
  intros HP Hw HF H2 HJ. destruct HP as [(v & q & es & Hc & H1 & HK)|HP].
  - destruct (H2 (go s q es) Hw) as [(vs & q' & es' & Hc' & H3 & HK')|Hd].
    + left. exists (v ++ vs), q', (es' ++ es). split; [now apply clean_app|split; [now apply (HJ v q)|]].
      intros k a Hk. rewrite HK by auto. rewrite HK' by auto. now rewrite go_go, app_assoc.
    + right. intros k a Hk. rewrite HK by (apply HF, Hk). now apply Hd.
  - right. intros k a Hk. apply HP. split; [apply HF, Hk|]. intros s1 a1 Hd1 Hw1.
    apply (sem_dirty _ _ _ k a1 (H2 s1 Hw1) Hd1 Hw1 Hk).
Qed.
Lemma sem_final J s P : sem J s P -> dsem J s (P final []).
Proof.
  intros [(vs & q & es & Hc & H1 & HK)|H]; [left|right; apply H, dk_final].
  exists vs, q, es. repeat split; auto. now rewrite HK.
Qed.
Lemma sem_delim (J1 : list val -> nat -> Prop) (J2 : list val -> nat -> nat -> list val -> nat -> Prop) (J : list val -> nat -> Prop) s X f :
  dsem J1 s X -> wsf s = true ->
  (forall s1 v, wsf s1 = true -> sem (J2 v (depth s1) (pos s1)) s1 (fun k a => f k a s1 v)) ->
  (forall v q vs q', J1 v q -> J2 v (depth s) q vs q' -> J vs q') ->
  sem J s (fun k a => delim X (f k a)).
Proof.
  intros [(v & q & es & Hc & H1 & ->)|HX] Hw H2 HJ.
  - cbn [delim]. apply (sem_pre _ _ q es _ Hc). apply sem_mono with (2 := H2 (go s q es) v Hw).
    intros vs q'. now apply HJ.
  - right. intros k a Hk. destruct X as [[] s1 m| |]; cbn [delim]; auto; try exact I.
    destruct HX as [Hd1 Hw1]. apply (sem_dirty _ _ _ k a (H2 s1 vs Hw1) Hd1 Hw1 Hk).
Qed.
Lemma dsem_orelse (J1 : list val -> nat -> Prop) (J2 : list val -> nat -> nat -> list val -> nat -> Prop) (J : list val -> nat -> Prop) s X f g :
  dsem J1 s X -> wsf s = true ->
  (forall s1 v, wsf s1 = true -> dsem (J2 v (depth s1) (pos s1)) s1 (f s1 v)) ->
  (forall s1, dirty s1 -> wsf s1 = true -> dres (g s1)) ->
  (forall v q vs q', J1 v q -> J2 v (depth s) q vs q' -> J vs q') ->
  dsem J s (orelse X f g).
Proof.
  intros [(v & q & es & Hc & H1 & ->)|HX] Hw H2 Hg HJ.
  - cbn [orelse]. apply (dsem_pre _ _ q es _ Hc). apply dsem_mono with (2 := H2 (go s q es) v Hw).
    intros vs q'. now apply HJ.
  - right. destruct X as [[] s1 m| |]; cbn [orelse]; auto; try exact I; destruct HX as [Hd1 Hw1]; auto.
    apply (dsem_dirty _ _ _ (H2 s1 vs Hw1) Hd1 Hw1).
Qed.
Lemma dsem_delim (J1 : list val -> nat -> Prop) (J2 : list val -> nat -> nat -> list val -> nat -> Prop) (J : list val -> nat -> Prop) s X f :
  dsem J1 s X -> wsf s = true ->
  (forall s1 v, wsf s1 = true -> dsem (J2 v (depth s1) (pos s1)) s1 (f s1 v)) ->
  (forall v q vs q', J1 v q -> J2 v (depth s) q vs q' -> J vs q') ->
  dsem J s (delim X f).
Proof.
  intros HX Hw H2 HJ.
  pose proof (dsem_orelse J1 J2 J s X f (fun s => Res OFalse s 0) HX Hw H2 (fun _ a b => conj a b) HJ) as H.
  destruct X as [[]| |]; exact H.
Qed.

Section Sound.
Variable inp : list N.
Variable prods : nat -> production.
Hypothesis HG : described_grammar prods.
Notation D := (Derives inp prods).
Notation Cond := (Cond inp prods).
Notation eng := (eng inp prods).

Definition okw (c : cx) : Prop := forall w, cx_ws c = Some w -> described (strip_ws w).
Definition oksep (o : option (rule * sepk)) : Prop := match o with Some (r, _) => described r | None => True end.
Definition okrec (o : option rule) : Prop :=
  match o with
  | None | Some (RFind _) => True
  | Some (RReco _ bs) => Forall described bs
  | Some r => described r
  end.

Lemma described_all rs : (fix all (rs : list rule) : Prop := match rs with [] => True | r :: rs => described r /\ all rs end) rs ->
  Forall described rs.
Proof. induction rs as [|r rs IH]; intros H; constructor; [apply H|apply IH, H]. Qed.
Lemma described_chc rs : described (RChc rs) -> Forall described rs.
Proof. apply described_all. Qed.
Lemma described_seq rs : described (RSeq rs) -> Forall described rs.
Proof. apply described_all. Qed.
Lemma described_br b rs : described (RBr b rs) -> described b /\ Forall described rs.
Proof. intros [H1 H2]. split; [exact H1|now apply described_all]. Qed.
Lemma described_tryt te r re : described (RTryT te r re) ->
  match te with Some t => described t | None => True end /\ described r /\ okrec re.
Proof.
  intros (H1 & H2 & H3). split; [exact H1|split; [exact H2|]]. destruct re as [[]|]; auto. now apply described_all.
Qed.
Lemma described_try r re : described (RTry r re) -> described r /\ okrec re.
Proof. intros (H2 & H3). split; [exact H2|]. destruct re as [[]|]; auto. now apply described_all. Qed.
Lemma all_described rs : Forall described rs -> described (RChc rs).
Proof. cbn. induction 1; auto. Qed.
Lemma described_alts bs : Forall described bs -> described (alts_of bs).
Proof.
  intros H. unfold alts_of. destruct H as [|b bs Hb Hbs]; [exact I|]. destruct Hbs; [exact Hb|].
  apply all_described. constructor; auto.
Qed.

(** ** Conditions *)
Lemma search_Ahead f n : forall p, p + n = Nat.max p (length inp) -> Ahead inp f p (fst (fst (search inp f n p))).
Proof.
  induction n as [|n IH]; intros p Hp; cbn [search]; destruct (fd_try f inp p) as [[[|] e]|] eqn:HE; try (eapply Ahead_here; exact HE).
  - apply Ahead_end; [exact HE|lia].
  - apply Ahead_later; [exact HE|lia|]. apply IH. lia.
Qed.
Lemma search_from_Ahead f p : Ahead inp f p (fst (fst (search_from inp f p))).
Proof. apply search_Ahead. lia. Qed.
Lemma try_cond n : forall r vs p ok b, described r -> e_try (eng n) r vs p = BR ok b -> Cond r p ok.
Proof.
  induction n as [|n IH]; intros r vs p ok b Hr; [discriminate|]. cbn [RuleModel.eng step e_try].
  destruct r; cbn [try_step]; try discriminate; try (exfalso; exact Hr).
  - intros [= <- _]. constructor.
  - apply described_br in Hr. intros H. constructor. eapply IH; eauto. apply Hr.
  - intros [= <- _]. constructor.
  - apply described_chc in Hr. revert b. generalize 0. induction Hr as [|r rs Hr Hrs IHr]; intros i b; cbn [t_chc].
    + intros [= <- _]. constructor.
    + destruct (e_try (eng n) r vs p) as [[|] b1| |] eqn:H1; try discriminate.
      * intros [= <- _]. apply C_chc_hit. eapply IH; eauto.
      * destruct (t_chc (eng n) rs (S i) vs p) as [ok2 b2| |] eqn:H2; try discriminate.
        specialize (IHr (S i)). rewrite H2 in IHr. intros H3. apply C_chc_miss; [eapply IH; eauto|].
        destruct b2; try (injection H3 as <- _; eapply IHr; reflexivity).
  - intros [= <- _]. constructor.
  - intros H. constructor. eapply IH; eauto.
  - intros H. constructor. eapply IH; eauto. apply Hr.
  - intros H. constructor. eapply IH; eauto. apply Hr.
  - destruct (e_try (eng n) (p_rule (prods p0)) vs p) as [ok1 b1| |] eqn:H1; try discriminate.
    intros [= <- _]. constructor. eapply IH; eauto. apply HG.
  - intros H. constructor. eapply IH; eauto.
  - destruct r; try (exfalso; exact Hr). cbn [tmatch]. intros [= <- _]. constructor.
  - destruct r; try (exfalso; exact Hr). cbn [tmatch]. intros [= <- _]. constructor.
  - pose proof (search_from_Ahead f p) as HA. destruct (search_from inp f p) as [[ok1 b1] e1]. intros [= <- _]. constructor. exact HA.
  - intros H. constructor. eapply IH; eauto. apply Hr.
  - intros H. constructor. eapply IH; eauto.
  - destruct r; try (exfalso; exact Hr). cbn [tmatch]. intros [= <- _]. constructor.
  - intros [= <- _]. constructor.
  - intros H. constructor. eapply IH; eauto.
  - destruct r; try (exfalso; exact Hr). cbn [tmatch]. intros H.
    assert (Hok : ok = symbol_at inp t f p) by (unfold symbol_at; destruct (tk_try t inp p) as [[|] e]; injection H as <- _; reflexivity).
    subst ok. constructor.
Qed.

Lemma cancel_clean n r b es : e_cancel (eng n) r b = Some es -> clean (rev es).
Proof. intros H. apply clean_rev. apply debug_noerr. eapply Cancels_debug. eapply cancel_Cancels. exact H. Qed.

Definition fits (r : rule) (p : nat) (b : bst) : Prop := exists m vs, e_try (eng m) r vs p = BR true b.

Definition trails (c : cx) (d : nat) te i sr k p (l : list (list val)) q : Prop :=
  (Cond te p true /\ silent_trailing k /\ l = [] /\ q = p) \/
  (Cond te p false /\ exists v q2 l2, D c d (JR false i) p v q2 /\ D c d (JT te i (Some (sr, k))) q2 [VSink l2] q /\ l = one v ++ l2).
Definition items c d te i sep p (l : list (list val)) q : Prop :=
  exists v q2 l2, D c d (JR false i) p v q2 /\ D c d (JT te i sep) q2 [VSink l2] q /\ l = one v ++ l2.
Definition sinks (acc : list (list val)) (J : list (list val) -> nat -> Prop) (vs : list val) (q : nat) : Prop :=
  exists l, vs = [VSink (acc ++ l)] /\ J l q.

(** The rules of a combination: [h] marks the ones in [used]. *)
Definition agree (rs : list rule) (h : list bool) (used : list nat) : Prop :=
  length h = length rs /\ forall i, i < length rs -> nth i h false = true <-> In i used.
Definition sized (els : option rule) (rs : list rule) : Prop := els <> None \/ 2 <= length rs.
Definition okelse (els : option rule) : Prop :=
  match els with None | Some RBreak | Some (RErr _ _) => True | _ => False end.
Definition elsl (els : option rule) : list rule := match els with None => [] | Some e => [e] end.
Definition head_of (r : rule) : rule := match r with RBr b _ => b | _ => r end.
Definition tail_of (r : rule) : list rule := match r with RBr _ l => l | _ => [] end.

Lemma set_nth_length i : forall h, length (set_nth i h) = length h.
Proof. induction i as [|i IH]; intros [|b h]; cbn; auto. Qed.
Lemma set_nth_get i : forall h j, j < length h -> nth j (set_nth i h) false = if j =? i then true else nth j h false.
Proof.
  induction i as [|i IH]; intros [|b h] j Hj; cbn in *; try lia; destruct j as [|j]; cbn; auto. apply IH. lia.
Qed.
Lemma agree_next rs h used i : agree rs h used -> agree rs (set_nth i h) (i :: used).
Proof.
  intros [H1 H2]. split; [now rewrite set_nth_length|]. intros j Hj. rewrite set_nth_get by lia. cbn [In].
  destruct (Nat.eqb_spec j i) as [->|Hn]; [tauto|]. rewrite (H2 j Hj). split; [auto|intros [<-|H]; [now destruct Hn|exact H]].
Qed.
Lemma agree_start rs : agree rs (repeat false (length rs)) [].
Proof. split; [apply repeat_length|]. intros i _. rewrite nth_repeat. split; [discriminate|intros []]. Qed.
Lemma comb_alts_cons i r rs : comb_alts i (r :: rs) = RBr (head_of r) (tail_of r ++ [RCombIt i]) :: comb_alts (S i) rs.
Proof. destruct r; reflexivity. Qed.
Lemma described_parts r : described r -> described (RBr (head_of r) (tail_of r)).
Proof. intros H. destruct r; try exact H; (split; [exact H|exact I]). Qed.
Lemma D_parts c d t0 r p v q : D c d (JR t0 (RBr (head_of r) (tail_of r))) p v q -> D c d (JR t0 r) p v q.
Proof.
  intros H. destruct r; try exact H; inversion H; subst;
    match goal with H : D _ _ (JS _) _ _ _ |- _ => inversion H; subst end; rewrite app_nil_r; assumption.
Qed.
Lemma Cond_parts r p ok : Cond (RBr (head_of r) (tail_of r)) p ok <-> Cond r p ok.
Proof. split; intros H; destruct r; try exact H; try (inversion H; subst; assumption); now constructor. Qed.
Lemma try_br m h x y vs p : e_try (eng m) (RBr h x) vs p = e_try (eng m) (RBr h y) vs p.
Proof. destruct m; reflexivity. Qed.
Lemma cancel_br m h x y b : e_cancel (eng m) (RBr h x) b = e_cancel (eng m) (RBr h y) b.
Proof. destruct m; reflexivity. Qed.
Lemma seq_cont_app E c l1 l2 k : seq_cont E c (l1 ++ l2) k = seq_cont E c l1 (seq_cont E c l2 k).
Proof. induction l1 as [|r l1 IH]; cbn [app seq_cont]; [reflexivity|now rewrite IH]. Qed.
Lemma comb_alts_length rs : forall i, length (comb_alts i rs) = length rs.
Proof. induction rs as [|r rs IH]; intros i; [reflexivity|]. rewrite comb_alts_cons. cbn. now rewrite IH. Qed.
Lemma comb_choice_chc els rs : sized els rs -> 0 < length rs -> comb_choice els rs = RChc (comb_alts 0 rs ++ elsl els).
Proof.
  intros H1 H2. unfold comb_choice, elsl. set (l := comb_alts 0 rs ++ _).
  assert (Hl : 2 <= length l).
  { unfold l. rewrite app_length, comb_alts_length. destruct els; cbn; [lia|]. destruct H1 as [H1|H1]; [now destruct H1|lia]. }
  destruct l as [|x [|y l]]; cbn in Hl; try lia. reflexivity.
Qed.
Lemma described_comb dup els rs : described (RComb dup els rs) -> Forall described rs /\ okelse els /\
  (sized els rs \/ (els = None /\ exists r, rs = [r])).
Proof.
  intros [H1 H2]. split; [now apply described_all|]. unfold sized. destruct els as [[]|]; try contradiction; split; try exact I;
    try (left; left; discriminate). destruct rs as [|r [|r2 rs]]; cbn in H2 |- *; [lia|right; eauto|left; right; lia].
Qed.
Lemma comb_choice_one r : comb_choice None [r] = RBr (head_of r) (tail_of r ++ [RCombIt 0]).
Proof. unfold comb_choice. rewrite comb_alts_cons. reflexivity. Qed.

(** An alternative of a loop. *)
Definition okalt (r : rule) : Prop := match before_break r with Some r' => described r' | None => described r end.
Lemma upto_break l : (fix upto (rs : list rule) : Prop :=
    match rs with [] | [RBreak] => True | r :: rs => described r /\ upto rs end) l ->
  Forall described l \/ exists t, l = t ++ [RBreak] /\ Forall described t.
Proof.
  induction l as [|r l IH]; [left; constructor|]. intros H.
  assert (HH : (r = RBreak /\ l = []) \/ (described r /\ (fix upto (rs : list rule) : Prop :=
    match rs with [] | [RBreak] => True | r :: rs => described r /\ upto rs end) l)).
  { destruct r; try (right; exact H). destruct l; [left; auto|right; exact H]. }
  destruct HH as [[-> ->]|[Hr Hl]]; [right; exists []; split; [reflexivity|constructor]|].
  destruct (IH Hl) as [Hd|(t & -> & Ht)]; [left; now constructor|right]. exists (r :: t). split; [reflexivity|now constructor].
Qed.
Lemma described_loop rs : described (RLoop (RChc rs)) -> Forall okalt rs.
Proof.
  cbn [described]. induction rs as [|r rs IH]; intros H; constructor; [|apply IH; apply H].
  destruct H as [H _]. unfold okalt. destruct r; cbn [before_break]; try exact H.
  destruct H as [Hb Hl]. destruct (upto_break _ Hl) as [Hd|(t & -> & Ht)].
  - destruct (rev rs0) as [|x t] eqn:Hr.
    + cbn [described]. split; [exact Hb|]. exact (all_described _ Hd).
    + assert (Hx : described x) by (rewrite Forall_forall in Hd; apply Hd, in_rev; rewrite Hr; now left).
      destruct x; try (split; [exact Hb|exact (all_described _ Hd)]). contradiction.
  - rewrite rev_app_distr. cbn [rev app]. rewrite rev_involutive. split; [exact Hb|exact (all_described _ Ht)].
Qed.
Lemma break_shape r r' : before_break r = Some r' -> (r = RBreak /\ r' = RElse) \/ exists b t, r = RBr b (t ++ [RBreak]) /\ r' = RBr b t.
Proof.
  destruct r; try discriminate; cbn [before_break]; [|intros [= <-]; auto].
  destruct (rev rs) as [|x t] eqn:Hr; [discriminate|]. destruct x; try discriminate. intros [= <-]. right. exists r, (rev t).
  split; [|reflexivity]. f_equal. rewrite <- (rev_involutive rs), Hr. reflexivity.
Qed.

Record sound (E : engine) : Prop := {
  s_parse : forall c r s, described r -> okw c -> wsf s = true ->
    sem (D c (depth s) (JR false r) (pos s)) s (fun k a => e_parse E c r k s a);
  s_finish : forall c r b s, described r -> okw c -> wsf s = true -> fits r (pos s) b ->
    sem (D c (depth s) (JR true r) (pos s)) s (fun k a => e_finish E c r b k s a);
  s_ws : forall t p b e, e_wsloop E (RTok t) p = TR b e -> D sub_cx 0 (JL (RTok t)) p [] e;
  s_loop : forall w s, described w -> wsf s = true ->
    dsem (fun vs q => vs = [] /\ D sub_cx (depth s) (JL w) (pos s) [] q) s (e_parse E sub_cx (RLoop (chc_or w RBreak)) final s []);
  s_lst : forall c i sep s acc, described i -> oksep sep -> okw c -> wsf s = true ->
    dsem (sinks acc (fun l q => D c (depth s) (JM i sep) (pos s) [VSink l] q)) s (e_lst E c i sep s acc);
  s_lstt : forall c te i sep lim ls sp s acc, described te -> described i -> oksep sep -> okw c -> wsf s = true ->
    let X := e_lstt E c te i sep lim ls sp s acc in
    match ls with
    | LTerm => dsem (sinks acc (fun l q => D c (depth s) (JT te i sep) (pos s) [VSink l] q)) s X
    | LSep => Cond te (pos s) false -> dsem (sinks acc (fun l q => D c (depth s) (JT te i sep) (pos s) [VSink l] q)) s X
    | LTrail => match sep with
      | Some (sr, k) => dsem (sinks acc (fun l q => trails c (depth s) te i sr k (pos s) l q)) s X
      | None => True end
    | LItem => dsem (sinks acc (fun l q => items c (depth s) te i sep (pos s) l q)) s X
    | _ => dirty s -> dres X
    end;
  s_flags : forall c r t z s, described r -> okw c -> wsf s = true ->
    dsem (D c (depth s) (JF r z) (pos s)) s (e_flags E c r t z s);
  s_comb : forall c dup els rs used h s acc, Forall described rs -> okelse els -> sized els rs -> okw c -> wsf s = true ->
    agree rs h used -> dsem (sinks acc (fun l q => D c (depth s) (JC els rs used) (pos s) [VSink l] q)) s
      (e_comb E c dup (comb_choice els rs) (length rs) (length used) h s acc);
  s_reco : forall c lim al b s k a, described al -> okw c -> wsf s = true -> dirty s -> dk k ->
    dres (e_reco E c lim al b k s a);
  s_recov : forall c rec s k a, okrec rec -> okw c -> wsf s = true -> dirty s -> dk k ->
    dres (try_recover E c rec k s a)
}.

(** ** Branches *)
Lemma sem_orelse (J1 : list val -> nat -> Prop) (J2 : list val -> nat -> nat -> list val -> nat -> Prop) (J : list val -> nat -> Prop) s X f g :
  dsem J1 s X -> wsf s = true ->
  (forall s1 v, wsf s1 = true -> sem (J2 v (depth s1) (pos s1)) s1 (fun k a => f k a s1 v)) ->
  (forall s1 k a, dirty s1 -> wsf s1 = true -> dk k -> dres (g k a s1)) ->
  (forall v q vs q', J1 v q -> J2 v (depth s) q vs q' -> J vs q') ->
  sem J s (fun k a => orelse X (f k a) (g k a)).
Proof.
  intros [(v & q & es & Hc & H1 & ->)|HX] Hw H2 Hg HJ.
  - cbn [orelse]. apply (sem_pre _ _ q es _ Hc). apply sem_mono with (2 := H2 (go s q es) v Hw).
    intros vs q'. now apply HJ.
  - right. intros k a Hk. destruct X as [[] s1 m| |]; cbn [orelse]; auto; try exact I; destruct HX as [Hd1 Hw1]; auto.
    apply (sem_dirty _ _ _ k a (H2 s1 vs Hw1) Hd1 Hw1 Hk).
Qed.
Lemma sem_crash J s : sem J s (fun _ _ => Crash).
Proof. right. intros. exact I. Qed.
Lemma sem_nofuel J s : sem J s (fun _ _ => NoFuel).
Proof. right. intros. exact I. Qed.

Lemma sem_try n J s r (G N : bst -> cont -> list val -> res) : described r ->
  (forall b, Cond r (pos s) true -> fits r (pos s) b -> sem J s (G b)) ->
  (forall b, Cond r (pos s) false -> sem J s (N b)) ->
  sem J s (fun k a => match e_try (eng n) r (vars s) (pos s) with
    | BR true b => G b k a | BR false b => N b k a | BNoFuel => NoFuel | BCrash => Crash end).
Proof.
  intros Hr HG0 HN. destruct (e_try (eng n) r (vars s) (pos s)) as [[|] b| |] eqn:HE.
  - apply HG0; [eapply try_cond; eauto|exists n, (vars s); exact HE].
  - apply HN. eapply try_cond; eauto.
  - apply sem_nofuel.
  - apply sem_crash.
Qed.
Lemma dsem_try n J s r (G N : bst -> res) : described r ->
  (forall b, Cond r (pos s) true -> fits r (pos s) b -> dsem J s (G b)) ->
  (forall b, Cond r (pos s) false -> dsem J s (N b)) ->
  dsem J s (match e_try (eng n) r (vars s) (pos s) with
    | BR true b => G b | BR false b => N b | BNoFuel => NoFuel | BCrash => Crash end).
Proof.
  intros Hr HG0 HN. destruct (e_try (eng n) r (vars s) (pos s)) as [[|] b| |] eqn:HE; try (right; exact I).
  - apply HG0; [eapply try_cond; eauto|exists n, (vars s); exact HE].
  - apply HN. eapply try_cond; eauto.
Qed.
Lemma dres_try n s r (G N : bst -> res) :
  (forall b, fits r (pos s) b -> dres (G b)) -> (forall b, dres (N b)) ->
  dres (match e_try (eng n) r (vars s) (pos s) with
    | BR true b => G b | BR false b => N b | BNoFuel => NoFuel | BCrash => Crash end).
Proof.
  intros HG0 HN. destruct (e_try (eng n) r (vars s) (pos s)) as [[|] b| |] eqn:HE; try exact I; auto.
  apply HG0. exists n, (vars s). exact HE.
Qed.
Lemma sem_cancel n J s r b (f : cont -> list val -> st -> res) :
  (forall s1, depth s1 = depth s -> pos s1 = pos s -> wsf s1 = wsf s -> sem J s1 (fun k a => f k a s1)) ->
  sem J s (fun k a => cancel_then (eng n) r b s (f k a)).
Proof.
  intros H. unfold cancel_then. destruct (e_cancel (eng n) r b) as [es|] eqn:HE; [|apply sem_nofuel].
  apply cancel_clean in HE. apply (sem_pre _ _ (pos s) (rev es) _ HE). apply H; reflexivity.
Qed.
Lemma dsem_cancel n J s r b (f : st -> res) :
  (forall s1, depth s1 = depth s -> pos s1 = pos s -> wsf s1 = wsf s -> dsem J s1 (f s1)) ->
  dsem J s (cancel_then (eng n) r b s f).
Proof.
  intros H. unfold cancel_then. destruct (e_cancel (eng n) r b) as [es|] eqn:HE; [|right; exact I].
  apply cancel_clean in HE. apply (dsem_pre _ _ (pos s) (rev es) _ HE). apply H; reflexivity.
Qed.
Lemma dres_cancel n s r b (f : st -> res) : dirty s ->
  (forall s1, dirty s1 -> depth s1 = depth s -> pos s1 = pos s -> wsf s1 = wsf s -> dres (f s1)) ->
  dres (cancel_then (eng n) r b s f).
Proof.
  intros Hd H. unfold cancel_then. destruct (e_cancel (eng n) r b) as [es|] eqn:HE; [|exact I].
  apply H; try reflexivity. now apply (dirty_go s (pos s) (rev es)).
Qed.
Lemma dres_orelse X f g : dres X -> (forall s v, dirty s -> wsf s = true -> dres (f s v)) ->
  (forall s, dirty s -> wsf s = true -> dres (g s)) -> dres (orelse X f g).
Proof. intros HX Hf Hg. destruct X as [[] s m| |]; cbn; try exact I; destruct HX; auto. Qed.
Lemma dres_delim X f : dres X -> (forall s v, dirty s -> wsf s = true -> dres (f s v)) -> dres (delim X f).
Proof. intros HX Hf. destruct X as [[] s m| |]; cbn; try exact I; destruct HX; auto. Qed.

Lemma sem_now (J : list val -> nat -> Prop) s vs : J vs (pos s) -> sem J s (fun k a => k_fn k s (a ++ vs)).
Proof. intros H. apply (sem_ret _ s _ (pos s) [] vs); [reflexivity|assumption|]. intros. now rewrite go_id. Qed.
Lemma sem_now0 (J : list val -> nat -> Prop) s : J [] (pos s) -> sem J s (fun k a => k_fn k s a).
Proof. intros H. apply (sem_ext _ _ (fun k a => k_fn k s (a ++ []))); [intros; now rewrite app_nil_r|now apply sem_now]. Qed.

(** ** Whitespace *)
Definition wsj (w : option rule) (p : nat) (vs : list val) (q : nat) : Prop :=
  vs = [] /\ match w with None => q = p | Some w => D (Cx None 0) 0 (JL (strip_ws w)) p [] q end.
Lemma wsj_D c d p vs q : wsj (cx_ws c) p vs q -> D c d JW p [] q.
Proof.
  intros [_ H]. destruct (cx_ws c) as [w|] eqn:HE; [eapply D_ws; eauto|subst q; now apply D_ws_none].
Qed.
Lemma wsj_nil w p vs q : wsj w p vs q -> vs = [].
Proof. now intros [H _]. Qed.

Lemma sem_ws n (S : sound (eng n)) c s : okw c -> wsf s = true ->
  sem (wsj (cx_ws c) (pos s)) s (fun k a => ws_then (eng n) c k s a).
Proof.
  intros Hw Hf. unfold ws_then. destruct (cx_ws c) as [w|] eqn:HE; [|apply sem_now0; now split].
  specialize (Hw w HE). rewrite Hf. unfold skip_ws. destruct (token_rule (strip_ws w)) eqn:Ht.
  - destruct (strip_ws w) as [] eqn:Hsw; try discriminate; try (exfalso; exact Hw).
    destruct (e_wsloop (eng n) (RTok t) (pos s)) as [b e| |] eqn:Hl.
    + apply (sem_ret _ s _ e [EToken KWhitespace (pos s) e] []); [reflexivity| |].
      * split; [reflexivity|]. rewrite Hsw. eapply s_ws; eauto.
      * intros k a Hk. rewrite Hk, app_nil_r. reflexivity.
    + right. intros k a [Hk _]. rewrite Hk. exact I.
    + right. intros k a [Hk _]. rewrite Hk. exact I.
  - destruct (s_loop _ S (strip_ws w) (sub_st (pos s)) Hw eq_refl) as [(vs & q & es & Hc & (-> & HD) & HX)|HX].
    + rewrite HX. apply (sem_ret _ s _ q [EToken KWhitespace (pos s) q] []); [reflexivity|now split|].
      intros k a Hk. rewrite Hk, app_nil_r. cbn [go sub_st trace orb negb]. rewrite app_nil_r, clean_filter by assumption. reflexivity.
    + right. intros k a Hk. destruct Hk as [Hk Hk2]. rewrite Hk. cbn [orb negb].
      destruct (e_parse (eng n) sub_cx (RLoop (chc_or (strip_ws w) RBreak)) final (sub_st (pos s)) []) as [[] t m| |]; try exact I;
        destruct HX as [Hd Hwt].
      * split; [|exact Hf]. unfold dirty. cbn. rewrite rev_involutive, existsb_app. apply orb_true_intro. left.
        apply existsb_exists in Hd. destruct Hd as (x & Hx & He). apply existsb_exists. exists x. split; auto. now apply filter_In.
      * apply Hk2; [|exact Hf]. unfold dirty. cbn. rewrite rev_involutive, existsb_app. apply orb_true_intro. left.
        apply existsb_exists in Hd. destruct Hd as (x & Hx & He). apply existsb_exists. exists x. split; auto. now apply filter_In.
Qed.

Lemma sem_start (J1 : list val -> nat -> Prop) (J2 : nat -> nat -> list val -> nat -> Prop) (J : list val -> nat -> Prop) s P body :
  sem J1 s P -> wsf s = true ->
  (forall s1, wsf s1 = true -> dsem (J2 (depth s1) (pos s1)) s1 (body s1)) ->
  (forall v q vs q', J1 v q -> J2 (depth s) q vs q' -> J vs q') ->
  dsem J s (P (Cont false (fun s _ => body s)) []).
Proof.
  intros [(v & q & es & Hc & H1 & HK)|HP] Hw H2 HJ.
  - rewrite HK by reflexivity. cbn [k_fn]. apply (dsem_pre _ _ q es _ Hc).
    apply dsem_mono with (2 := H2 (go s q es) Hw). intros vs q'. eapply HJ; eauto.
  - right. apply HP. split; [reflexivity|]. intros s1 a1 Hd1 Hw1. cbn [k_fn]. eapply dsem_dirty; eauto.
Qed.

(** ** The rules *)
Section Step.
Variable n : nat.
Hypothesis S : sound (eng n).

Lemma okw_child c q : okw c -> okw (child_cx prods c q).
Proof.
  unfold child_cx, okw. cbn. intros Hc w. destruct (HG q) as [_ Hq].
  destruct (p_token (prods q)); [apply Hq|]. destruct (p_ws (prods q)); [intros [= <-]; now apply Hq|apply Hc].
Qed.
Lemma child_inner c q : child_cx prods c q = inner prods c q.
Proof. unfold child_cx, inner. destruct (p_token (prods q)), (p_ws (prods q)); reflexivity. Qed.

Lemma seq_nows c rs k : k_nows k = false -> k_nows (seq_cont (eng n) c rs k) = false.
Proof. intros Hk. induction rs as [|r rs IH]; cbn; auto. rewrite IH. apply andb_false_r. Qed.
Lemma seq_sem c rs : Forall described rs -> okw c -> forall s, wsf s = true ->
  sem (D c (depth s) (JS rs) (pos s)) s (fun k a => k_fn (seq_cont (eng n) c rs k) s a).
Proof.
  intros Hrs Hc. induction Hrs as [|r rs Hr Hrs IH]; intros s Hs; cbn [seq_cont k_fn].
  - apply sem_now0. constructor.
  - apply (sem_bind _ (fun d p vs q => D c d (JS rs) p vs q) _ s (fun k a => e_parse (eng n) c r k s a) (seq_cont (eng n) c rs)
             (s_parse _ S c r s Hr Hc Hs) Hs); auto using seq_nows.
    intros. econstructor; eauto.
Qed.

Lemma chc_sem c u rs : Forall described rs -> okw c -> forall s, wsf s = true ->
  sem (D c (depth s) (JR false (RChc rs)) (pos s)) s (fun k a => p_chc (eng n) c u rs k s a).
Proof.
  intros Hrs Hc. induction Hrs as [|r rs Hr Hrs IH]; intros s Hs; cbn [p_chc].
  - apply sem_dres. intros k a _. destruct u; [exact I|]. split; [reflexivity|exact Hs].
  - unfold branch_or. apply sem_try; auto; intros b Hcond.
    + intros Hb. eapply sem_mono; [|apply s_finish; eauto]. intros. now apply D_chc_hit.
    + apply sem_cancel. intros s1 Hd Hp Hw. eapply sem_mono; [|apply IH; congruence]. cbn beta. rewrite Hd, Hp.
      intros. now apply D_chc_miss.
Qed.

Lemma t_chc_shape m rs : forall i vs p ok b, t_chc (eng m) rs i vs p = BR ok b -> exists j bs, b = BChc j bs /\ i <= j.
Proof.
  induction rs as [|r rs IH]; intros i vs p ok b; cbn [t_chc].
  - intros [= _ <-]. eauto.
  - destruct (e_try (eng m) r vs p) as [[|] b1| |]; try discriminate.
    + intros [= _ <-]. eauto.
    + destruct (t_chc (eng m) rs (Datatypes.S i) vs p) as [ok2 b2| |] eqn:H2; try discriminate.
      destruct (IH _ _ _ _ _ H2) as (j & bs & -> & Hj). intros [= _ <-]. exists j, (b1 :: bs). split; [reflexivity|lia].
Qed.
Lemma fchc_sem m vs c rs : Forall described rs -> okw c -> forall i0 i bs s, wsf s = true ->
  t_chc (eng m) rs i0 vs (pos s) = BR true (BChc i bs) ->
  sem (D c (depth s) (JR true (RChc rs)) (pos s)) s (fun k a => f_chc (eng n) c rs (i - i0) bs k s a).
Proof.
  intros Hrs Hc. induction Hrs as [|r rs Hr Hrs IH]; intros i0 i bs s Hs; cbn [t_chc f_chc]; [discriminate|].
  destruct (e_try (eng m) r vs (pos s)) as [[|] b1| |] eqn:H1; try discriminate.
  - intros [= <- <-]. rewrite Nat.sub_diag. cbn [hd]. eapply sem_mono; [|apply s_finish; eauto; exists m, vs; exact H1].
    intros. apply D_chc_hit; auto. eapply try_cond; eauto.
  - destruct (t_chc (eng m) rs (Datatypes.S i0) vs (pos s)) as [ok2 b2| |] eqn:H2; try discriminate.
    destruct (t_chc_shape _ _ _ _ _ _ _ H2) as (j & bs2 & -> & Hj). intros [= -> -> <-].
    replace (i - i0) with (Datatypes.S (i - Datatypes.S i0)) by lia. cbn [hd tl].
    apply sem_cancel. intros s1 Hd Hp Hw. eapply sem_mono; [|eapply (IH (Datatypes.S i0)); [congruence|rewrite Hp; exact H2]].
    cbn beta. rewrite Hd, Hp. intros. apply D_chc_miss; auto. eapply try_cond; eauto.
Qed.

Lemma err_dres t r s : wsf s = true -> dres (p_err (eng n) t r s).
Proof.
  intros Hs. unfold p_err. destruct r as [r|]; [|split; [reflexivity|exact Hs]].
  destruct (run_token (eng n) r (pos s)); try exact I. split; [reflexivity|exact Hs].
Qed.

Lemma prod_sem c p s X (J1 J : list val -> nat -> Prop) : dsem J1 s X -> okw c -> wsf s = true ->
  (forall v q q', J1 v q -> D (behind prods c p) (depth s) JW q [] q' -> J [VProd p v] q') ->
  sem J s (fun k a => prod_after prods (eng n) c p k a X).
Proof.
  intros HX Hc Hs HJ.
  assert (HF : forall s1 v, wsf s1 = true ->
    sem (fun vs q => vs = [VProd p v] /\ wsj (cx_ws (behind prods c p)) (pos s1) [] q) s1
        (fun k a => prod_finish prods (eng n) c p k a (emit (EPFinish p (pos s1)) s1) v)).
  { intros s1 v Hs1. apply (sem_pre _ _ (pos s1) [EPFinish p (pos s1)]); [reflexivity|].
    change (go s1 (pos s1) [EPFinish p (pos s1)]) with (emit (EPFinish p (pos s1)) s1). unfold prod_finish, behind. cbn [cx_ws].
    destruct (p_token (prods p)).
    - apply (sem_args _ _ _ (fun k a => ws_then (eng n) c k (emit (EPFinish p (pos s1)) s1) a) [VProd p v] (sem_ws n S c (emit (EPFinish p (pos s1)) s1) Hc Hs1)).
      intros vs q H. pose proof (wsj_nil _ _ _ _ H). subst vs. split; [reflexivity|exact H].
    - apply sem_now. split; [reflexivity|]. now split. }
  destruct HX as [(v & q & es & Hcl & H1 & ->)|HX]; cbn [prod_after].
  - apply (sem_pre _ _ q es _ Hcl). eapply sem_mono; [|apply HF; exact Hs]. cbn beta. intros vs q' (-> & H2).
    eapply HJ; [exact H1|]. eapply wsj_D. exact H2.
  - right. intros k a Hk. destruct X as [[] s1 m| |]; try exact I; destruct HX as [Hd Hw1].
    + split; [exact Hd|exact Hw1].
    + eapply (sem_dirty _ _ _ k a (HF s1 vs Hw1)); auto.
Qed.

Lemma sem_depth (J : list val -> nat -> Prop) s P : sem J (setdepth (Datatypes.S (depth s)) s) P ->
  sem J s (fun k a => P (depth_cont k) a).
Proof.
  intros [(vs & q & es & Hcl & H1 & HK)|HP].
  - left. exists vs, q, es. repeat split; auto. intros k a Hk. rewrite HK by reflexivity. reflexivity.
  - right. intros k a Hk. apply HP. split; [reflexivity|]. intros s1 a1 Hd Hw. cbn [depth_cont k_fn]. apply Hk; [exact Hd|exact Hw].
Qed.

(** try_: the rule succeeds and what follows is marked, or it fails with an error. *)
Lemma try_after_mark c rec k a X : try_after (eng n) c rec k a (mark X) = X.
Proof. destruct X as [[] s m| |]; reflexivity. Qed.
Lemma dres_mark X : dres X -> dres (mark X).
Proof. destruct X; auto. Qed.
Lemma tryc_sem c te rec s P (J1 J : list val -> nat -> Prop) :
  sem J1 s P -> match te with Some t => described t | None => True end -> okrec rec -> okw c -> wsf s = true ->
  (forall v q vs q', J1 v q -> D c (depth s) (JS (match te with Some t => [t] | None => [] end)) q vs q' -> J (v ++ vs) q') ->
  sem J s (fun k a => try_after (eng n) c rec k a (P (try_cont (eng n) c te k) a)).
Proof.
  intros HP Hte Hrec Hc Hs HJ.
  assert (HT : forall s1, wsf s1 = true -> sem (D c (depth s1) (JS (match te with Some t => [t] | None => [] end)) (pos s1)) s1
    (fun k a => match te with None => k_fn k s1 a | Some t => e_parse (eng n) c t k s1 a end)).
  { intros s1 Hs1. destruct te as [t|]; [|apply sem_now0; constructor].
    eapply sem_mono; [|apply s_parse; eauto]. intros vs q H. rewrite <- (app_nil_r vs). econstructor; eauto. constructor. }
  destruct HP as [(v & q & es & Hcl & H1 & HK)|HP].
  - apply (sem_ext _ _ (fun k a => match te with None => k_fn k (go s q es) (a ++ v) | Some t => e_parse (eng n) c t k (go s q es) (a ++ v) end)).
    { intros k a Hk. rewrite HK by reflexivity. cbn [try_cont k_fn]. now rewrite try_after_mark. }
    apply (sem_pre _ _ q es _ Hcl).
    apply (sem_args _ _ _ (fun k a => match te with None => k_fn k (go s q es) a | Some t => e_parse (eng n) c t k (go s q es) a end) v (HT (go s q es) Hs)).
    intros. eapply HJ; eauto.
  - right. intros k a Hk.
    assert (HX : dres (P (try_cont (eng n) c te k) a)).
    { apply HP. split; [reflexivity|]. intros s1 a1 Hd1 Hw1. cbn [try_cont k_fn]. apply dres_mark.
      apply (sem_dirty _ _ _ k a1 (HT s1 Hw1) Hd1 Hw1 Hk). }
    destruct (P (try_cont (eng n) c te k) a) as [o s1 [|m]| |]; try exact I.
    + destruct HX as [Hd Hw]. destruct o; cbn [try_after]; try exact I. apply s_recov; auto.
    + destruct o; exact HX.
Qed.

(** ** Whitespace loops *)
Lemma step_ws t p b e : e_wsloop (step inp prods (eng n)) (RTok t) p = TR b e -> D sub_cx 0 (JL (RTok t)) p [] e.
Proof.
  cbn [step e_wsloop]. unfold wsloop_step. cbn [tmatch]. destruct (tk_try t inp p) as [ok e1] eqn:Ht. cbn [fst snd].
  assert (HC : Cond (RTok t) p ok) by (replace ok with (fst (tk_try t inp p)) by (rewrite Ht; reflexivity); constructor).
  destruct ok; intros H.
  - eapply D_more; [exact HC| |eapply s_ws; eauto]. eapply D_tok; [exact Ht|]. now apply D_ws_none.
  - injection H as _ <-. now apply D_stop.
Qed.

Definition brk w s (X : res) : Prop :=
  (exists v q es, clean es /\ Cond w (pos s) true /\ D sub_cx (depth s) (JR true w) (pos s) v q /\ X = Res (OTrue v) (go s q es) 0) \/
  (exists es, clean es /\ Cond w (pos s) false /\ X = Res OBreak (go s (pos s) es) 0) \/ dres X.

Lemma brk_fin m c b k s a : e_finish (eng m) c RBreak b k s a = Res OBreak s 0 \/ e_finish (eng m) c RBreak b k s a = NoFuel.
Proof. destruct m as [|[|m]]; cbn; auto. Qed.
Lemma brk_chc u l : Forall described l -> forall s, wsf s = true ->
  brk (RChc l) s (p_chc (eng n) sub_cx u (l ++ [RBreak]) final s []).
Proof.
  intros Hl. induction Hl as [|r l Hr Hl IH]; intros s Hs; cbn [app p_chc]; unfold branch_or.
  - destruct (e_try (eng n) RBreak (vars s) (pos s)) as [[|] b| |] eqn:HE; try (right; right; exact I).
    + destruct (brk_fin n sub_cx b final s []) as [->| ->]; [|right; right; exact I].
      right. left. exists []. split; [reflexivity|split; [constructor|]]. now rewrite go_id.
    + exfalso. revert HE. destruct n; cbn; discriminate.
  - destruct (e_try (eng n) r (vars s) (pos s)) as [[|] b| |] eqn:HE; try (right; right; exact I).
    + assert (HC : Cond r (pos s) true) by (eapply try_cond; eauto).
      destruct (sem_final _ _ _ (s_finish _ S sub_cx r b s Hr ltac:(discriminate) Hs (ex_intro _ n (ex_intro _ (vars s) HE))))
        as [(v & q & es & Hcl & HD & ->)|HX]; [|right; right; exact HX].
      left. exists v, q, es. split; [exact Hcl|split; [now apply C_chc_hit|split; [now apply D_chc_hit|reflexivity]]].
    + assert (HC : Cond r (pos s) false) by (eapply try_cond; eauto).
      unfold cancel_then. destruct (e_cancel (eng n) r b) as [es|] eqn:Hcn; [|right; right; exact I].
      apply cancel_clean in Hcn. change (emits es s) with (go s (pos s) (rev es)).
      destruct (IH (go s (pos s) (rev es)) Hs) as [(v & q & es' & Hcl & H1 & H2 & ->)|[(es' & Hcl & H1 & ->)|H]].
      * left. exists v, q, (es' ++ rev es). split; [now apply clean_app|].
        split; [now apply C_chc_miss|split; [now apply D_chc_miss|now rewrite go_go]].
      * right. left. exists (es' ++ rev es). split; [now apply clean_app|]. split; [now apply C_chc_miss|now rewrite go_go].
      * right. right. exact H.
Qed.
Lemma chc_one r p ok : Cond (RChc [r]) p ok -> Cond r p ok.
Proof.
  inversion 1; subst; auto. match goal with H : Cond (RChc []) _ _ |- _ => inversion H; subst end. assumption.
Qed.
Lemma chc_one_D c d r p vs q : D c d (JR true (RChc [r])) p vs q -> D c d (JR true r) p vs q.
Proof.
  inversion 1; subst; auto. match goal with H : D _ _ (JR _ (RChc [])) _ _ _ |- _ => inversion H end.
Qed.
Lemma brk_one r s X : brk (RChc [r]) s X -> brk r s X.
Proof.
  intros [(v & q & es & Hcl & H1 & H2 & ->)|[(es & Hcl & H1 & ->)|H]]; [left|right; left|right; right; exact H].
  - exists v, q, es. auto using chc_one, chc_one_D.
  - exists es. auto using chc_one.
Qed.
End Step.

Lemma parse_brk m : sound (eng m) -> (forall j, j < m -> sound (eng j)) -> forall w s, described w -> wsf s = true ->
  brk w s (e_parse (eng m) sub_cx (chc_or w RBreak) final s []).
Proof.
  intros _ HS w s Hw Hs. destruct m as [|m]; [right; right; exact I|]. specialize (HS m (Nat.lt_succ_diag_r m)).
  cbn [RuleModel.eng step e_parse].
  destruct w; try (apply brk_one; cbn [chc_or parse_step]; apply (brk_chc m HS _ [_]); [now constructor|exact Hs]).
  cbn [chc_or parse_step]. apply brk_chc; auto. now apply described_chc.
Qed.

(** ** Combinations *)
Lemma comb_fin m : sound (eng m) -> forall c r i b s, described r -> okw c -> wsf s = true ->
  fits (RBr (head_of r) (tail_of r)) (pos s) b ->
  let X := e_finish (eng m) c (RBr (head_of r) (tail_of r ++ [RCombIt i])) b final s [] in
  (exists v q es, clean es /\ D c (depth s) (JR true r) (pos s) v q /\ X = Res (OItem i v) (go s q es) 0) \/ dres X.
Proof.
  intros HS c r i b s Hr Hc Hs Hf. destruct m as [|m]; [right; exact I|].
  pose proof (s_finish _ HS c _ b s (described_parts r Hr) Hc Hs Hf) as H. cbv zeta.
  cbn [RuleModel.eng step e_finish finish_step] in H |- *. rewrite seq_cont_app.
  set (k0 := seq_cont (eng m) c [RCombIt i] final).
  assert (Hk0 : k_nows k0 = false) by reflexivity.
  assert (Hk : forall s1 a, k_fn k0 s1 a = NoFuel \/ k_fn k0 s1 a = Res (OItem i a) s1 0) by (intros; destruct m; cbn; auto).
  destruct H as [(v & q & es & Hcl & HD & HK)|H].
  - rewrite HK by exact Hk0. cbn [app]. destruct (Hk (go s q es) v) as [->| ->]; [right; exact I|].
    left. exists v, q, es. split; [exact Hcl|]. split; [now apply D_parts|reflexivity].
  - right. apply H. split; [exact Hk0|]. intros s1 a Hd Hw. destruct (Hk s1 a) as [->| ->]; [exact I|split; assumption].
Qed.
Lemma one_parse m : sound (eng m) -> forall c r s, described r -> okw c -> wsf s = true ->
  let X := e_parse (eng m) c (comb_choice None [r]) final s [] in
  (exists v q es, clean es /\ D c (depth s) (JR false r) (pos s) v q /\ X = Res (OItem 0 v) (go s q es) 0) \/ dres X.
Proof.
  intros HS c r s Hr Hc Hs. rewrite comb_choice_one. destruct m as [|m]; [right; exact I|].
  pose proof (s_parse _ HS c _ s (described_parts r Hr) Hc Hs) as H. cbv zeta.
  cbn [RuleModel.eng step e_parse parse_step] in H |- *. unfold p_seq in *. rewrite app_comm_cons, seq_cont_app.
  set (k0 := seq_cont (eng m) c [RCombIt 0] final).
  assert (Hk0 : k_nows k0 = false) by reflexivity.
  assert (Hk : forall s1 a, k_fn k0 s1 a = NoFuel \/ k_fn k0 s1 a = Res (OItem 0 a) s1 0) by (intros; destruct m; cbn; auto).
  destruct H as [(v & q & es & Hcl & HD & HK)|H].
  - rewrite HK by exact Hk0. cbn [app]. destruct (Hk (go s q es) v) as [->| ->]; [right; exact I|].
    left. exists v, q, es. split; [exact Hcl|]. split; [now apply D_parts|reflexivity].
  - right. apply H. split; [exact Hk0|]. intros s1 a Hd Hw. destruct (Hk s1 a) as [->| ->]; [exact I|split; assumption].
Qed.
Lemma one_dirty j : (forall i, i < j -> sound (eng i)) -> forall c dup r count h s acc, described r -> okw c -> wsf s = true -> dirty s ->
  dres (e_comb (eng j) c dup (comb_choice None [r]) 1 count h s acc).
Proof.
  induction j as [|j IH]; intros HS c dup r count h s acc Hr Hc Hs Hd; [exact I|].
  cbn [RuleModel.eng step e_comb]. unfold comb_step. destruct (1 <=? count); [split; assumption|].
  assert (HX : dres (e_parse (eng j) c (comb_choice None [r]) final s [])).
  { destruct (one_parse j (HS j (Nat.lt_succ_diag_r j)) c r s Hr Hc Hs) as [(v & q & es & _ & _ & ->)|H]; [|exact H].
    split; [now apply dirty_go|exact Hs]. }
  destruct (e_parse (eng j) c (comb_choice None [r]) final s []) as [[] s1 m1| |]; try exact I; destruct HX as [Hd1 Hw1];
    try (split; assumption).
  destruct (nth i h false); apply IH; auto; reflexivity.
Qed.
Lemma one_comb j : (forall i, i < j -> sound (eng i)) -> forall c dup r s, described r -> okw c -> wsf s = true ->
  dsem (fun vs q => exists v, vs = [VSink (one v)] /\ D c (depth s) (JR false r) (pos s) v q) s
    (e_comb (eng j) c dup (comb_choice None [r]) 1 0 [false] s []).
Proof.
  intros HS c dup r s Hr Hc Hs. destruct j as [|j]; [right; exact I|].
  pose proof (one_parse j (HS j (Nat.lt_succ_diag_r j)) c r s Hr Hc Hs) as H. cbv zeta in H.
  cbn [RuleModel.eng step e_comb]. unfold comb_step. cbn [Nat.leb].
  destruct H as [(v & q & es & Hcl & HD & ->)|H].
  - cbn [nth]. destruct j as [|j]; [right; exact I|]. left. exists [VSink (one v)], q, es. split; [exact Hcl|]. split; [eauto|].
    cbn [RuleModel.eng step e_comb]. unfold comb_step. cbn [Nat.leb]. unfold push, one. destruct v; reflexivity.
  - right. destruct (e_parse (eng j) c (comb_choice None [r]) final s []) as [[] s1 m1| |]; try exact I; destruct H as [Hd1 Hw1];
      try (split; assumption).
    destruct (nth i [false] false); apply one_dirty; auto; reflexivity.
Qed.
Lemma err_fin m c t r b k s a : wsf s = true -> dres (e_finish (eng m) c (RErr t r) b k s a).
Proof. intros Hs. destruct m as [|[|m]]; try exact I. cbn [RuleModel.eng step e_finish finish_step e_parse parse_step]. now apply err_dres. Qed.

Definition picks c rs els i0 s (X : res) : Prop :=
  (exists i r v q es, clean es /\ Pick inp prods rs (pos s) (Some i) /\ nth_error rs i = Some r /\
     D c (depth s) (JR true r) (pos s) v q /\ X = Res (OItem (i0 + i) v) (go s q es) 0) \/
  (exists es, clean es /\ Pick inp prods rs (pos s) None /\ els = Some RBreak /\ X = Res OBreak (go s (pos s) es) 0) \/ dres X.
Lemma comb_pick m c u els rs : sound (eng m) -> Forall described rs -> okw c -> okelse els -> forall i0 s, wsf s = true ->
  picks c rs els i0 s (p_chc (eng m) c u (comb_alts i0 rs ++ elsl els) final s []).
Proof.
  intros HS Hrs Hc He. induction Hrs as [|r rs Hr Hrs IH]; intros i0 s Hs.
  - cbn [comb_alts app]. destruct els as [e|]; cbn [elsl p_chc].
    + unfold branch_or. destruct e; try contradiction.
      * right. right. destruct (e_try (eng m) (RErr t _) (vars s) (pos s)) as [[|] b| |] eqn:HE; try exact I.
        -- now apply err_fin.
        -- exfalso. revert HE. destruct m; cbn; discriminate.
      * destruct (e_try (eng m) RBreak (vars s) (pos s)) as [[|] b| |] eqn:HE; try (right; right; exact I).
        -- destruct (brk_fin m c b final s []) as [->| ->]; [|right; right; exact I].
           right. left. exists []. split; [reflexivity|split; [constructor|split; [reflexivity|]]]. now rewrite go_id.
        -- exfalso. revert HE. destruct m; cbn; discriminate.
    + right. right. destruct u; [exact I|split; [reflexivity|exact Hs]].
  - rewrite comb_alts_cons. cbn [app p_chc]. unfold branch_or.
    rewrite (try_br m (head_of r) _ (tail_of r)).
    destruct (e_try (eng m) (RBr (head_of r) (tail_of r)) (vars s) (pos s)) as [[|] b| |] eqn:HE; try (right; right; exact I).
    + assert (HC : Cond r (pos s) true) by (apply Cond_parts; eapply try_cond; [apply described_parts; exact Hr|exact HE]).
      destruct (comb_fin m HS c r i0 b s Hr Hc Hs (ex_intro _ m (ex_intro _ (vars s) HE))) as [(v & q & es & Hcl & HD & ->)|H].
      * left. exists 0, r, v, q, es. split; [exact Hcl|]. split; [now constructor|]. split; [reflexivity|]. split; [exact HD|].
        now rewrite Nat.add_0_r.
      * right. right. exact H.
    + assert (HC : Cond r (pos s) false) by (apply Cond_parts; eapply try_cond; [apply described_parts; exact Hr|exact HE]).
      unfold cancel_then. rewrite (cancel_br m (head_of r) _ (tail_of r)).
      destruct (e_cancel (eng m) (RBr (head_of r) (tail_of r)) b) as [es|] eqn:Hcn; [|right; right; exact I].
      apply cancel_clean in Hcn. change (emits es s) with (go s (pos s) (rev es)).
      destruct (IH (Datatypes.S i0) (go s (pos s) (rev es)) Hs)
        as [(i & r1 & v & q & es' & Hcl & H1 & H2 & H3 & ->)|[(es' & Hcl & H1 & H2 & ->)|H]].
      * left. exists (Datatypes.S i), r1, v, q, (es' ++ rev es). split; [now apply clean_app|].
        split; [exact (Pick_next inp prods r rs _ (Some i) HC H1)|]. split; [exact H2|]. split; [exact H3|].
        rewrite go_go. now replace (i0 + Datatypes.S i) with (Datatypes.S i0 + i) by lia.
      * right. left. exists (es' ++ rev es). split; [now apply clean_app|].
        split; [exact (Pick_next inp prods r rs _ None HC H1)|]. split; [exact H2|now rewrite go_go].
      * right. right. exact H.
Qed.

(** ** Loops *)
Lemma alt_fin m : sound (eng m) -> forall c r r' b s, before_break r = Some r' -> described r' -> okw c -> wsf s = true ->
  e_try (eng m) r (vars s) (pos s) = BR true b ->
  let X := e_finish (eng m) c r b final s [] in
  (exists v q es, clean es /\ D c (depth s) (JR true r') (pos s) v q /\ X = Res OBreak (go s q es) 0) \/ dres X.
Proof.
  intros HS c r r' b s Hb Hr Hc Hs HE. cbv zeta. destruct (break_shape _ _ Hb) as [[-> ->]|(h & t & -> & ->)].
  - destruct (brk_fin m c b final s []) as [->| ->]; [|right; exact I]. left. exists [], (pos s), [].
    split; [reflexivity|]. split; [constructor|now rewrite go_id].
  - destruct m as [|m]; [right; exact I|]. rewrite (try_br _ _ _ t) in HE.
    pose proof (s_finish _ HS c _ b s Hr Hc Hs (ex_intro _ _ (ex_intro _ _ HE))) as H.
    cbn [RuleModel.eng step e_finish finish_step] in H |- *. rewrite seq_cont_app.
    set (k0 := seq_cont (eng m) c [RBreak] final).
    assert (Hk0 : k_nows k0 = false) by reflexivity.
    assert (Hk : forall s1 a, k_fn k0 s1 a = NoFuel \/ k_fn k0 s1 a = Res OBreak s1 0) by (intros; destruct m; cbn; auto).
    destruct H as [(v & q & es & Hcl & HD & HK)|H].
    + rewrite HK by exact Hk0. cbn [app]. destruct (Hk (go s q es) v) as [->| ->]; [right; exact I|].
      left. exists v, q, es. auto.
    + right. apply H. split; [exact Hk0|]. intros s1 a Hd Hw. destruct (Hk s1 a) as [->| ->]; [exact I|split; assumption].
Qed.
Lemma alt_cond m r vs p ok b : okalt r -> e_try (eng m) r vs p = BR ok b -> Cond r p ok.
Proof.
  unfold okalt. destruct (before_break r) as [r'|] eqn:Hb; [|apply try_cond]. intros Hr HE.
  destruct (break_shape _ _ Hb) as [[-> ->]|(h & t & -> & ->)].
  - destruct m; [discriminate|]. injection HE as <- _. constructor.
  - rewrite (try_br _ _ _ t) in HE. apply try_cond in HE; [|exact Hr]. inversion HE; subst. now constructor.
Qed.
Definition turns c rs s (X : res) : Prop :=
  (exists i r v q es, clean es /\ Pick inp prods rs (pos s) (Some i) /\ nth_error rs i = Some r /\ before_break r = None /\
     D c (depth s) (JR true r) (pos s) v q /\ X = Res (OTrue v) (go s q es) 0) \/
  (exists i r r' v q es, clean es /\ Pick inp prods rs (pos s) (Some i) /\ nth_error rs i = Some r /\ before_break r = Some r' /\
     D c (depth s) (JR true r') (pos s) v q /\ X = Res OBreak (go s q es) 0) \/ dres X.
Lemma loop_turn m c u rs : sound (eng m) -> Forall okalt rs -> okw c -> forall s, wsf s = true ->
  turns c rs s (p_chc (eng m) c u rs final s []).
Proof.
  intros HS Hrs Hc. induction Hrs as [|r rs Hr Hrs IH]; intros s Hs; cbn [p_chc].
  - right. right. destruct u; [exact I|split; [reflexivity|exact Hs]].
  - unfold branch_or. destruct (e_try (eng m) r (vars s) (pos s)) as [[|] b| |] eqn:HE; try (right; right; exact I).
    + pose proof (alt_cond _ _ _ _ _ _ Hr HE) as HC. unfold okalt in Hr. destruct (before_break r) as [r'|] eqn:Hb.
      * destruct (alt_fin m HS c r r' b s Hb Hr Hc Hs HE) as [(v & q & es & Hcl & HD & ->)|H]; [|right; right; exact H].
        right. left. exists 0, r, r', v, q, es. split; [exact Hcl|]. split; [now constructor|]. auto.
      * destruct (sem_final _ _ _ (s_finish _ HS c r b s Hr Hc Hs (ex_intro _ m (ex_intro _ (vars s) HE))))
          as [(v & q & es & Hcl & HD & ->)|HX]; [|right; right; exact HX].
        left. exists 0, r, v, q, es. split; [exact Hcl|]. split; [now constructor|]. auto.
    + pose proof (alt_cond _ _ _ _ _ _ Hr HE) as HC.
      unfold cancel_then. destruct (e_cancel (eng m) r b) as [es|] eqn:Hcn; [|right; right; exact I].
      apply cancel_clean in Hcn. change (emits es s) with (go s (pos s) (rev es)).
      destruct (IH (go s (pos s) (rev es)) Hs)
        as [(i & r1 & v & q & es' & Hcl & H1 & H2 & H3 & H4 & ->)|[(i & r1 & r2 & v & q & es' & Hcl & H1 & H2 & H3 & H4 & ->)|H]].
      * left. exists (Datatypes.S i), r1, v, q, (es' ++ rev es). split; [now apply clean_app|].
        split; [exact (Pick_next inp prods r rs _ (Some i) HC H1)|]. rewrite go_go. auto.
      * right. left. exists (Datatypes.S i), r1, r2, v, q, (es' ++ rev es). split; [now apply clean_app|].
        split; [exact (Pick_next inp prods r rs _ (Some i) HC H1)|]. rewrite go_go. auto.
      * right. right. exact H.
Qed.

Section Step2.
Variable n : nat.
Hypothesis S : sound (eng n).
Hypothesis SS : forall j, j < n -> sound (eng j).
Notation E := (eng n).

Lemma step_loop w s : described w -> wsf s = true ->
  dsem (fun vs q => vs = [] /\ D sub_cx (depth s) (JL w) (pos s) [] q) s
    (e_parse (step inp prods E) sub_cx (RLoop (chc_or w RBreak)) final s []).
Proof.
  intros Hw Hs. cbn [step e_parse parse_step].
  destruct (parse_brk n S SS w s Hw Hs) as [(v & q & es & Hcl & H1 & H2 & ->)|[(es & Hcl & H1 & ->)|H]].
  - apply (dsem_pre _ _ q es _ Hcl). eapply dsem_mono; [|apply (s_loop _ S); auto]. cbn beta.
    intros vs q' (-> & H3). split; [reflexivity|]. eapply D_more; eauto.
  - left. exists [], (pos s), es. split; [exact Hcl|]. split; [|reflexivity]. split; [reflexivity|]. now apply D_stop.
  - destruct (e_parse E sub_cx (chc_or w RBreak) final s []) as [[] s1 m| |]; try (right; exact I); destruct H as [Hd1 Hw1].
    + right. split; assumption.
    + right. eapply dsem_dirty; [apply (s_loop _ S)| |]; assumption.
    + right. split; assumption.
Qed.

Lemma tok_sem (J : list val -> nat -> Prop) c s e kd vs : okw c -> wsf s = true ->
  (forall q, D c (depth s) JW e [] q -> J vs q) ->
  sem J s (fun k a => ws_then E c k (setpos e (emit (EToken kd (pos s) e) s)) (a ++ vs)).
Proof.
  intros Hc Hs HJ. apply (sem_pre _ _ e [EToken kd (pos s) e]); [reflexivity|].
  apply (sem_args _ _ _ (fun k a => ws_then E c k (go s e [EToken kd (pos s) e]) a) vs (sem_ws n S c (go s e [EToken kd (pos s) e]) Hc Hs)).
  intros vs' q H. pose proof (wsj_nil _ _ _ _ H). subst vs'. rewrite app_nil_r. apply HJ. eapply wsj_D; eauto.
Qed.
Lemma sem_ext0 J s (K : cont -> list val -> res) : sem J s (fun k a => K k (a ++ [])) -> sem J s K.
Proof. apply sem_ext. intros. now rewrite app_nil_r. Qed.

Lemma push_one v acc : push v acc = acc ++ one v.
Proof. destruct v; cbn; [now rewrite app_nil_r|reflexivity]. Qed.

Lemma while_sem c b s : described b -> okw c -> wsf s = true ->
  sem (D c (depth s) (JR false (RWhile b)) (pos s)) s (fun k a => e_parse (step inp prods E) c (RWhile b) k s a).
Proof.
  intros Hb Hc Hs. cbn [step e_parse parse_step]. apply sem_try; auto; intros b1 HC.
  - intros Hf.
    apply (sem_delim _ (fun _ d p vs q => D c d (JR false (RWhile b)) p vs q) _ s
             (e_finish E c b b1 final s []) (fun k a s1 _ => e_parse E c (RWhile b) k s1 a)
             (sem_final _ _ _ (s_finish _ S c b b1 s Hb Hc Hs Hf)) Hs).
    + intros s1 v Hs1. now apply s_parse.
    + intros v q vs q' H1 H2. inversion H2; subst. constructor. eapply D_more; eauto.
  - apply sem_cancel. intros s1 Hd Hp Hw. apply sem_now0. rewrite Hp. constructor. now apply D_stop.
Qed.

Lemma loop_sem c rs s : Forall okalt rs -> described (RLoop (RChc rs)) -> okw c -> wsf s = true ->
  sem (D c (depth s) (JR false (RLoop (RChc rs))) (pos s)) s (fun k a => e_parse (step inp prods E) c (RLoop (RChc rs)) k s a).
Proof.
  intros Hrs Hr Hc Hs. cbn [step e_parse parse_step].
  assert (HT : turns c rs s (e_parse E c (RChc rs) final s [])).
  { destruct n as [|m]; [right; right; exact I|]. cbn [RuleModel.eng step e_parse parse_step]. apply loop_turn; auto. }
  destruct HT as [(i & r & v & q & es & Hcl & H1 & H2 & H3 & H4 & ->)|[(i & r & r' & v & q & es & Hcl & H1 & H2 & H3 & H4 & ->)|H]].
  - apply (sem_pre _ _ q es _ Hcl). eapply sem_mono; [|apply s_parse; auto]. intros vs q' H. inversion H; subst.
    constructor. eapply D_o_more; eauto.
  - apply (sem_pre _ _ q es _ Hcl). apply sem_now0. constructor. eapply D_o_break; eauto.
  - apply sem_dres'. intros k a Hk. destruct (e_parse E c (RChc rs) final s []) as [[] s1 m1| |]; try exact I; destruct H as [Hd Hw].
    + split; assumption.
    + exact (sem_dirty _ _ _ k a (s_parse _ S c (RLoop (RChc rs)) s1 Hr Hc Hw) Hd Hw Hk).
    + now apply Hk.
Qed.

(** ** Lists *)
Definition itemj c d i (sep : option (rule * sepk)) p (l : list (list val)) q : Prop :=
  (is_branch prods i = true /\ Cond i p false /\ match sep with Some (_, k) => silent_trailing k | None => True end /\ l = [] /\ q = p) \/
  (exists v q1 l2, (is_branch prods i = true /\ Cond i p true /\ D c d (JR true i) p v q1 \/
                    is_branch prods i = false /\ D c d (JR false i) p v q1) /\
                   D c d (JM i sep) q1 [VSink l2] q /\ l = one v ++ l2).

Lemma sinks_push acc v (J J' : list (list val) -> nat -> Prop) vs q :
  sinks (push v acc) J vs q -> (forall l, J l q -> J' (one v ++ l) q) -> sinks acc J' vs q.
Proof.
  intros (l & -> & H) HJ. exists (one v ++ l). split; [now rewrite push_one, app_assoc|auto].
Qed.

Lemma item_sem c i sep sb s acc : described i -> oksep sep -> okw c -> wsf s = true ->
  dsem (sinks acc (itemj c (depth s) i sep (pos s))) s (lst_item prods E c i sep sb s acc).
Proof.
  intros Hi Hsep Hc Hs. unfold lst_item. destruct (is_branch prods i) eqn:Hb.
  - apply dsem_try; auto; intros b HC.
    + intros Hf.
      apply (dsem_delim _ (fun v d p vs q => sinks (push v acc) (fun l q => D c d (JM i sep) p [VSink l] q) vs q) _ s _ _
               (sem_final _ _ _ (s_finish _ S c i b s Hi Hc Hs Hf)) Hs).
      * intros s1 v Hs1. apply (s_lst _ S); auto.
      * intros v q vs q' H1 H2. eapply sinks_push; [exact H2|]. intros l Hl. right. exists v, q, l. auto 6.
    + unfold cancel_then. destruct (e_cancel E i b) as [es|] eqn:Hcn; [|right; exact I]. apply cancel_clean in Hcn.
      assert (HD : forall es, clean es -> match sep with Some (_, k) => silent_trailing k | None => True end ->
        dsem (sinks acc (itemj c (depth s) i sep (pos s))) s (Res (OTrue [VSink acc]) (go s (pos s) es) 0)).
      { intros es0 Hes Hsl. left. exists [VSink acc], (pos s), es0. split; [exact Hes|]. split; [|reflexivity].
        exists []. split; [now rewrite app_nil_r|]. left. auto. }
      destruct sep as [[sr [t| |]]|]; cbn [report_trailing]; try (apply HD; [exact Hcn|exact I]).
      right. split; [reflexivity|exact Hs].
  - apply (dsem_delim _ (fun v d p vs q => sinks (push v acc) (fun l q => D c d (JM i sep) p [VSink l] q) vs q) _ s _ _
             (sem_final _ _ _ (s_parse _ S c i s Hi Hc Hs)) Hs).
    + intros s1 v Hs1. apply (s_lst _ S); auto.
    + intros v q vs q' H1 H2. eapply sinks_push; [exact H2|]. intros l Hl. right. exists v, q, l. auto 6.
Qed.

Lemma step_lst c i sep s acc : described i -> oksep sep -> okw c -> wsf s = true ->
  dsem (sinks acc (fun l q => D c (depth s) (JM i sep) (pos s) [VSink l] q)) s (e_lst (step inp prods E) c i sep s acc).
Proof.
  intros Hi Hsep Hc Hs. cbn [step e_lst]. unfold lst_step. destruct sep as [[sr kd]|].
  - apply dsem_try; auto; intros b HC.
    + intros Hf.
      apply (dsem_delim _ (fun v d p vs q => sinks (push v acc) (itemj c d i (Some (sr, kd)) p) vs q) _ s _
               (fun s' v => lst_item prods E c i (Some (sr, kd)) (pos s) s' (push v acc))
               (sem_final _ _ _ (s_finish _ S c sr b s Hsep Hc Hs Hf)) Hs).
      * intros s1 v Hs1. apply item_sem; auto.
      * intros v q vs q' H1 H2. eapply sinks_push; [exact H2|]. cbn beta.
        intros l [(Hb & HC2 & Hsl & -> & ->)|(v2 & q2 & l2 & HI & HM & ->)].
        -- rewrite app_nil_r. eapply D_s_trail; eauto.
        -- destruct HI as [(Hb & HC2 & HI)|(Hb & HI)]; [eapply D_s_item|eapply D_s_rule]; eauto.
    + apply dsem_cancel. intros s1 Hd Hp Hw. left. exists [VSink acc], (pos s1), []. split; [reflexivity|].
      split; [|now rewrite go_id]. exists []. split; [now rewrite app_nil_r|]. rewrite Hp. now apply D_s_end.
  - eapply dsem_mono; [|apply item_sem; auto]. intros vs q (l & -> & HI). exists l. split; [reflexivity|].
    destruct HI as [(Hb & HC2 & Hsl & -> & ->)|(v2 & q2 & l2 & HI & HM & ->)]; [now apply D_m_end|].
    destruct HI as [(Hb & HC2 & HI)|(Hb & HI)]; [eapply D_m_item|eapply D_m_rule]; eauto.
Qed.

Section Term.
Variables (c : cx) (te i : rule) (sep : option (rule * sepk)) (lim : token).
Hypotheses (Hte : described te) (Hi : described i) (Hsep : oksep sep) (Hc : okw c).
Notation go_ := (e_lstt E c te i sep lim).

Lemma l_term sp s acc : wsf s = true ->
  dsem (sinks acc (fun l q => D c (depth s) (JT te i sep) (pos s) [VSink l] q)) s (go_ LTerm sp s acc).
Proof. intros Hs. apply (s_lstt _ S c te i sep lim LTerm sp s acc); auto. Qed.
Lemma l_rec sp s acc : wsf s = true -> dirty s -> dres (go_ LRecovery sp s acc).
Proof. intros Hs. apply (s_lstt _ S c te i sep lim LRecovery sp s acc); auto. Qed.
Lemma l_search b sp s acc : wsf s = true -> dirty s -> dres (go_ (LSearch b) sp s acc).
Proof. intros Hs. apply (s_lstt _ S c te i sep lim (LSearch b) sp s acc); auto. Qed.
Lemma l_item sp s acc : wsf s = true ->
  dsem (sinks acc (fun l q => items c (depth s) te i sep (pos s) l q)) s (go_ LItem sp s acc).
Proof. intros Hs. apply (s_lstt _ S c te i sep lim LItem sp s acc); auto. Qed.
Lemma l_term_d sp s acc : wsf s = true -> dirty s -> dres (go_ LTerm sp s acc).
Proof. intros. eapply dsem_dirty; [now apply l_term| |]; assumption. Qed.
Lemma l_item_d sp s acc : wsf s = true -> dirty s -> dres (go_ LItem sp s acc).
Proof. intros. eapply dsem_dirty; [now apply l_item| |]; assumption. Qed.
Lemma l_trail_d sp s acc : wsf s = true -> dirty s -> sep <> None -> dres (go_ LTrail sp s acc).
Proof.
  intros Hs Hd Hn. pose proof (s_lstt _ S c te i sep lim LTrail sp s acc Hte Hi Hsep Hc Hs) as H. cbn zeta iota in H.
  destruct sep as [[sr kd]|]; [|contradiction]. eapply dsem_dirty; eauto.
Qed.

Lemma limit_d b sp s acc : wsf s = true -> dirty s -> dres (lstt_limit inp E c te i sep lim b sp s acc).
Proof.
  intros Hs Hd. unfold lstt_limit. apply dres_try; intros tb.
  - intros _. split; [exact Hd|exact Hs].
  - apply dres_cancel; auto. intros s1 Hd1 _ _ Hw. destruct (fst (tk_try lim inp (pos s1)) || eof inp (pos s1)).
    + split; [exact Hd1|now rewrite <- Hs].
    + apply l_search; [now rewrite <- Hs|exact Hd1].
Qed.

End Term.

Lemma step_lstt c te i sep lim ls sp s acc : described te -> described i -> oksep sep -> okw c -> wsf s = true ->
  let X := e_lstt (step inp prods E) c te i sep lim ls sp s acc in
  match ls with
  | LTerm => dsem (sinks acc (fun l q => D c (depth s) (JT te i sep) (pos s) [VSink l] q)) s X
  | LSep => Cond te (pos s) false -> dsem (sinks acc (fun l q => D c (depth s) (JT te i sep) (pos s) [VSink l] q)) s X
  | LTrail => match sep with
    | Some (sr, k) => dsem (sinks acc (fun l q => trails c (depth s) te i sr k (pos s) l q)) s X
    | None => True end
  | LItem => dsem (sinks acc (fun l q => items c (depth s) te i sep (pos s) l q)) s X
  | _ => dirty s -> dres X
  end.
Proof.
  intros Hte Hi Hsep Hc Hs X. subst X. cbn [step e_lstt]. unfold lstt_step. destruct ls.
  - apply dsem_try; auto; intros b HC.
    + intros _. left. exists [VSink acc], (pos s), []. split; [reflexivity|]. split; [|now rewrite go_id].
      exists []. split; [now rewrite app_nil_r|]. now apply D_t_end.
    + apply dsem_cancel. intros s1 Hd Hp Hw.
      pose proof (s_lstt _ S c te i sep lim LSep sp s1 acc Hte Hi Hsep Hc ltac:(congruence)) as H. cbn zeta iota in H.
      rewrite Hd, Hp in H. auto.
  - intros HC. destruct sep as [[sr kd]|].
    + apply (dsem_orelse _ (fun v d p vs q => sinks (push v acc) (fun l q => trails c d te i sr kd p l q) vs q) _ s _ _ _
               (sem_final _ _ _ (s_parse _ S c sr s Hsep Hc Hs)) Hs).
      * intros s1 v Hs1.
        apply (s_lstt _ S c te i (Some (sr, kd)) lim LTrail (pos s) s1 (push v acc) Hte Hi Hsep Hc Hs1).
      * intros s1 Hd1 Hw1. destruct (pos s =? pos s1); [|now apply l_rec].
        destruct (is_branch prods i); [|now apply l_rec]. apply dres_try; intros b.
        -- intros Hf. apply dres_orelse.
           ++ eapply (sem_dirty _ _ (fun k a => e_finish E c i b k s1 a)); [eapply (s_finish _ S c i b s1)| | |]; auto using dk_final.
           ++ intros s2 v Hd2 Hw2. now apply l_term_d.
           ++ intros s2 Hd2 Hw2. apply dres_cancel; auto. intros s3 Hd3 _ _ Hw3. apply l_rec; auto. congruence.
        -- apply dres_cancel; auto. intros s2 Hd2 _ _ Hw2. apply l_rec; auto. congruence.
      * intros v q vs q' H1 H2. eapply sinks_push; [exact H2|]. cbn beta. intros l H3.
        destruct H3 as [(HC2 & Hsl & -> & ->)|(HC2 & v2 & q2 & l2 & HI & HT & ->)].
        -- rewrite app_nil_r. eapply D_t_trail; eauto.
        -- eapply D_t_sep; eauto.
    + eapply dsem_mono; [|now apply l_item]. intros vs q (l & -> & v & q2 & l2 & HI & HT & ->).
      exists (one v ++ l2). split; [reflexivity|]. eapply D_t_item; eauto.
  - destruct sep as [[sr kd]|]; [|exact I]. apply dsem_try; auto; intros b HC.
    + intros _. destruct kd; cbn [report_trailing]; [right; split; [reflexivity|exact Hs]| |];
        (left; exists [VSink acc], (pos s), []; split; [reflexivity|]; split; [|now rewrite go_id];
         exists []; split; [now rewrite app_nil_r|]; left; repeat split; auto).
    + eapply dsem_mono; [|now apply l_item]. intros vs q (l & -> & HI). exists l. split; [reflexivity|]. right. auto.
  - apply (dsem_orelse _ (fun v d p vs q => sinks (push v acc) (fun l q => D c d (JT te i sep) p [VSink l] q) vs q) _ s _ _ _
             (sem_final _ _ _ (s_parse _ S c i s Hi Hc Hs)) Hs).
    + intros s1 v Hs1. now apply l_term.
    + intros s1 Hd1 Hw1. now apply l_rec.
    + intros v q vs q' H1 H2. eapply sinks_push; [exact H2|]. intros l Hl. exists v, q, l. auto.
  - intros Hd. apply l_search; auto.
  - intros Hd. destruct sep as [[sr kd]|].
    + apply dres_try; intros sb.
      * intros Hf. apply dres_orelse.
        -- eapply (sem_dirty _ _ (fun k a => e_finish E c sr sb k (lstt_recovered b s) a)); [eapply (s_finish _ S c sr sb (lstt_recovered b s))| | |]; auto using dk_final.
        -- intros s2 v Hd2 Hw2. apply l_trail_d; auto. discriminate.
        -- intros s2 Hd2 Hw2. now apply l_rec.
      * apply dres_cancel; auto. intros s1 Hd1 _ _ Hw1. apply limit_d; auto. congruence.
    + destruct (is_branch prods i); [|now apply limit_d]. apply dres_try; intros ib.
      * intros Hf. apply dres_orelse.
        -- eapply (sem_dirty _ _ (fun k a => e_finish E c i ib k (lstt_recovered b s) a)); [eapply (s_finish _ S c i ib (lstt_recovered b s))| | |]; auto using dk_final.
        -- intros s2 v Hd2 Hw2. now apply l_term_d.
        -- intros s2 Hd2 Hw2. now apply l_rec.
      * apply dres_cancel; auto. intros s1 Hd1 _ _ Hw1. apply limit_d; auto. congruence.
Qed.

Lemma p_lstt_sem c te i sep lim s : described te -> described i -> oksep sep -> okw c -> wsf s = true ->
  sem (D c (depth s) (JR false (RLstT te i sep lim)) (pos s)) s (fun k a => p_lstt E c te i sep lim k s a).
Proof.
  intros Hte Hi Hsep Hc Hs. unfold p_lstt.
  set (fin := fun k a (s : st) (v : list val) => match e_try E te (vars s) (pos s) with
    | BR true b => e_finish E c te b k s (a ++ v) | BR false _ => Crash | BNoFuel => NoFuel | BCrash => Crash end).
  set (Jf := fun v d p vs q => exists ws, vs = v ++ ws /\ Cond te p true /\ D c d (JR true te) p ws q).
  assert (HF : forall s1 v, wsf s1 = true -> sem (Jf v (depth s1) (pos s1)) s1 (fun k a => fin k a s1 v)).
  { intros s1 v Hs1. unfold fin. apply sem_try; auto; intros b HC; [|apply sem_crash]. intros Hf.
    apply (sem_args _ _ _ (fun k a => e_finish E c te b k s1 a) v (s_finish _ S c te b s1 Hte Hc Hs1 Hf)).
    intros ws q H. exists ws. auto. }
  apply (sem_orelse _ (fun v d p vs q => exists l p2, D c d (JT te i sep) p [VSink l] p2 /\ Jf [VSink (one v ++ l)] d p2 vs q) _ s
           (e_parse E c i final s [])
           (fun k a s1 v => delim (e_lstt E c te i sep lim LTerm (pos s1) s1 (push v [])) (fin k a))
           (fun k a s1 => delim (e_lstt E c te i sep lim LRecovery (pos s1) s1 []) (fin k a))
           (sem_final _ _ _ (s_parse _ S c i s Hi Hc Hs)) Hs).
  - intros s1 v Hs1. eapply (sem_delim _ Jf); [now apply l_term|assumption|exact HF|].
    intros v2 q vs q' (l & -> & HT) HJ. rewrite push_one in HJ. exists l, q. auto.
  - intros s1 k a Hd1 Hw1 Hk. apply dres_delim; [now apply l_rec|]. intros s2 v Hd2 Hw2.
    apply (sem_dirty _ _ _ k a (HF s2 v Hw2) Hd2 Hw2 Hk).
  - intros v q vs q' HI (l & p2 & HT & ws & -> & HC & HD). cbn [app]. eapply D_lstt; eauto.
Qed.

(** ** Flags and repeated items *)
Lemma dsem_now (J : list val -> nat -> Prop) s vs : J vs (pos s) -> dsem J s (Res (OTrue vs) s 0).
Proof. intros H. left. exists vs, (pos s), []. split; [reflexivity|]. split; [exact H|]. now rewrite go_id. Qed.
Lemma step_flags c r t z s : described r -> okw c -> wsf s = true ->
  dsem (D c (depth s) (JF r z) (pos s)) s (e_flags (step inp prods E) c r t z s).
Proof.
  intros Hr Hc Hs. cbn [step e_flags]. unfold flags_step. apply dsem_try; auto; intros b HC.
  - intros Hf.
    apply (dsem_delim _ (fun v d p vs q => exists f, v = [VInt f] /\ Z.land z f <> f /\ D c d (JF r (Z.lor z f)) p vs q) _ s _ _
             (sem_final _ _ _ (s_finish _ S c r b s Hr Hc Hs Hf)) Hs).
    + intros s1 v Hs1. destruct v as [|[] [|]]; try (right; exact I). destruct (Z.eqb_spec (Z.land z z0) z0) as [Hz|Hz].
      * right. eapply dsem_dirty; [apply (s_flags _ S c r t (Z.lor z z0)); auto|reflexivity|exact Hs1].
      * eapply dsem_mono; [|apply (s_flags _ S c r t (Z.lor z z0)); auto]. cbn beta. intros vs q H. eauto.
    + intros v q vs q' H1 (f & -> & Hz & H2). eapply D_f_flag; eauto.
  - apply dsem_cancel. intros s1 Hd Hp Hw. apply dsem_now. rewrite Hp. now apply D_f_end.
Qed.

Lemma step_comb c dup els rs used h s acc : Forall described rs -> okelse els -> sized els rs -> okw c -> wsf s = true ->
  agree rs h used -> dsem (sinks acc (fun l q => D c (depth s) (JC els rs used) (pos s) [VSink l] q)) s
    (e_comb (step inp prods E) c dup (comb_choice els rs) (length rs) (length used) h s acc).
Proof.
  intros Hrs He Hsz Hc Hs Ha. cbn [step e_comb]. unfold comb_step. destruct (Nat.leb_spec (length rs) (length used)) as [Hl|Hl].
  - apply dsem_now. exists []. split; [now rewrite app_nil_r|now apply D_c_all].
  - rewrite (comb_choice_chc els rs Hsz ltac:(lia)) at 1.
    assert (HP : picks c rs els 0 s (e_parse E c (RChc (comb_alts 0 rs ++ elsl els)) final s [])).
    { destruct n as [|m]; [right; right; exact I|]. cbn [RuleModel.eng step e_parse parse_step].
      apply comb_pick; auto. }
    destruct HP as [(i & r & v & q & es & Hcl & H1 & H2 & H3 & ->)|[(es & Hcl & H1 & -> & ->)|H]].
    + cbn [Nat.add]. assert (Hi : i < length rs) by (apply nth_error_Some; congruence).
      destruct (nth i h false) eqn:Hn.
      * right. eapply dsem_dirty; [apply (s_comb _ S c dup els rs used h); auto; exact Hs|reflexivity|exact Hs].
      * apply (dsem_pre _ s q es _ Hcl).
        eapply dsem_mono; [|apply (s_comb _ S c dup els rs (i :: used) (set_nth i h) (go s q es) (push v acc)); auto using agree_next].
        cbn beta. intros vs q' H4. eapply sinks_push; [exact H4|]. intros l Hd. eapply D_c_item; eauto.
        intros Hin. apply (proj2 Ha) in Hin; [congruence|exact Hi].
    + left. exists [VSink acc], (pos s), es. split; [exact Hcl|]. split; [|reflexivity].
      exists []. split; [now rewrite app_nil_r|]. now apply D_c_stop.
    + right. destruct (e_parse E c (RChc (comb_alts 0 rs ++ elsl els)) final s []) as [[] s1 m| |]; try exact I; destruct H as [Hd Hw];
        try (split; assumption).
      destruct (nth i h false).
      * eapply dsem_dirty; [apply (s_comb _ S c dup els rs used h); auto; exact Hw|reflexivity|exact Hw].
      * eapply dsem_dirty; [apply (s_comb _ S c dup els rs (i :: used) (set_nth i h)); auto using agree_next|exact Hd|exact Hw].
Qed.

Definition trailing (c : cx) (d : nat) (sep : rule * sepk) (p : nat) (v : list val) (q : nat) : Prop :=
  (v = [] /\ q = p /\ (snd sep = SIgnore \/ Cond (fst sep) p false)) \/
  (snd sep = STrail /\ Cond (fst sep) p true /\ D c d (JR true (fst sep)) p v q).
Lemma trailing_sem c sep s : described (fst sep) -> okw c -> wsf s = true ->
  dsem (trailing c (depth s) sep (pos s)) s (e_parse E c (trailing_rule sep) final s []).
Proof.
  intros Hr Hc Hs. destruct sep as [sr kd].
  assert (H : described (trailing_rule (sr, kd))) by (destruct kd; exact Hr || exact I).
  eapply dsem_mono; [|apply (sem_final _ _ (fun k a => e_parse E c (trailing_rule (sr, kd)) k s a)); apply (s_parse _ S c _ s H Hc Hs)].
  unfold trailing. destruct kd; cbn [fst snd trailing_rule]; intros vs q HD; inversion HD; subst; auto 6.
Qed.
Lemma rep_sem c i sep : described i -> oksep sep -> okw c -> forall m s acc, wsf s = true ->
  dsem (sinks acc (fun l q => D c (depth s) (JN m i sep) (pos s) [VSink l] q)) s (rep_more E c i sep m s acc).
Proof.
  intros Hi Hsep Hc. induction m as [|m IH]; intros s acc Hs; cbn [rep_more].
  - destruct sep as [[sr kd]|].
    + apply (dsem_delim _ (fun v d p vs q => vs = [VSink (acc ++ one v)] /\ q = p) _ s _
               (fun s v => Res (OTrue [VSink (push v acc)]) s 0) (trailing_sem c (sr, kd) s Hsep Hc Hs) Hs).
      * intros s1 v Hs1. apply dsem_now. now rewrite push_one.
      * intros v q vs q' HT (-> & ->). exists (one v). split; [reflexivity|].
        destruct HT as [(-> & -> & HT)|(Hk & H1 & H2)]; cbn [fst snd] in *.
        -- destruct kd; try (apply D_n_any); (apply D_n_stop; [destruct HT as [HT|HT]; [discriminate|exact HT]|discriminate]).
        -- subst kd. now apply D_n_trail.
    + apply dsem_now. exists []. split; [now rewrite app_nil_r|apply D_n_end].
  - assert (HN : forall s acc, wsf s = true -> dsem (sinks acc (fun l q => exists v q1 l2, D c (depth s) (JR false i) (pos s) v q1 /\
        D c (depth s) (JN m i sep) q1 [VSink l2] q /\ l = one v ++ l2)) s
        (delim (e_parse E c i final s []) (fun s v => rep_more E c i sep m s (push v acc)))).
    { intros s1 acc1 Hs1.
      apply (dsem_delim _ (fun v d p vs q => sinks (push v acc1) (fun l q => D c d (JN m i sep) p [VSink l] q) vs q) _ s1 _ _
               (sem_final _ _ _ (s_parse _ S c i s1 Hi Hc Hs1)) Hs1).
      - intros s2 v Hs2. now apply IH.
      - intros v q vs q' H1 H2. eapply sinks_push; [exact H2|]. intros l Hl. exists v, q, l. auto. }
    destruct sep as [[sr kd]|].
    + apply (dsem_delim _ (fun v d p vs q => sinks (push v acc) (fun l q => exists v q1 l2, D c d (JR false i) p v q1 /\
                 D c d (JN m i (Some (sr, kd))) q1 [VSink l2] q /\ l = one v ++ l2) vs q) _ s _ _
               (sem_final _ _ _ (s_parse _ S c sr s Hsep Hc Hs)) Hs).
      * intros s1 v Hs1. now apply HN.
      * intros v q vs q' H1 H2. eapply sinks_push; [exact H2|]. cbn beta. intros l (v2 & q2 & l2 & H3 & H4 & ->). eapply D_n_sep; eauto.
    + eapply dsem_mono; [|apply HN; exact Hs]. intros vs q (l & -> & v & q1 & l2 & H1 & H2 & ->).
      eexists. split; [reflexivity|]. eapply D_n_item; eauto.
Qed.
Definition repj c d m i sep p (v : list val) vs q : Prop :=
  (count_of v = Some 0 /\ q = p /\ vs = repeated m [] p p) \/
  (exists j v2 q2 l, count_of v = Some (Datatypes.S j) /\ D c d (JR false i) p v2 q2 /\ D c d (JN j i sep) q2 [VSink l] q /\
    vs = repeated m (one v2 ++ l) p q).
Lemma reprun_sem c m i sep s v : described i -> oksep sep -> okw c -> wsf s = true ->
  sem (repj c (depth s) m i sep (pos s) v) s (fun k a => rep_run E c m i sep k a s v).
Proof.
  intros Hi Hsep Hc Hs. unfold rep_run. destruct (count_of v) as [[|j]|] eqn:Hn; cbn [rep_loop].
  - cbn [delim]. apply (sem_ext _ _ (fun k a => k_fn k s (a ++ repeated m [] (pos s) (pos s)))).
    + intros k a _. destruct m; cbn [repeated]; now rewrite ?app_nil_r.
    + apply sem_now. left. auto.
  - apply (sem_delim (sinks [] (fun l q => exists v2 q2 l2, D c (depth s) (JR false i) (pos s) v2 q2 /\
              D c (depth s) (JN j i sep) q2 [VSink l2] q /\ l = one v2 ++ l2))
            (fun v d p vs q => q = p /\ forall l, v = [VSink l] -> vs = repeated m l (pos s) p) _ s).
    + apply (dsem_delim _ (fun v d p vs q => sinks (push v []) (fun l q => D c d (JN j i sep) p [VSink l] q) vs q) _ s _ _
               (sem_final _ _ _ (s_parse _ S c i s Hi Hc Hs)) Hs).
      * intros s1 v1 Hs1. now apply rep_sem.
      * intros v1 q vs q' H1 H2. eapply sinks_push; [exact H2|]. intros l Hl. exists v1, q, l. auto.
    + exact Hs.
    + intros s1 v1 Hs1.
      apply (sem_ext _ _ (fun k a => k_fn k s1 (a ++ match m with RepDiscard => [] | RepList => v1 | RepCapture => [VLex (pos s) (pos s1)] end))).
      * intros k a _. destruct m; now rewrite ?app_nil_r.
      * apply sem_now. split; [reflexivity|]. intros l ->. destruct m; reflexivity.
    + intros v1 q vs q' (l & -> & v2 & q2 & l2 & H1 & H2 & ->) (-> & Hv). right. exists j, v2, q2, l2. auto.
  - apply sem_crash.
Qed.

(** ** Recovery *)
Lemma step_reco c lim al b s k a : described al -> okw c -> wsf s = true -> dirty s -> dk k ->
  dres (e_reco (step inp prods E) c lim al b k s a).
Proof.
  intros Hal Hc Hs Hd Hk. cbn [step e_reco]. unfold reco_step. apply dres_try; intros bs.
  - intros Hf. eapply (sem_dirty _ (emit (ERFinish (pos s)) (emit (EToken KError b (pos s)) s)) (fun k a => e_finish E c al bs k (emit (ERFinish (pos s)) (emit (EToken KError b (pos s)) s)) a)); [|exact Hd|exact Hs|exact Hk].
    apply s_finish; auto.
  - apply dres_cancel; auto. intros s1 Hd1 _ _ Hw. destruct (fst (tk_try lim inp (pos s1)) || eof inp (pos s1)).
    + split; [exact Hd1|]. cbn. congruence.
    + apply (s_reco _ S); auto. cbn. congruence.
Qed.
Lemma ws_dk c k s a : okw c -> dk k -> dirty s -> wsf s = true -> dres (ws_then E c k s a).
Proof. intros Hc Hk Hd Hw. apply (sem_dirty _ _ _ k a (sem_ws n S c s Hc Hw) Hd Hw Hk). Qed.
Lemma recw_d c r s k a : match r with Some r => described r | None => True end -> okw c -> wsf s = true -> dirty s -> dk k ->
  dres (p_recw E c r k s a).
Proof.
  intros Hr Hc Hs Hd Hk. unfold p_recw.
  set (kc := Cont false (fun s a => mark (k_fn k (emit (ERFinish (pos s)) s) a))).
  assert (Hkc : dk kc). { split; [reflexivity|]. intros s1 a1 Hd1 Hw1. apply dres_mark. now apply Hk. }
  set (wsk := Cont false (fun s a => ws_then E c kc s a)).
  assert (Hwk : dk wsk). { split; [reflexivity|]. intros s1 a1 Hd1 Hw1. now apply ws_dk. }
  assert (HX : dres (match r with None => k_fn wsk (emit (ERStart (pos s)) s) a | Some r => e_parse E c r wsk (emit (ERStart (pos s)) s) a end)).
  { destruct r as [r|]; [|now apply Hwk].
    eapply (sem_dirty _ (emit (ERStart (pos s)) s) (fun k a => e_parse E c r k (emit (ERStart (pos s)) s) a)); [|exact Hd|exact Hs|exact Hwk]. apply s_parse; auto. }
  destruct (match r with None => k_fn wsk (emit (ERStart (pos s)) s) a | Some r => e_parse E c r wsk (emit (ERStart (pos s)) s) a end)
    as [o s1 [|m]| |]; try exact I; exact HX.
Qed.
Lemma step_recov c rec s k a : okrec rec -> okw c -> wsf s = true -> dirty s -> dk k ->
  dres (try_recover (step inp prods E) c rec k s a).
Proof.
  intros Hr Hc Hs Hd Hk.
  assert (HR : forall r, rec = Some r -> described r -> dres (p_recw E c rec k s a)).
  { intros r -> Hdr. now apply recw_d. }
  unfold try_recover. cbn [step e_parse].
  destruct rec as [r|]; [|cbn [parse_step]; now apply recw_d].
  destruct r; try (cbn [parse_step]; apply (HR _ eq_refl); exact Hr).
  - cbn [parse_step]. unfold p_find. destruct (search_from inp f (pos s)) as [[[|] b] e].
    + apply Hk; [exact Hd|exact Hs].
    + split; [exact Hd|exact Hs].
  - cbn [parse_step]. apply (s_reco _ S); auto. now apply described_alts.
Qed.

(** ** Parse and finish *)
Lemma step_parse c r s : described r -> okw c -> wsf s = true ->
  sem (D c (depth s) (JR false r) (pos s)) s (fun k a => e_parse (step inp prods E) c r k s a).
Proof.
  intros Hr Hc Hs. destruct r; try (exfalso; exact Hr).
  - (* RTok *) cbn [step e_parse parse_step]. unfold token_parse. cbn [tmatch].
    destruct (tk_try t inp (pos s)) as [[|] e] eqn:Ht; cbn [fst snd].
    + apply sem_ext0. apply tok_sem; auto. intros. eapply D_tok; eauto.
    + apply sem_dres. intros. cbn [terror]. destruct (tk_err t inp (pos s)) as [[? ?] ?]. split; [reflexivity|exact Hs].
  - (* RSeq *) cbn [step e_parse parse_step]. unfold p_seq. apply described_seq in Hr.
    eapply sem_mono; [|apply seq_sem; auto]. intros. now apply D_seq.
  - (* RBr *) cbn [step e_parse parse_step]. unfold p_seq. apply described_br in Hr. destruct Hr as [Hb Hrs].
    eapply sem_mono; [|apply seq_sem; auto]. intros vs q H. inversion H; subst. eapply D_br; eauto.
  - (* RElse *) cbn [step e_parse parse_step]. apply sem_now0. constructor.
  - (* RChc *) cbn [step e_parse parse_step]. apply chc_sem; auto. now apply described_chc.
  - (* RIf *) cbn [step e_parse parse_step]. unfold branch_or. apply sem_try; auto; intros b HC.
    + intros Hf. eapply sem_mono; [|apply s_finish; eauto]. intros. now apply D_if_yes.
    + apply sem_cancel. intros s1 Hd Hp Hw. apply sem_now0. rewrite Hp. now apply D_if_no.
  - (* ROpt *) cbn [step e_parse parse_step]. unfold branch_or. apply sem_try; auto; intros b HC.
    + intros Hf. eapply sem_mono; [|apply s_finish; eauto]. intros. now apply D_opt_yes.
    + apply sem_cancel. intros s1 Hd Hp Hw. apply sem_now. rewrite Hp. now apply D_opt_no.
  - (* ROptT *) cbn [step e_parse parse_step]. destruct Hr as [Ht Hr]. apply sem_try; auto; intros b HC.
    + intros Hf. apply (sem_args _ _ _ (fun k a => e_finish E c r1 b k s a) [VNull] (s_finish _ S c r1 b s Ht Hc Hs Hf)).
      intros. cbn [app]. now apply D_optt_end.
    + apply sem_cancel. intros s1 Hd Hp Hw. eapply sem_mono; [|apply s_parse; auto; congruence]. cbn beta. rewrite Hd, Hp.
      intros. now apply D_optt_rule.
  - (* RErr *) cbn [step e_parse parse_step]. apply sem_dres. intros. now apply err_dres.
  - (* RMust *) cbn [step e_parse parse_step]. unfold branch_or. apply sem_try; auto; intros b HC.
    + intros Hf. eapply sem_mono; [|apply s_finish; eauto]. intros. now apply D_must.
    + apply sem_cancel. intros s1 Hd Hp Hw. apply sem_dres. intros. apply err_dres. congruence.
  - (* RLoop *) destruct r; try (exfalso; exact Hr). apply loop_sem; auto. now apply described_loop.
  - (* RWhile *) now apply while_sem.
  - (* RLst *) cbn [step e_parse parse_step]. destruct Hr as [Hi Hsep].
    apply (sem_delim _ (fun v d p vs q => exists l, vs = [VSink (one v ++ l)] /\ D c d (JM r sep) p [VSink l] q) _ s
             (e_parse E c r final s []) (fun k a s v => delim (e_lst E c r sep s (push v [])) (sink_finish k a))
             (sem_final _ _ _ (s_parse _ S c r s Hi Hc Hs)) Hs).
    + intros s1 v Hs1. eapply (sem_delim _ (fun v d p vs q => vs = v /\ q = p)).
      * apply (s_lst _ S c r sep s1 (push v []) Hi Hsep Hc Hs1).
      * exact Hs1.
      * intros s2 v2 Hs2. unfold sink_finish. apply sem_now. auto.
      * cbn beta. intros v2 q vs q' (l & -> & HM) (-> & ->). exists l. rewrite push_one. auto.
    + intros v q vs q' H1 (l & -> & HM). eapply D_lst; eauto.
  - (* RLstT *) cbn [step e_parse parse_step]. destruct Hr as (Ht & Hi & Hsep). now apply p_lstt_sem.
  - (* RNSep *) cbn [step e_parse parse_step]. unfold p_nsep, branch_or. apply sem_try; auto; intros b HC.
    + intros Hf. right. intros k a Hk.
      destruct (s_finish _ S c r b s Hr Hc Hs Hf) as [(vs & q & es & Hcl & HD & HK)|HX].
      * rewrite HK by reflexivity. cbn [k_fn]. apply Hk; [reflexivity|exact Hs].
      * apply HX. split; [reflexivity|]. intros s1 a1 Hd1 Hw1. cbn [k_fn]. apply Hk; [reflexivity|exact Hw1].
    + apply sem_cancel. intros s1 Hd Hp Hw. apply sem_now0. rewrite Hp. now apply D_nsep.
  - (* RTryT *) cbn [step e_parse parse_step]. unfold p_try. apply described_tryt in Hr. destruct Hr as (Hte & Hr & Hrec).
    apply (tryc_sem n S c _ _ s (fun k a => e_parse E c r k s a) _ _ (s_parse _ S c r s Hr Hc Hs)); auto.
    intros. eapply D_tryt; eauto.
  - (* RTry *) cbn [step e_parse parse_step]. unfold p_try. apply described_try in Hr. destruct Hr as (Hr & Hrec).
    apply (tryc_sem n S c None _ s (fun k a => e_parse E c r k s a) _ _ (s_parse _ S c r s Hr Hc Hs)); auto.
    intros v q vs q' H1 H2. inversion H2; subst. rewrite app_nil_r. now apply D_try.
  - (* RProd *) cbn [step e_parse parse_step]. unfold p_prod.
    change (emit (EPStart p (pos s)) s) with (go s (pos s) [EPStart p (pos s)]).
    apply (sem_pre _ s (pos s) [EPStart p (pos s)]); [reflexivity|].
    set (s1 := go s (pos s) [EPStart p (pos s)]). assert (Hs1 : wsf s1 = true) by exact Hs.
    assert (HB : forall s2, wsf s2 = true -> dsem (D (child_cx prods c p) (depth s2) (JR false (p_rule (prods p))) (pos s2)) s2
      (e_parse E (child_cx prods c p) (p_rule (prods p)) final s2 [])).
    { intros s2 Hs2. apply (sem_final _ _ (fun k a => e_parse E (child_cx prods c p) (p_rule (prods p)) k s2 a)).
      apply s_parse; auto using okw_child. apply HG. }
    destruct (p_ws (prods p)) as [w|] eqn:Hw.
    + eapply (prod_sem n S c p s1 _ (fun vs q => exists p1, D (before prods p) (depth s) JW (pos s) [] p1 /\
                D (inner prods c p) (depth s) (JR false (p_rule (prods p))) p1 vs q)); auto.
      * eapply (sem_start _ (fun d q vs q' => D (child_cx prods c p) d (JR false (p_rule (prods p))) q vs q') _ s1 (fun k a => ws_then E (child_cx prods c p) k s1 a) _
                 (sem_ws n S (child_cx prods c p) s1 (okw_child c p Hc) Hs1) Hs1 HB).
        intros v q vs q' H1 H2. exists q. split; [|rewrite <- child_inner; exact H2].
        eapply wsj_D. unfold before. cbn [cx_ws]. unfold child_cx in H1. cbn [cx_ws] in H1. rewrite Hw in *.
        destruct (p_token (prods p)); exact H1.
      * cbn beta. intros v q q' (p1 & H1 & H2) H3. eapply D_prod; eauto.
    + eapply (prod_sem n S c p s1 _ _ _ (HB s1 Hs1)); auto. intros v q q' H1 H2. eapply D_prod; [|rewrite <- child_inner; exact H1|exact H2].
      apply D_ws_none. exact Hw.
  - (* RRec *) cbn [step e_parse parse_step]. unfold inc_depth. destruct (cx_max c =? 0) eqn:H0; [apply sem_crash|].
    destruct (cx_max c <=? depth s) eqn:Hle.
    + apply sem_dres. intros. split; [reflexivity|exact Hs].
    + apply (sem_depth _ s (fun k a => e_parse E c (RProd p) k (setdepth (Datatypes.S (depth s)) s) a)).
      eapply sem_mono; [|apply s_parse; auto]. cbn. intros. apply D_rec; [apply Nat.leb_gt; exact Hle|assumption].
  - (* RRecB *) cbn [step e_parse parse_step]. unfold inc_depth. destruct (cx_max c =? 0) eqn:H0; [apply sem_crash|].
    destruct (cx_max c <=? depth s) eqn:Hle.
    + apply sem_dres. intros. split; [reflexivity|exact Hs].
    + apply (sem_depth _ s (fun k a => e_parse E c (RProd p) k (setdepth (Datatypes.S (depth s)) s) a)).
      eapply sem_mono; [|apply s_parse; auto]. cbn. intros. apply D_recb; [apply Nat.leb_gt; exact Hle|assumption].
  - (* RPeek *) cbn [step e_parse parse_step]. destruct r; try (exfalso; exact Hr). cbn [tmatch].
    destruct (tk_try t0 inp (pos s)) as [[|] e] eqn:Ht; cbn [fst snd].
    + apply (sem_ret _ s _ (pos s) [EBack (pos s) e] []); [reflexivity| |intros; now rewrite app_nil_r].
      apply D_peek. now rewrite Ht.
    + right. intros k a Hk. apply Hk; [reflexivity|exact Hs].
  - (* RPeekN *) cbn [step e_parse parse_step]. destruct r; try (exfalso; exact Hr). cbn [tmatch].
    destruct (tk_try t0 inp (pos s)) as [[|] e] eqn:Ht; cbn [fst snd].
    + right. intros k a Hk. apply Hk; [reflexivity|exact Hs].
    + apply (sem_ret _ s _ (pos s) [EBack (pos s) e] []); [reflexivity| |intros; now rewrite app_nil_r].
      apply D_peekn. now rewrite Ht.
  - (* RLook *) cbn [step e_parse parse_step]. pose proof (search_from_Ahead f (pos s)) as HA.
    destruct (search_from inp f (pos s)) as [[[|] b] e]; cbn [fst snd] in HA.
    + apply (sem_ret _ s _ (pos s) [EBack (pos s) e] []); [reflexivity| |intros; now rewrite app_nil_r].
      now apply D_look.
    + right. intros k a Hk. apply Hk; [reflexivity|exact Hs].
  - (* RRep *) cbn [step e_parse parse_step]. destruct Hr as (Hn & Hi & Hsep).
    apply (sem_delim _ (fun v d p vs q => repj c d m r2 sep p v vs q) _ s
             (e_parse E c r1 final s []) (fun k a s v => rep_run E c m r2 sep k a s v)
             (sem_final _ _ _ (s_parse _ S c r1 s Hn Hc Hs)) Hs).
    + intros s1 v Hs1. now apply reprun_sem.
    + intros v q vs q' H1 [(H2 & -> & ->)|(j & v2 & q2 & l & H2 & H3 & H4 & ->)]; [eapply D_rep_none|eapply D_rep_some]; eauto.
  - (* RComb *) cbn [step e_parse parse_step]. apply described_comb in Hr. destruct Hr as (Hrs & He & [Hsz|(-> & r & ->)]).
    2: { apply (sem_delim _ (fun v d p vs q => vs = v /\ q = p) _ s
             (e_comb E c dup (comb_choice None [r]) 1 0 [false] s []) (fun k a => sink_finish k a)
             (one_comb n SS c dup r s ltac:(now inversion Hrs) Hc Hs) Hs).
      - intros s1 v Hs1. unfold sink_finish. apply sem_now. auto.
      - intros v q vs q' (l & -> & H1) (-> & ->). now apply D_comb_one. }
    apply (sem_delim _ (fun v d p vs q => vs = v /\ q = p) _ s
             (e_comb E c dup (comb_choice els rs) (length rs) (length (@nil nat)) (repeat false (length rs)) s [])
             (fun k a => sink_finish k a)
             (s_comb _ S c dup els rs [] _ s [] Hrs He Hsz Hc Hs (agree_start rs)) Hs).
    + intros s1 v Hs1. unfold sink_finish. apply sem_now. auto.
    + intros v q vs q' (l & -> & H1) (-> & ->). apply D_comb; [exact Hsz|exact H1].
  - (* RFlags *) cbn [step e_parse parse_step].
    apply (sem_delim _ (fun v d p vs q => vs = v /\ q = p) _ s
             (e_flags E c r t d s) (fun k a s v => k_fn k s (a ++ v)) (s_flags _ S c r t d s Hr Hc Hs) Hs).
    + intros s1 v Hs1. apply sem_now. auto.
    + intros v q vs q' H1 (-> & ->). now apply D_flags.
  - (* RFlag *) cbn [step e_parse parse_step]. apply sem_try; auto; intros b1 HC.
    + intros Hf. apply (sem_args _ _ _ (fun k x => e_finish E c r b1 k s x) [VInt a] (s_finish _ S c r b1 s Hr Hc Hs Hf)).
      intros. cbn [app]. now apply D_flag_yes.
    + apply sem_cancel. intros s1 Hd Hp Hw. apply sem_now. rewrite Hp. now apply D_flag_no.
  - (* RPos *) cbn [step e_parse parse_step].
    apply (sem_ret _ s _ (pos s) [EToken KPosition (pos s) (pos s)] [VPos (pos s)]); [reflexivity|constructor|reflexivity].
  - (* RPosR *) cbn [step e_parse parse_step]. apply (sem_pre _ s (pos s) [EToken KPosition (pos s) (pos s)]); [reflexivity|].
    apply (sem_args _ _ _ (fun k a => e_parse E c r k (emit (EToken KPosition (pos s) (pos s)) s) a) [VPos (pos s)]
             (s_parse _ S c r (emit (EToken KPosition (pos s) (pos s)) s) Hr Hc Hs)).
    intros. cbn [app]. now apply D_posr.
  - (* RCap *) cbn [step e_parse parse_step]. destruct r; try (exfalso; exact Hr). unfold token_parse. cbn [tmatch].
    destruct (tk_try t inp (pos s)) as [[|] e] eqn:Ht; cbn [fst snd].
    + apply tok_sem; auto. intros. eapply D_cap; eauto.
    + apply sem_dres. intros. cbn [terror]. destruct (tk_err t inp (pos s)) as [[? ?] ?]. split; [reflexivity|exact Hs].
  - (* REof *) cbn [step e_parse parse_step]. destruct (eof inp (pos s)) eqn:He.
    + apply (sem_ret _ s _ (pos s) [EToken KEof (pos s) (pos s)] []); [reflexivity| |intros; now rewrite app_nil_r].
      apply D_eof. now apply Nat.leb_le in He.
    + right. intros k a Hk. apply Hk; [reflexivity|exact Hs].
  - (* RPas *) cbn [step e_parse parse_step]. unfold pas_after.
    apply (sem_delim _ (fun v d p vs q => vs = [VAs v] /\ q = p) _ s
             (e_parse E c r final s []) (fun k a s v => k_fn k s (a ++ [VAs v]))
             (sem_final _ _ _ (s_parse _ S c r s Hr Hc Hs)) Hs).
    + intros s1 v Hs1. apply sem_now. auto.
    + intros v q vs q' H1 (-> & ->). now apply D_pas.
  - (* RSym *) cbn [step e_parse parse_step]. destruct r; try (exfalso; exact Hr). unfold token_parse. cbn [tmatch tkind_of].
    destruct (tk_try t inp (pos s)) as [[|] e] eqn:Ht; cbn [fst snd].
    + apply (sem_pre _ s e [EToken (tk_kind t) (pos s) e]); [reflexivity|].
      set (s1 := go s e [EToken (tk_kind t) (pos s) e]).
      apply (sem_bind (wsj (cx_ws c) e)
               (fun d p vs q => exists z, f (slice inp (pos s) e) = Some z /\ vs = [VInt z] /\ q = p) _ s1
               (fun k a => ws_then E c k s1 a)
               (fun k => Cont false (fun s2 a => match f (slice inp (pos s) e) with
                  | None => Res OFalse (emit (EError tag (pos s) e) s2) 0
                  | Some z => k_fn k s2 (a ++ [VInt z]) end))
               (sem_ws n S c s1 Hc Hs) Hs).
      * reflexivity.
      * intros s2 Hs2. cbn [k_fn]. destruct (f (slice inp (pos s) e)) as [z|].
        -- apply sem_now. eauto.
        -- apply sem_dres. intros. split; [reflexivity|exact Hs2].
      * intros v q vs q' H1 (z & Hz & -> & ->). pose proof (wsj_nil _ _ _ _ H1). subst v. cbn [app].
        eapply D_sym; eauto. eapply wsj_D. exact H1.
    + apply sem_dres. intros. cbn [terror]. destruct (tk_err t inp (pos s)) as [[? ?] ?]. split; [reflexivity|exact Hs].
  - (* RSub *) cbn [step e_parse parse_step]. unfold do_action. set (c' := Cx (p_ws (prods p)) (cx_max c)).
    set (s0 := emit (EPStart p (pos (setvars [] s))) (emit (EGStart (pos (setvars [] s))) (setvars [] s))).
    assert (Hc' : okw c') by (intros w Hw; apply (HG p); exact Hw).
    assert (H : dsem (fun vs q => exists q0, D c' (depth s) JW (pos s) [] q0 /\ D c' (depth s) (JR false (p_rule (prods p))) q0 vs q) s0
      (ws_then E c' (Cont false (fun s _ => e_parse E c' (p_rule (prods p)) final s [])) s0 [])).
    { eapply (sem_start _ (fun d q vs q' => D c' d (JR false (p_rule (prods p))) q vs q') _ s0 (fun k a => ws_then E c' k s0 a) _
               (sem_ws n S c' s0 Hc' Hs) Hs).
      - intros s1 Hs1. apply (sem_final _ _ (fun k a => e_parse E c' (p_rule (prods p)) k s1 a)).
        apply s_parse; auto. apply HG.
      - intros v q vs' q' H1 H2. exists q. split; [|exact H2]. eapply wsj_D. exact H1. }
    assert (HE : ws_then E c' (Cont false (e_parse E c' (p_rule (prods p)) final)) s0 [] =
                 ws_then E c' (Cont false (fun s _ => e_parse E c' (p_rule (prods p)) final s [])) s0 []) by reflexivity.
    rewrite HE. clear HE. destruct H as [(v & q & es & Hcl & (q0 & H1 & H2) & ->)|H].
    + apply (sem_ret _ s _ q (EGFinish q :: EPFinish p q :: es ++ [EPStart p (pos s); EGStart (pos s)]) [VProd p v]).
      * unfold clean in *. cbn [existsb is_err orb]. now rewrite existsb_app, Hcl.
      * now apply D_sub with q0.
      * intros k a Hk. unfold go, emit, setvars. cbn [pos depth wsf vars trace s0 app]. now rewrite <- app_assoc.
    + apply sem_dres'. intros k a Hk.
      destruct (ws_then E c' (Cont false (fun s _ => e_parse E c' (p_rule (prods p)) final s [])) s0 []) as [[] s1 m1| |]; try exact I;
        destruct H as [Hd Hw]; [exact (conj Hd Hw)|].
      apply Hk; [exact Hd|exact Hw].
Qed.

Lemma fits_step r p b : fits r p b -> exists m vs, try_step inp prods (eng m) r vs p = BR true b.
Proof. intros ([|m] & vs & H); [discriminate|]. exists m, vs. exact H. Qed.

Lemma step_finish c r b s : described r -> okw c -> wsf s = true -> fits r (pos s) b ->
  sem (D c (depth s) (JR true r) (pos s)) s (fun k a => e_finish (step inp prods E) c r b k s a).
Proof.
  intros Hr Hc Hs Hfit. apply fits_step in Hfit. destruct Hfit as (m & vs0 & Hfit).
  destruct r; try (exfalso; exact Hr); try (cbn in Hfit; discriminate); cbn [try_step] in Hfit; cbn [step e_finish finish_step].
  - (* RTok *) cbn [tmatch] in Hfit. destruct (tk_try t inp (pos s)) as [ok e] eqn:Ht. injection Hfit as -> <-.
    cbn [b_end]. unfold tok_finish. apply sem_ext0. apply tok_sem; auto. intros. eapply D_tok; eauto.
  - (* RBr *) apply described_br in Hr. destruct Hr as [Hb Hrs].
    apply (sem_bind (D c (depth s) (JR true r) (pos s)) (fun d p vs q => D c d (JS rs) p vs q) _ s (fun k a => e_finish E c r b k s a) (seq_cont E c rs)); auto using seq_nows.
    + apply s_finish; auto. exists m, vs0. exact Hfit.
    + intros. now apply seq_sem.
    + intros. eapply D_br; eauto.
  - (* RElse *) eapply sem_mono; [|apply s_parse; auto]. intros vs q H. inversion H; subst. constructor.
  - (* RChc *) apply described_chc in Hr. destruct (t_chc_shape _ _ _ _ _ _ _ Hfit) as (j & bs & -> & _).
    rewrite <- (Nat.sub_0_r j). eapply fchc_sem; eauto.
  - (* RErr *) eapply sem_mono; [|apply s_parse; auto]. intros vs q H. inversion H.
  - (* RMust *) eapply sem_mono; [|apply s_finish; auto; exists m, vs0; exact Hfit]. intros. now apply D_must_taken.
  - (* RLst *) destruct Hr as [Hi Hsep]. assert (Hf : fits r (pos s) b) by (exists m, vs0; exact Hfit).
    apply (sem_delim _ (fun v d p vs q => exists l, vs = [VSink (one v ++ l)] /\ D c d (JM r sep) p [VSink l] q) _ s
             (e_finish E c r b final s []) (fun k a s v => delim (e_lst E c r sep s (push v [])) (sink_finish k a))
             (sem_final _ _ _ (s_finish _ S c r b s Hi Hc Hs Hf)) Hs).
    + intros s1 v Hs1. eapply (sem_delim _ (fun v d p vs q => vs = v /\ q = p)).
      * apply (s_lst _ S c r sep s1 (push v []) Hi Hsep Hc Hs1).
      * exact Hs1.
      * intros s2 v2 Hs2. unfold sink_finish. apply sem_now. auto.
      * cbn beta. intros v2 q vs q' (l & -> & HM) (-> & ->). exists l. rewrite push_one. auto.
    + intros v q vs q' H1 (l & -> & HM). eapply D_lst; eauto.
  - (* RTry *) apply described_try in Hr. destruct Hr as (Hr & Hrec). assert (Hf : fits r (pos s) b) by (exists m, vs0; exact Hfit).
    apply (tryc_sem n S c None _ s (fun k a => e_finish E c r b k s a) _ _ (s_finish _ S c r b s Hr Hc Hs Hf)); auto.
    intros v q vs q' H1 H2. inversion H2; subst. rewrite app_nil_r. now apply D_try.
  - (* RProd *) destruct (e_try (eng m) (p_rule (prods p)) vs0 (pos s)) as [ok1 b1| |] eqn:H1; try discriminate.
    injection Hfit as -> <-. cbn [b_in b_at].
    apply (sem_pre _ s (pos s) [EPStart p (pos s)]); [reflexivity|].
    change (emit (EPStart p (pos s)) s) with (go s (pos s) [EPStart p (pos s)]).
    set (s1 := go s (pos s) [EPStart p (pos s)]).
    eapply (prod_sem n S c p s1 _ (D (child_cx prods c p) (depth s1) (JR true (p_rule (prods p))) (pos s1))); auto.
    + apply (sem_final _ _ (fun k a => e_finish E (child_cx prods c p) (p_rule (prods p)) b1 k s1 a)).
      apply s_finish; auto using okw_child; [apply HG|]. exists m, vs0. exact H1.
    + intros v q q' H2 H3. eapply D_prod_taken; [rewrite <- child_inner; exact H2|exact H3].
  - (* RRecB *) unfold inc_depth. destruct (cx_max c =? 0) eqn:H0; [apply sem_crash|].
    destruct (cx_max c <=? depth s) eqn:Hle.
    + apply sem_dres. intros. split; [reflexivity|exact Hs].
    + apply (sem_depth _ s (fun k a => e_finish E c (RProd p) b k (setdepth (Datatypes.S (depth s)) s) a)).
      eapply sem_mono; [|apply s_finish; auto; exists m, vs0; exact Hfit]. cbn. intros. apply D_recb; [apply Nat.leb_gt; exact Hle|assumption].
  - (* RPeek *) destruct r; try (exfalso; exact Hr). cbn [tmatch] in Hfit. injection Hfit as Ht <-. cbn [b_range fst snd].
    apply (sem_ret _ s _ (pos s) [EBack (pos s) (snd (tk_try t0 inp (pos s)))] []); [reflexivity| |intros; now rewrite app_nil_r].
    now apply D_peek.
  - (* RPeekN *) destruct r; try (exfalso; exact Hr). cbn [tmatch] in Hfit. injection Hfit as Ht <-. cbn [b_range fst snd].
    apply (sem_ret _ s _ (pos s) [EBack (pos s) (snd (tk_try t0 inp (pos s)))] []); [reflexivity| |intros; now rewrite app_nil_r].
    apply D_peekn. now apply negb_true_iff.
  - (* RLook *) pose proof (search_from_Ahead f (pos s)) as HA.
    destruct (search_from inp f (pos s)) as [[ok1 b1] e]; cbn [fst snd] in HA. injection Hfit as -> <-. cbn [b_range fst snd].
    apply (sem_ret _ s _ (pos s) [EBack (pos s) e] []); [reflexivity| |intros; now rewrite app_nil_r]. now apply D_look.
  - (* RRep *) destruct Hr as (Hn & Hi & Hsep). assert (Hf : fits r1 (pos s) b) by (exists m, vs0; exact Hfit).
    apply (sem_delim _ (fun v d p vs q => repj c d m0 r2 sep p v vs q) _ s
             (e_finish E c r1 b final s []) (fun k a s v => rep_run E c m0 r2 sep k a s v)
             (sem_final _ _ _ (s_finish _ S c r1 b s Hn Hc Hs Hf)) Hs).
    + intros s1 v Hs1. now apply reprun_sem.
    + intros v q vs q' H1 [(H2 & -> & ->)|(j & v2 & q2 & l & H2 & H3 & H4 & ->)]; [eapply D_rep_none|eapply D_rep_some]; eauto.
  - (* RPosR *) apply (sem_pre _ s (pos s) [EToken KPosition (pos s) (pos s)]); [reflexivity|].
    assert (Hf : fits r (pos s) b) by (exists m, vs0; exact Hfit).
    apply (sem_args _ _ _ (fun k a => e_finish E c r b k (emit (EToken KPosition (pos s) (pos s)) s) a) [VPos (pos s)]
             (s_finish _ S c r b (emit (EToken KPosition (pos s) (pos s)) s) Hr Hc Hs Hf)).
    intros. cbn [app]. now apply D_posr.
  - (* RCap *) destruct r; try (exfalso; exact Hr). cbn [tmatch] in Hfit. destruct (tk_try t inp (pos s)) as [ok e] eqn:Ht. injection Hfit as -> <-.
    cbn [b_end]. unfold tok_finish. apply tok_sem; auto. intros. eapply D_cap; eauto.
  - (* REof *) injection Hfit as He _.
    apply (sem_ret _ s _ (pos s) [EToken KEof (pos s) (pos s)] []); [reflexivity| |intros; now rewrite app_nil_r].
    apply D_eof. now apply Nat.leb_le in He.
  - (* RPas *) unfold pas_after. assert (Hf : fits r (pos s) b) by (exists m, vs0; exact Hfit).
    apply (sem_delim _ (fun v d p vs q => vs = [VAs v] /\ q = p) _ s
             (e_finish E c r b final s []) (fun k a s v => k_fn k s (a ++ [VAs v]))
             (sem_final _ _ _ (s_finish _ S c r b s Hr Hc Hs Hf)) Hs).
    + intros s1 v Hs1. apply sem_now. auto.
    + intros v q vs q' H1 (-> & ->). now apply D_pas.
  - (* RSym *) destruct r; try (exfalso; exact Hr). cbn [tmatch] in Hfit.
    destruct (tk_try t inp (pos s)) as [[|] e] eqn:Ht; [|discriminate]. injection Hfit as Hz <-. cbn [b_end].
    destruct (f (slice inp (pos s) e)) as [z|] eqn:Hfz; [|discriminate]. unfold tok_finish. cbn [tkind_of].
    apply tok_sem; auto. intros. eapply D_sym; eauto.
Qed.

Lemma step_sound : sound (step inp prods E).
Proof.
  constructor; eauto using step_parse, step_finish, step_loop, step_lst, step_reco, step_recov, step_flags, step_comb.
  - intros. eapply step_ws; eauto.
  - intros. now apply step_lstt.
Qed.
End Step2.

Lemma sound0 : sound (eng 0).
Proof.
  constructor; intros; cbn; try (right; intros; exact I); try exact I; try discriminate.
  - destruct ls; try (right; exact I); try (intros; right; exact I); try (intros; exact I). destruct sep as [[? ?]|]; [right|]; exact I.
  - destruct rec as [[]|]; exact I.
Qed.
Lemma eng_sound n : sound (eng n).
Proof.
  enough (H : forall m, m <= n -> sound (eng m)) by auto.
  induction n as [|n IH]; intros m Hm.
  - replace m with 0 by lia. apply sound0.
  - destruct (Nat.eq_dec m (Datatypes.S n)) as [->|]; [|apply IH; lia].
    cbn [RuleModel.eng]. apply step_sound; auto. intros. apply IH. lia.
Qed.

(** ** The whole grammar *)
Lemma action_sound n p vs s m : action inp prods n p = Res (OTrue vs) s m -> clean (trace s) -> Accepts inp prods p vs (pos s).
Proof.
  unfold action, do_action. set (c := Cx (p_ws (prods p)) (p_max (prods p))).
  set (s0 := emit (EPStart p (pos (St 0 0 true [] []))) (emit (EGStart (pos (St 0 0 true [] []))) (St 0 0 true [] []))).
  assert (Hc : okw c) by (intros w Hw; apply (HG p); exact Hw).
  assert (H : dsem (fun vs q => exists q0, D c 0 JW 0 [] q0 /\ D c 0 (JR false (p_rule (prods p))) q0 vs q) s0
    (ws_then (eng n) c (Cont false (fun s _ => e_parse (eng n) c (p_rule (prods p)) final s [])) s0 [])).
  { eapply (sem_start _ (fun d q vs q' => D c d (JR false (p_rule (prods p))) q vs q') _ s0 (fun k a => ws_then (eng n) c k s0 a) _
             (sem_ws n (eng_sound n) c s0 Hc eq_refl) eq_refl).
    - intros s1 Hs1. apply (sem_final _ _ (fun k a => e_parse (eng n) c (p_rule (prods p)) k s1 a)).
      apply s_parse; auto using eng_sound. apply HG.
    - intros v q vs' q' H1 H2. exists q. split; [|exact H2]. eapply wsj_D. exact H1. }
  assert (HE : ws_then (eng n) c (Cont false (e_parse (eng n) c (p_rule (prods p)) final)) s0 [] =
               ws_then (eng n) c (Cont false (fun s _ => e_parse (eng n) c (p_rule (prods p)) final s [])) s0 []) by reflexivity.
  rewrite HE. destruct H as [(v & q & es & Hcl & HD & ->)|H].
  - intros [= -> <- <-] _. exact HD.
  - destruct (ws_then (eng n) c (Cont false (fun s _ => e_parse (eng n) c (p_rule (prods p)) final s [])) s0 []) as [[] s1 m1| |]; try discriminate.
    intros [= -> <- <-] Hcl. exfalso. destruct H as [Hd _]. unfold dirty in Hd. unfold clean in Hcl. cbn in Hcl. congruence.
Qed.
End Sound.
