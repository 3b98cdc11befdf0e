(** Infrastructure for proofs about the engine: the relation [Mv] between the state before and
    after a piece of parsing, and the fact that a parser, although written in continuation
    passing style, either stops or calls its continuation exactly once. *)
From Verif Require Import Prelude RuleModel RuleSpec.
Close Scope N_scope.

Local Set Default Proof Using "Type".

Section Den.
Variable inp : list N.
Variable prods : nat -> production.

(** ** Event lists *)
Lemma tile_app p es es' q : tile p es = Some q -> tile p (es ++ es') = tile q es'.
Proof.
  revert p. induction es as [|e es IH]; intros p; cbn [tile app].
  - intros [= ->]. reflexivity.
  - destruct e; try apply IH. destruct ((b =? p) && (b <=? e)); [apply IH|discriminate].
Qed.

Lemma tile_le p es q : tile p es = Some q -> p <= q.
Proof.
  revert p. induction es as [|e es IH]; intros p; cbn [tile].
  - intros [= ->]. (try clear prods; lia).
  - destruct e; try apply IH. destruct ((b =? p) && (b <=? e)) eqn:H; [|discriminate].
    intros Ht. apply IH in Ht. (try clear prods; lia).
Qed.

Lemma nest_app es es' stk stk' : nest es stk = Some stk' -> nest (es ++ es') stk = nest es' stk'.
Proof.
  revert stk. induction es as [|e es IH]; intros stk; cbn [nest app].
  - intros [= ->]. reflexivity.
  - destruct (nest1 e stk); [apply IH|discriminate].
Qed.

Lemma bal_app es es' : balanced es -> balanced es' -> balanced (es ++ es').
Proof. intros H1 H2 stk. rewrite (nest_app _ _ _ _ (H1 stk)). apply H2. Qed.

Lemma bal_nil : balanced [].
Proof. intros stk. reflexivity. Qed.

Lemma bal_cons e es : (forall stk, nest1 e stk = Some stk) -> balanced es -> balanced (e :: es).
Proof. intros H1 H2 stk. cbn [nest]. rewrite H1. apply H2. Qed.

Lemma bal_frame a z es : balanced es ->
  (forall stk, exists f, nest1 a stk = Some (f :: stk) /\ nest1 z (f :: stk) = Some stk) ->
  balanced (a :: es ++ [z]).
Proof.
  intros H Hf stk. destruct (Hf stk) as (f & H1 & H2). cbn [nest]. rewrite H1.
  rewrite (nest_app _ _ _ _ (H (f :: stk))). cbn [nest]. rewrite H2. reflexivity.
Qed.

Lemma debug_tile es p : debug es -> tile p es = Some p.
Proof.
  intros H. revert p. induction H; intros p0; cbn [tile]; try reflexivity; [auto|].
  rewrite (tile_app _ _ _ p0) by auto. cbn [tile]. auto.
Qed.

Lemma debug_bal es : debug es -> balanced es.
Proof.
  induction 1; [apply bal_nil| |].
  - apply bal_cons; auto.
  - change (EPCancel q p :: es') with ([EPCancel q p] ++ es').
    rewrite app_assoc, app_comm_cons. apply bal_app; [|assumption].
    apply bal_frame; [assumption|]. intros stk. exists (FP q). cbn [nest1]. now rewrite Nat.eqb_refl.
Qed.

Lemma debug_in n es : debug es -> Forall (ev_in n) es.
Proof.
  induction 1; constructor; cbn [ev_in]; auto.
  apply Forall_app. split; auto. constructor; cbn [ev_in]; auto.
Qed.

Lemma debug_noerr es : debug es -> has_error es = false.
Proof.
  unfold has_error.
  induction 1; cbn [existsb is_err]; auto. rewrite existsb_app. cbn [existsb is_err].
  rewrite IHdebug1, IHdebug2. reflexivity.
Qed.

Lemma debug_app es es' : debug es -> debug es' -> debug (es ++ es').
Proof.
  induction 1; intros Hd; cbn [app]; auto.
  - constructor. auto.
  - rewrite <- app_assoc. cbn [app]. constructor; auto.
Qed.

(** ** Segments *)
Lemma seg_app p es q es' r : segment p es q -> segment q es' r -> segment p (es ++ es') r.
Proof.
  intros H. revert es' r. induction H; intros es2 r2 H2; cbn [app]; rewrite <- ?app_assoc; cbn [app].
  - exact H2.
  - constructor; auto.
  - constructor; auto.
  - eapply seg_finish; eauto.
  - eapply seg_cancel; eauto.
  - eapply seg_untaken; eauto.
Qed.

Lemma seg_debug p es : debug es -> segment p es p.
Proof.
  intros H. revert p. induction H; intros p0.
  - constructor.
  - constructor; auto.
  - apply seg_untaken; auto.
Qed.

Definition plain (e : event) : Prop :=
  match e with EToken _ _ _ | EPStart _ _ | EPFinish _ _ | EPCancel _ _ => False | _ => True end.

(** A pair of events that may surround a piece of parsing from [p] to [q]. *)
Definition framed (p : nat) (a z : event) (q : nat) : Prop :=
  (plain a /\ plain z) \/
  exists r, a = EPStart r p /\ (z = EPFinish r q \/ z = EPCancel r q).

Lemma seg_frame p a z q es : framed p a z q -> segment p es q -> segment p (a :: es ++ [z]) q.
Proof.
  intros [[Ha Hz]|(r & -> & [-> | ->])] H.
  - apply seg_other; [exact Ha|]. eapply seg_app; [exact H|]. apply seg_other; [exact Hz|constructor].
  - eapply seg_finish; [exact H|constructor].
  - eapply seg_cancel; [exact H|constructor].
Qed.

(** ** Variables *)
Lemma as_refl l : forall h, assigned h l l.
Proof. induction l as [|[i v] l IH]; intros h; cbn; auto. Qed.

Lemma as_incl l : forall h h' l', incl h' h -> assigned h l l' -> assigned h' l l'.
Proof.
  induction l as [|[i v] l IH]; intros h h' [|[i' v'] l'] Hi; cbn; auto.
  intros (H1 & H2 & H3). repeat split; auto. eapply IH; [|exact H3].
  intros x [->|Hx]; [now left|right; auto].
Qed.

Lemma as_trans l : forall h l1 l2, assigned h l l1 -> assigned h l1 l2 -> assigned h l l2.
Proof.
  induction l as [|[i v] l IH]; intros h [|[i1 v1] l1] [|[i2 v2] l2]; cbn; try (try clear prods; tauto).
  intros (-> & H2 & H3) (-> & H5 & H6). split; [reflexivity|split].
  - intros Hi. rewrite H5, H2 by exact Hi. reflexivity.
  - eapply IH; eauto.
Qed.

Lemma as_vset id v l : forall h, ~ In id h -> assigned h l (vset id v l).
Proof.
  induction l as [|[i w] l IH]; intros h Hh; cbn; auto. destruct (Nat.eqb_spec i id) as [->|Hn]; cbn.
  - repeat split; auto; [(try clear prods; tauto)|apply as_refl].
  - repeat split; auto. apply IH. intros [H|H]; auto.
Qed.

Lemma as_ids l : forall h l', assigned h l l' -> map fst l' = map fst l.
Proof.
  induction l as [|[i v] l IH]; intros h [|[i1 v1] l1]; cbn; try (try clear prods; tauto).
  intros (-> & _ & H). f_equal. eauto.
Qed.

Lemma as_app l1 : forall h l2 l', assigned h (l1 ++ l2) l' ->
  exists l1' l2', l' = l1' ++ l2' /\ assigned h l1 l1' /\ assigned (rev (map fst l1) ++ h) l2 l2'.
Proof.
  induction l1 as [|[i v] l1 IH]; intros h l2 l'.
  - intros H. exists [], l'. repeat split; auto.
  - destruct l' as [|[i' v'] l']; cbn; [(try clear prods; tauto)|].
    intros (-> & H2 & H3). apply IH in H3. destruct H3 as (a & b & -> & Ha & Hb).
    exists ((i, v') :: a), b. repeat split; auto. now rewrite <- app_assoc.
Qed.

Lemma as_len l : forall h l', assigned h l l' -> length l' = length l.
Proof. intros h l' H. apply as_ids in H. apply (f_equal (@length _)) in H. now rewrite !map_length in H. Qed.

(** ** States *)
Definition ok (s : st) : Prop := pos s <= length inp.

(** The events between two states. *)
Definition ext (s s' : st) (es : list event) : Prop := trace s' = rev es ++ trace s.

Definition Mv (s s' : st) : Prop :=
  exists es, ext s s' es /\ (tile (pos s) es = Some (pos s') /\ segment (pos s) es (pos s')) /\ balanced es /\
             Forall (ev_in (length inp)) es /\ ok s' /\
             assigned [] (vars s) (vars s').

Definition HasErr (s s' : st) : Prop := exists es, ext s s' es /\ has_error es = true.

(** The outcome of a failure; [w] says that it may be silent. *)
Definition Fl (w : bool) (s s' : st) : Prop :=
  Mv s s' /\ (guarded prods -> w = false -> HasErr s s').

Lemma ext_app s1 s2 s3 es es' : ext s1 s2 es -> ext s2 s3 es' -> ext s1 s3 (es ++ es').
Proof. unfold ext. intros -> ->. rewrite rev_app_distr, app_assoc. reflexivity. Qed.

Lemma S_refl s : ok s -> Mv s s.
Proof.
  intros H. exists []. unfold ext. repeat split; auto; [constructor|apply as_refl].
Qed.

Lemma S_trans s1 s2 s3 : Mv s1 s2 -> Mv s2 s3 -> Mv s1 s3.
Proof.
  intros (es & He & (Ht & Hg) & Hb & Hi & Ho & Hv) (es' & He' & (Ht' & Hg') & Hb' & Hi' & Ho' & Hv').
  exists (es ++ es'). repeat split.
  - eapply ext_app; eauto.
  - rewrite (tile_app _ _ _ _ Ht). exact Ht'.
  - eapply seg_app; eauto.
  - now apply bal_app.
  - now apply Forall_app.
  - exact Ho'.
  - eapply as_trans; eauto.
Qed.

Lemma S_ok s s' : Mv s s' -> ok s'.
Proof. intros (? & _ & _ & _ & _ & H & _). exact H. Qed.

Lemma S_pos s s' : Mv s s' -> pos s <= pos s'.
Proof. intros (? & _ & (H & _) & _). now apply tile_le in H. Qed.

Lemma S_vlen s s' : Mv s s' -> length (vars s') = length (vars s).
Proof.
  intros (? & _ & _ & _ & _ & _ & H). eapply as_len; eauto.
Qed.

Lemma HasErr_l s1 s2 s3 : Mv s1 s2 -> HasErr s2 s3 -> HasErr s1 s3.
Proof.
  intros (es & He & _) (es' & He' & Hr). exists (es ++ es').
  split; [eapply ext_app; eauto|]. unfold has_error in *. rewrite existsb_app, Hr. apply orb_true_r.
Qed.

Lemma HasErr_r s1 s2 s3 : HasErr s1 s2 -> Mv s2 s3 -> HasErr s1 s3.
Proof.
  intros (es' & He' & Hr) (es & He & _). exists (es' ++ es).
  split; [eapply ext_app; eauto|]. unfold has_error in *. rewrite existsb_app, Hr. reflexivity.
Qed.

Lemma Fl_S w s s' : Fl w s s' -> Mv s s'.
Proof. now intros []. Qed.

Lemma Fl_l w s1 s2 s3 : Mv s1 s2 -> Fl w s2 s3 -> Fl w s1 s3.
Proof.
  intros H [H1 H2]. split; [eapply S_trans; eauto|]. intros. eapply HasErr_l; eauto.
Qed.

Lemma Fl_r w s1 s2 s3 : Fl w s1 s2 -> Mv s2 s3 -> Fl w s1 s3.
Proof.
  intros [H1 H2] H. split; [eapply S_trans; eauto|]. intros. eapply HasErr_r; eauto.
Qed.

Lemma Fl_mono w w' s s' : (w' = false -> w = false) -> Fl w s s' -> Fl w' s s'.
Proof. intros Hw [H1 H2]. split; auto. Qed.

Lemma Fl_monog w w' s s' : (guarded prods -> w' = false -> w = false) -> Fl w s s' -> Fl w' s s'.
Proof. intros Hw [H1 H2]. split; auto. Qed.

Lemma Fl_true s s' : Mv s s' -> Fl true s s'.
Proof. intros H. split; auto. discriminate. Qed.

(** *** Primitive steps *)
Lemma S_token s k e : ok s -> pos s <= e -> e <= length inp ->
  Mv s (setpos e (emit (EToken k (pos s) e) s)).
Proof.
  intros. exists [EToken k (pos s) e]. unfold ext, ok. cbn. rewrite Nat.eqb_refl.
  destruct (Nat.leb_spec (pos s) e); [|(try clear prods; lia)].
  repeat split; auto; [| |apply as_refl]; repeat constructor; auto.
Qed.

Lemma S_token0 s k : ok s -> Mv s (emit (EToken k (pos s) (pos s)) s).
Proof.
  intros H. pose proof (S_token s k (pos s) H (le_n _) H) as Ht. destruct s; exact Ht.
Qed.

Lemma S_error s t b e : ok s -> b <= e -> e <= length inp -> Mv s (emit (EError t b e) s).
Proof.
  intros. exists [EError t b e]. unfold ext, ok. cbn.
  repeat split; auto; [| |apply as_refl]; repeat constructor; auto.
Qed.

Lemma Fl_error w s t b e : ok s -> b <= e -> e <= length inp -> Fl w s (emit (EError t b e) s).
Proof.
  intros. split; [apply S_error; auto|]. intros. exists [EError t b e]. split; reflexivity.
Qed.

Lemma S_debug s es : ok s -> debug es -> Mv s (emits es s).
Proof.
  intros Hs Hd. exists es. unfold ext, ok. repeat split; auto.
  - now apply debug_tile.
  - now apply seg_debug.
  - now apply debug_bal.
  - now apply debug_in.
  - apply as_refl.
Qed.

Lemma S_back s b e : ok s -> Mv s (emit (EBack b e) s).
Proof. intros. apply (S_debug s [EBack b e]); auto. repeat constructor. Qed.

Lemma S_depth s d : ok s -> Mv s (setdepth d s).
Proof. intros. exists []. repeat split; auto; [constructor|apply as_refl]. Qed.

Lemma S_wsf s b : ok s -> Mv s (setwsf b s).
Proof. intros. exists []. repeat split; auto; [constructor|apply as_refl]. Qed.

Lemma S_vset s id v : ok s -> Mv s (setvars (vset id v (vars s)) s).
Proof.
  intros. exists []. repeat split; auto; [constructor|now apply as_vset].
Qed.

(** *** Frames *)
Definition opens (a z : event) : Prop :=
  forall stk, exists f, nest1 a stk = Some (f :: stk) /\ nest1 z (f :: stk) = Some stk.

Definition silent (e : event) : Prop :=
  match e with EToken _ _ _ | EError _ _ _ => False | _ => True end.

Lemma silent_tile e p es : silent e -> tile p (e :: es) = tile p es.
Proof. destruct e; cbn; (try clear prods; tauto). Qed.

Lemma S_frame a z s s' : opens a z -> silent a -> silent z ->
  ev_in (length inp) a -> ev_in (length inp) z -> framed (pos s) a z (pos s') ->
  Mv (emit a s) s' -> Mv s (emit z s').
Proof.
  intros Hop Ha Hz Hia Hiz Hf (es & He & (Ht & Hg) & Hb & Hi & Ho & Hv).
  exists (a :: es ++ [z]). repeat split.
  - unfold ext in *. cbn [emit trace] in *. rewrite He. cbn [rev].
    rewrite rev_app_distr. cbn [rev app]. rewrite <- app_assoc. reflexivity.
  - rewrite silent_tile by exact Ha. rewrite (tile_app _ _ _ _ Ht).
    rewrite silent_tile by exact Hz. reflexivity.
  - apply seg_frame; auto.
  - apply bal_frame; auto.
  - constructor; auto. apply Forall_app. split; auto.
  - exact Ho.
  - exact Hv.
Qed.

Lemma HasErr_emit a z s s' : HasErr (emit a s) s' -> HasErr s (emit z s').
Proof.
  intros (es & He & Hr). exists (a :: es ++ [z]). split.
  - unfold ext in *. cbn [emit trace] in *. rewrite He. cbn [rev].
    rewrite rev_app_distr. cbn [rev app]. rewrite <- app_assoc. reflexivity.
  - unfold has_error in *. cbn [existsb]. rewrite existsb_app, Hr. now destruct (is_err a).
Qed.

Lemma Fl_frame a z w s s' : opens a z -> silent a -> silent z ->
  ev_in (length inp) a -> ev_in (length inp) z -> framed (pos s) a z (pos s') ->
  Fl w (emit a s) s' -> Fl w s (emit z s').
Proof.
  intros H1 H2 H3 H4 H5 H6 [HS HE]. split; [eapply S_frame; eauto|].
  intros. eapply HasErr_emit; eauto.
Qed.

Lemma framed_R p a b q : framed p (ERStart a) (ERFinish b) q.
Proof. left. cbn. auto. Qed.
Lemma framed_RC p a b q : framed p (ERStart a) (ERCancel b) q.
Proof. left. cbn. auto. Qed.
Lemma framed_G p a b q : framed p (EGStart a) (EGFinish b) q.
Proof. left. cbn. auto. Qed.
Lemma framed_GC p a b q : framed p (EGStart a) (EGCancel b) q.
Proof. left. cbn. auto. Qed.
Lemma framed_P r p q : framed p (EPStart r p) (EPFinish r q) q.
Proof. right. eauto. Qed.
Lemma framed_PC r p q : framed p (EPStart r p) (EPCancel r q) q.
Proof. right. eauto. Qed.

Lemma opens_P q p p' : opens (EPStart q p) (EPFinish q p').
Proof. intros stk. exists (FP q). cbn. now rewrite Nat.eqb_refl. Qed.
Lemma opens_PC q p p' : opens (EPStart q p) (EPCancel q p').
Proof. intros stk. exists (FP q). cbn. now rewrite Nat.eqb_refl. Qed.
Lemma opens_G p p' : opens (EGStart p) (EGFinish p').
Proof. intros stk. exists FG. now cbn. Qed.
Lemma opens_GC p p' : opens (EGStart p) (EGCancel p').
Proof. intros stk. exists FG. now cbn. Qed.
Lemma opens_R p p' : opens (ERStart p) (ERFinish p').
Proof. intros stk. exists FR. now cbn. Qed.
Lemma opens_RC p p' : opens (ERStart p) (ERCancel p').
Proof. intros stk. exists FR. now cbn. Qed.

(** *** Variables *)
Lemma skipn_tail {A} (x : A) (l l' : list A) : length l' = S (length l) -> skipn (length l' - length l) l' = tl l'.
Proof.
  intros H. replace (length l' - length l) with 1 by (try clear prods; lia). destruct l'; reflexivity.
Qed.

Lemma S_unlink s x s' : Mv (setvars (x :: vars s) s) s' -> Mv s (unlink (length (vars s)) s').
Proof.
  intros H. pose proof (S_vlen _ _ H) as Hl. cbn [vars setvars length] in Hl.
  destruct H as (es & He & (Ht & Hg) & Hb & Hi & Ho & Hv).
  exists es. unfold unlink. repeat split; auto.
  cbn [vars setvars] in *. rewrite (skipn_tail x) by exact Hl.
  destruct (vars s') as [|y l]; [discriminate|]. destruct x, y. cbn in *.
  destruct Hv as (_ & _ & Hv). eapply as_incl; [|exact Hv]. intros ? [].
Qed.

Lemma HasErr_vars s v s' v' : HasErr (setvars v s) s' -> HasErr s (setvars v' s').
Proof. intros (es & He & Hr). exists es. split; auto. Qed.

Lemma Fl_unlink w s x s' : Fl w (setvars (x :: vars s) s) s' -> Fl w s (unlink (length (vars s)) s').
Proof.
  intros [H1 H2]. split; [eapply S_unlink; eauto|].
  intros Hg Hw. eapply HasErr_vars; eauto.
Qed.

(** ** Continuations run at most once *)

Definition unl (n : nat) (r : res) : res :=
  match r with Res o s m => Res o (unlink n s) m | r => r end.

Definition posts (l : list nat) (r : res) : res := fold_left (fun r n => unl n r) l r.
Definition unlinks (l : list nat) (s : st) : st := fold_left (fun s n => unlink n s) l s.

Lemma posts_app l l' r : posts (l ++ l') r = posts l' (posts l r).
Proof. apply fold_left_app. Qed.

Lemma posts_Res l o s m : posts l (Res o s m) = Res o (unlinks l s) m.
Proof. revert s. induction l as [|n l IH]; intros s; cbn; auto. Qed.
Lemma posts_NoFuel l : posts l NoFuel = NoFuel.
Proof. induction l; cbn; auto. Qed.
Lemma posts_Crash l : posts l Crash = Crash.
Proof. induction l; cbn; auto. Qed.

Lemma posts_mark l r : posts l (mark r) = mark (posts l r).
Proof.
  destruct r; cbn [mark]; rewrite ?posts_Res, ?posts_NoFuel, ?posts_Crash; reflexivity.
Qed.

(** The unlink calls for [m] variables linked on top of [n] others, innermost first. *)
Fixpoint links (n m : nat) : list nat :=
  match m with O => [] | S m => (n + m) :: links n m end.

Lemma links_app n m m' : links (n + m) m' ++ links n m = links n (m' + m).
Proof. induction m' as [|m' IH]; cbn; auto. rewrite IH. f_equal. (try clear prods; lia). Qed.

(** From [s] the continuation is entered in [s'] with the variables of [l] still linked. *)
Definition T (l : list nat) (s s' : st) : Prop :=
  exists es, ext s s' es /\ (tile (pos s) es = Some (pos s') /\ segment (pos s) es (pos s')) /\ balanced es /\
             Forall (ev_in (length inp)) es /\ ok s' /\
             exists ys zs, vars s' = ys ++ zs /\ assigned [] (vars s) zs /\
                           l = links (length (vars s)) (length ys).

Lemma T_S s s' : Mv s s' -> T [] s s'.
Proof.
  intros (es & H1 & (H2 & Hg) & H3 & H4 & H5 & H6). exists es. repeat split; auto. exists [], (vars s'). auto.
Qed.

Lemma T_trans l l' s s1 s' : T l s s1 -> T l' s1 s' -> T (l' ++ l) s s'.
Proof.
  intros (es & He & (Ht & Hg) & Hb & Hi & Ho & ys & zs & Hv & Hz & ->)
         (es' & He' & (Ht' & Hg') & Hb' & Hi' & Ho' & ys' & zs' & Hv' & Hz' & ->).
  exists (es ++ es'). repeat split.
  - eapply ext_app; eauto.
  - rewrite (tile_app _ _ _ _ Ht). exact Ht'.
  - eapply seg_app; eauto.
  - now apply bal_app.
  - now apply Forall_app.
  - exact Ho'.
  - rewrite Hv in Hz'. apply as_app in Hz'. destruct Hz' as (y2 & z2 & -> & Hy2 & Hz2).
    exists (ys' ++ y2), z2. rewrite Hv', app_assoc. repeat split.
    + eapply as_trans; [exact Hz|]. eapply as_incl; [|exact Hz2]. intros ? [].
    + rewrite Hv, !app_length, (as_len _ _ _ Hy2), (as_len _ _ _ Hz).
      rewrite <- (links_app (length (vars s)) (length ys)). f_equal. f_equal. apply Nat.add_comm.
Qed.

Lemma T_l l s s1 s' : Mv s s1 -> T l s1 s' -> T l s s'.
Proof. intros H1 H2. rewrite <- (app_nil_r l). eapply T_trans; eauto. now apply T_S. Qed.

Lemma T_link s s1 x l s' : Mv s s1 -> T l (setvars (x :: vars s1) s1) s' ->
    T (l ++ [length (vars s1)]) s s'.
Proof.
  intros H1 H2. eapply T_l; [exact H1|]. eapply T_trans; [|exact H2].
  exists []. repeat split; auto.
  - constructor.
  - exact (S_ok _ _ H1).
  - exists [x], (vars s1). cbn. repeat split; auto; [apply as_refl|]. now rewrite Nat.add_0_r.
Qed.

Lemma T_ok l s s' : T l s s' -> ok s'.
Proof. intros (es & _ & _ & _ & _ & H & _). exact H. Qed.

Lemma T_pos l s s' : T l s s' -> pos s <= pos s'.
Proof. intros (es & _ & (H & _) & _). now apply tile_le in H. Qed.

Lemma T_frame a z l s s' : opens a z -> silent a -> silent z ->
  ev_in (length inp) a -> ev_in (length inp) z -> framed (pos s) a z (pos s') ->
  T l (emit a s) s' -> T l s (emit z s').
Proof.
  intros Hop Ha Hz Hia Hiz Hf (es & He & (Ht & Hg) & Hb & Hi & Ho & Hv).
  exists (a :: es ++ [z]). repeat split.
  - unfold ext in *. cbn [emit trace] in *. rewrite He. cbn [rev].
    rewrite rev_app_distr. cbn [rev app]. rewrite <- app_assoc. reflexivity.
  - rewrite silent_tile by exact Ha. rewrite (tile_app _ _ _ _ Ht).
    rewrite silent_tile by exact Hz. reflexivity.
  - apply seg_frame; auto.
  - apply bal_frame; auto.
  - constructor; auto. apply Forall_app. split; auto.
  - exact Ho.
  - exact Hv.
Qed.

Lemma unlinks_eq l s : exists v, unlinks l s = setvars v s.
Proof.
  revert s. induction l as [|n l IH]; intros s.
  - exists (vars s). now destruct s.
  - destruct (IH (unlink n s)) as [v Hv]. exists v. exact Hv.
Qed.

Lemma unlinks_vars n ys : forall s zs, length zs = n -> vars s = ys ++ zs ->
  vars (unlinks (links n (length ys)) s) = zs.
Proof.
  induction ys as [|y ys IH]; intros s zs Hn Hv; cbn [length links unlinks fold_left].
  - exact Hv.
  - apply IH; auto. unfold unlink. cbn [vars setvars]. rewrite Hv, app_length. cbn [length].
    replace (S (length ys) + length zs - (n + length ys)) with 1 by (try clear prods; lia).
    reflexivity.
Qed.

Lemma T_S_res l s s' s2 : T l s s' -> Mv s' s2 -> Mv s (unlinks l s2).
Proof.
  intros (es & He & (Ht & Hg) & Hb & Hi & Ho & ys & zs & Hv & Hz & ->)
         (es' & He' & (Ht' & Hg') & Hb' & Hi' & Ho' & Hv').
  rewrite Hv in Hv'. apply as_app in Hv'. destruct Hv' as (y2 & z2 & Hv2 & Hy2 & Hz2).
  assert (Hzz : assigned [] (vars s) z2).
  { eapply as_trans; [exact Hz|]. eapply as_incl; [|exact Hz2]. intros ? []. }
  pose proof (unlinks_vars (length (vars s)) y2 s2 z2 (as_len _ _ _ Hzz) Hv2) as Hu.
  rewrite (as_len _ _ _ Hy2) in Hu.
  destruct (unlinks_eq (links (length (vars s)) (length ys)) s2) as [v Hq]. rewrite Hq in *.
  exists (es ++ es'). repeat split; auto.
  - unfold ext. cbn. eapply ext_app; eauto.
  - rewrite (tile_app _ _ _ _ Ht). exact Ht'.
  - eapply seg_app; eauto.
  - now apply bal_app.
  - now apply Forall_app.
  - cbn in *. rewrite Hu. exact Hzz.
Qed.

Lemma T_Fl_res w l s s' s2 : T l s s' -> Fl w s' s2 -> Fl w s (unlinks l s2).
Proof.
  intros HT [H1 H2]. split; [eapply T_S_res; eauto|].
  intros Hg Hw. destruct (H2 Hg Hw) as (es' & He' & Hr).
  destruct HT as (es & He & _). destruct (unlinks_eq l s2) as [v ->].
  exists (es ++ es'). split; [unfold ext; cbn; eapply ext_app; eauto|].
  unfold has_error in *. rewrite existsb_app, Hr. apply orb_true_r.
Qed.

(** What a parser does: stop with a result, or continue. *)
Inductive stop := SFalse | SBreak | STrue (vs : list val) | SItem (i : nat) (vs : list val).
Inductive dout := DStop (o : stop) (s : st) | DNext (l : list nat) (s : st) (vs : list val) | DNo | DCr.

Definition sto (o : stop) (args : list val) : out :=
  match o with
  | SFalse => OFalse | SBreak => OBreak
  | STrue vs => OTrue (args ++ vs) | SItem i vs => OItem i (args ++ vs)
  end.

Definition apply (d : dout) (k : cont) (args : list val) : res :=
  match d with
  | DStop o s => Res (sto o args) s 0
  | DNext l s vs => posts l (k_fn k s (args ++ vs))
  | DNo => NoFuel
  | DCr => Crash
  end.

Definition good (w : bool) (s : st) (d : dout) : Prop :=
  match d with
  | DStop SFalse s' => Fl w s s'
  | DStop _ s' => Mv s s'
  | DNext l s' _ => T l s s'
  | _ => True
  end.

Definition is_den (b : bool) (K : cont -> list val -> res) (d : dout) : Prop :=
  forall k args, k_nows k = b -> K k args = apply d k args.

Definition HasD (w b : bool) (s : st) (K : cont -> list val -> res) : Prop :=
  exists d, is_den b K d /\ good w s d.

(** The result of a delimited call. *)
Definition dres (w : bool) (s : st) (r : res) : Prop :=
  match r with
  | Res OFalse s' m => Fl w s s' /\ m = 0
  | Res _ s' m => Mv s s' /\ m = 0
  | _ => True
  end.

Lemma HD_ext w b s K K' : (forall k a, k_nows k = b -> K k a = K' k a) -> HasD w b s K' -> HasD w b s K.
Proof.
  intros H (d & Hd & Hg). exists d. split; auto. intros k a Hk. rewrite H by exact Hk. now apply Hd.
Qed.

Lemma good_mono w w' s d : (w' = false -> w = false) -> good w s d -> good w' s d.
Proof. intros Hw. destruct d as [[]| | |]; cbn; auto. now apply Fl_mono. Qed.

Lemma HD_mono w w' b s K : (w' = false -> w = false) -> HasD w b s K -> HasD w' b s K.
Proof. intros Hw (d & Hd & Hg). exists d. split; auto. eapply good_mono; eauto. Qed.

Lemma HD_monog w w' b s K : (guarded prods -> w' = false -> w = false) -> HasD w b s K -> HasD w' b s K.
Proof.
  intros Hw (d & Hd & Hg). exists d. split; auto. destruct d as [[]| | |]; cbn in *; auto.
  eapply Fl_monog; eauto.
Qed.

Lemma good_l w s s1 d : Mv s s1 -> good w s1 d -> good w s d.
Proof.
  intros H. destruct d as [[]| | |]; cbn; auto; intros.
  - eapply Fl_l; eauto.
  - eapply S_trans; eauto.
  - eapply S_trans; eauto.
  - eapply S_trans; eauto.
  - eapply T_l; eauto.
Qed.

Lemma HD_S w b s s1 K : Mv s s1 -> HasD w b s1 K -> HasD w b s K.
Proof. intros H (d & Hd & Hg). exists d. split; auto. eapply good_l; eauto. Qed.

Lemma HD_no w b s : HasD w b s (fun _ _ => NoFuel).
Proof. exists DNo. split; [intros k a _; reflexivity|exact I]. Qed.
Lemma HD_crash w b s : HasD w b s (fun _ _ => Crash).
Proof. exists DCr. split; [intros k a _; reflexivity|exact I]. Qed.

Lemma HD_false w b s s' : Fl w s s' -> HasD w b s (fun _ _ => Res OFalse s' 0).
Proof. intros H. exists (DStop SFalse s'). split; [intros k a _; reflexivity|exact H]. Qed.

Lemma HD_kv w b s s1 vs : Mv s s1 -> HasD w b s (fun k a => k_fn k s1 (a ++ vs)).
Proof.
  intros H. exists (DNext [] s1 vs). split; [intros k a _; reflexivity|]. now apply T_S.
Qed.

Lemma HD_k w b s s1 : Mv s s1 -> HasD w b s (fun k a => k_fn k s1 a).
Proof.
  intros H. eapply HD_ext; [|eapply (HD_kv w b s s1 [] H)].
  intros k a _. cbn beta. now rewrite app_nil_r.
Qed.

(** The arguments before: a parser called with more arguments. *)
Lemma HD_args w b s K vs : HasD w b s K -> HasD w b s (fun k a => K k (a ++ vs)).
Proof.
  intros (d & Hd & Hg).
  exists (match d with
          | DStop (STrue v) s => DStop (STrue (vs ++ v)) s
          | DStop (SItem i v) s => DStop (SItem i (vs ++ v)) s
          | DNext l s v => DNext l s (vs ++ v)
          | d => d
          end).
  split.
  - intros k a Hk. rewrite (Hd k (a ++ vs) Hk).
    destruct d as [[]| | |]; cbn; rewrite <- ?app_assoc; reflexivity.
  - destruct d as [[]| | |]; exact Hg.
Qed.

Definition dthen (l : list nat) (d : dout) : dout :=
  match d with
  | DStop o s => DStop o (unlinks l s)
  | DNext l2 s v => DNext (l2 ++ l) s v
  | d => d
  end.

Lemma apply_dthen l d k a : posts l (apply d k a) = apply (dthen l d) k a.
Proof.
  destruct d; cbn; rewrite ?posts_Res, ?posts_NoFuel, ?posts_Crash; auto.
  now rewrite posts_app.
Qed.

Lemma good_dthen w l s s1 d : T l s s1 -> good w s1 d -> good w s (dthen l d).
Proof.
  intros HT. destruct d as [[]| | |]; cbn; auto; intros.
  - eapply T_Fl_res; eauto.
  - eapply T_S_res; eauto.
  - eapply T_S_res; eauto.
  - eapply T_S_res; eauto.
  - eapply T_trans; eauto.
Qed.

Lemma HD_posts w b l s s1 K : T l s s1 -> HasD w b s1 K -> HasD w b s (fun k a => posts l (K k a)).
Proof.
  intros HT (d & Hd & Hg). exists (dthen l d). split.
  - intros k a Hk. rewrite Hd by exact Hk. apply apply_dthen.
  - eapply good_dthen; eauto.
Qed.

(** Sequencing: the parser [P] is run with a continuation built from [k]. *)
Lemma HD_bind w b nb s P (F : cont -> cont) :
  HasD w nb s P ->
  (forall k, k_nows k = b -> k_nows (F k) = nb) ->
  (forall l s1, T l s s1 -> HasD w b s1 (fun k a => k_fn (F k) s1 a)) ->
  HasD w b s (fun k a => P (F k) a).
Proof.
  intros (d & Hd & Hg) HF H2. destruct d as [o s1|l s1 vs| |].
  - exists (DStop o s1). split; auto. intros k a Hk. now rewrite Hd by auto.
  - cbn [good] in Hg.
    destruct (HD_args _ _ _ _ vs (HD_posts _ _ _ _ _ _ Hg (H2 l s1 Hg))) as (d & Hd' & Hg').
    exists d. split; auto. intros k a Hk. rewrite Hd by auto. cbn [apply].
    exact (Hd' k a Hk).
  - exists DNo. split; auto. intros k a Hk. now rewrite Hd by auto.
  - exists DCr. split; auto. intros k a Hk. now rewrite Hd by auto.
Qed.

(** A parser run to a terminal continuation. *)
Lemma HD_final w s P : HasD w false s P -> dres w s (P final []).
Proof.
  intros (d & Hd & Hg). rewrite Hd by reflexivity.
  destruct d as [[]| | |]; cbn in *; auto.
  rewrite posts_Res. cbn. split; auto. eapply T_S_res; eauto.
  apply S_refl. eapply T_ok; eauto.
Qed.

Lemma HD_delim w b s X (J : cont -> list val -> st -> list val -> res) :
  dres w s X ->
  (forall s1 vs, Mv s s1 -> HasD w b s1 (fun k a => J k a s1 vs)) ->
  HasD w b s (fun k a => delim X (J k a)).
Proof.
  intros HX HJ. destruct X as [[] s1 m| |]; cbn [delim dres] in *.
  - destruct HX. now apply HD_false.
  - destruct HX. eapply HD_S; eauto. 
  - apply HD_crash.
  - apply HD_crash.
  - apply HD_no.
  - apply HD_crash.
Qed.

Lemma dres_mono w w' s r : (w' = false -> w = false) -> dres w s r -> dres w' s r.
Proof.
  intros Hw. destruct r as [[] ? ?| |]; cbn; auto. intros [H1 H2]. split; auto.
  eapply Fl_mono; eauto.
Qed.

Lemma dres_l w s s1 r : Mv s s1 -> dres w s1 r -> dres w s r.
Proof.
  intros H. destruct r as [[] ? ?| |]; cbn; auto; intros [H1 H2]; split; auto.
  - eapply Fl_l; eauto.
  - eapply S_trans; eauto.
  - eapply S_trans; eauto.
  - eapply S_trans; eauto.
Qed.

Lemma dres_delim w s X J :
  dres w s X -> (forall s1 vs, Mv s s1 -> dres w s1 (J s1 vs)) -> dres w s (delim X J).
Proof.
  intros HX HJ. destruct X as [[] s1 m| |]; cbn [delim dres] in *; auto.
  - destruct HX; split; auto.
  - destruct HX. eapply dres_l; eauto.
Qed.

Lemma dres_orelse w w' s X J N :
  dres w s X -> (forall s1 vs, Mv s s1 -> dres w' s1 (J s1 vs)) ->
  (forall s1, Fl w s s1 -> dres w' s (N s1)) -> dres w' s (orelse X J N).
Proof.
  intros HX HJ HN. destruct X as [[] s1 m| |]; cbn [orelse dres] in *; auto.
  - destruct HX; auto.
  - destruct HX. eapply dres_l; eauto.
Qed.

End Den.
