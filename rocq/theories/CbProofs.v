(** Proofs about callbacks and sinks. *)
From Verif Require Import Prelude CbModel CbSpec.
Set Implicit Arguments.

Lemma push_all A (l : list A) : forall c,
  c_items (fold_left (@c_push A) l c) = c_items c ++ l /\ c_alloc (fold_left (@c_push A) l c) = c_alloc c.
Proof.
  induction l as [|x l IH]; intros c; cbn [fold_left]; [now rewrite app_nil_r|].
  destruct (IH (c_push c x)) as (-> & ->). cbn [c_push c_items c_alloc]. now rewrite <- app_assoc.
Qed.
Lemma push_map A B (make : B -> A) (l : list B) : forall c,
  fold_left (fun c x => c_push c (make x)) l c = fold_left (@c_push A) (map make l) c.
Proof. induction l as [|x l IH]; intros c; [reflexivity|]. cbn. apply IH. Qed.

Lemma list_sink_calls W A B (make : B -> A) al xs : forall w c,
  sink_calls (list_sink W make al) w c xs = (w, fold_left (fun c x => c_push c (make x)) xs c).
Proof. induction xs as [|x xs IH]; intros w c; cbn [sink_calls fold_left]; [reflexivity|]. cbn [list_sink sk_call]. apply IH. Qed.

Lemma reserve_items A n (c : container A) : c_items (c_reserve n c) = c_items c /\ c_alloc (c_reserve n c) = c_alloc c.
Proof. split; reflexivity. Qed.

Lemma list_ok W A B (make : B -> A) f al xs (w : W) :
  let r := sink_run (list_sink W make al) w xs in
  fst r = w /\ c_items (snd r) = map make xs /\ c_alloc (snd r) = al /\
  c_items (list_cb make f al (LElements xs)) = map make xs /\
  c_alloc (list_cb make f al (LElements xs)) = al.
Proof.
  cbn zeta. unfold sink_run. cbn [list_sink sk_make sk_finish]. rewrite (@list_sink_calls W A B make al xs w (c_default al)).
  cbn [fst snd sk_finish list_sink]. split; [reflexivity|].
  rewrite push_map. destruct (push_all (map make xs) (c_default al)) as (-> & ->). cbn [c_default c_items c_alloc app].
  split; [reflexivity|]. split; [reflexivity|].
  cbn [list_cb]. rewrite push_map. destruct (has_reserve f).
  - destruct (push_all (map make xs) (c_reserve (length xs) (c_default al))) as (-> & ->). split; reflexivity.
  - destruct (push_all (map make xs) (c_default al)) as (-> & ->). split; reflexivity.
Qed.

(** ** Collections *)
Section Coll.
Variables (A : Type) (same : A -> A -> bool).
Hypothesis same_sym : forall x y, same x y = same y x.
Hypothesis same_refl : forall x, same x x = true.
Hypothesis same_trans : forall x y z, same x y = true -> same y z = true -> same x z = true.

Lemma insert_items multi c x :
  c_items (c_insert same multi c x) =
    (if multi then c_items c ++ [x] else if existsb (same x) (c_items c) then c_items c else c_items c ++ [x]) /\
  c_alloc (c_insert same multi c x) = c_alloc c.
Proof. unfold c_insert. destruct multi; [split; reflexivity|]. destruct (existsb _ _); split; reflexivity. Qed.

Lemma insert_multi l : forall c,
  c_items (fold_left (c_insert same true) l c) = c_items c ++ l /\
  c_alloc (fold_left (c_insert same true) l c) = c_alloc c.
Proof. exact (@push_all A l). Qed.

Lemma insert_first l : forall pre c, first_of_each same pre (c_items c) ->
  first_of_each same (pre ++ l) (c_items (fold_left (c_insert same false) l c)) /\
  c_alloc (fold_left (c_insert same false) l c) = c_alloc c.
Proof.
  induction l as [|x l IH]; intros pre c H; cbn [fold_left].
  - rewrite app_nil_r. split; [exact H|reflexivity].
  - destruct (insert_items false c x) as (Hi & Ha). cbn iota in Hi.
    replace (pre ++ x :: l) with ((pre ++ [x]) ++ l) by now rewrite <- app_assoc.
    destruct (IH (pre ++ [x]) (c_insert same false c x)) as (IH1 & IH2).
    2:{ split; [exact IH1|]. rewrite IH2. exact Ha. }
    rewrite Hi. destruct H as (H1 & H2 & H3).
    destruct (existsb (same x) (c_items c)) eqn:He.
    + split; [exact H1|]. split.
      * intros y Hy. destruct (H2 y Hy) as (p & q & -> & Hp). exists p, (q ++ [x]). split; [|exact Hp].
        now rewrite <- app_assoc.
      * intros z Hz. apply in_app_or in Hz. destruct Hz as [Hz|[<-|[]]]; [now apply H3|].
        apply existsb_exists in He. exact He.
    + assert (Hno : forall y, In y (c_items c) -> same x y = false).
      { intros y Hy. destruct (same x y) eqn:Hs; [|reflexivity].
        assert (existsb (same x) (c_items c) = true) by (apply existsb_exists; eauto). congruence. }
      split; [|split].
      * intros i j a b Hi' Hj Hne.
        assert (Hcase : forall k z, nth_error (c_items c ++ [x]) k = Some z ->
                  nth_error (c_items c) k = Some z \/ (k = length (c_items c) /\ z = x)).
        { intros k z Hk. destruct (Nat.lt_ge_cases k (length (c_items c))) as [Hlt|Hge].
          - left. now rewrite nth_error_app1 in Hk.
          - right. rewrite nth_error_app2 in Hk by exact Hge.
            destruct (k - length (c_items c))%nat as [|n] eqn:En; cbn in Hk; [|destruct n; discriminate].
            split; [lia|congruence]. }
        destruct (Hcase i a Hi') as [Ha'|(-> & ->)]; destruct (Hcase j b Hj) as [Hb'|(-> & ->)].
        -- eapply H1; eauto.
        -- rewrite same_sym. apply Hno. eapply nth_error_In; eauto.
        -- apply Hno. eapply nth_error_In; eauto.
        -- congruence.
      * intros y Hy. apply in_app_or in Hy. destruct Hy as [Hy|[<-|[]]].
        -- destruct (H2 y Hy) as (p & q & -> & Hp). exists p, (q ++ [x]). split; [|exact Hp]. now rewrite <- app_assoc.
        -- exists pre, []. split; [reflexivity|]. intros z Hz.
           destruct (H3 z Hz) as (y & Hy & Hs). specialize (Hno y Hy).
           destruct (same x z) eqn:Hxz; [|reflexivity]. rewrite (@same_trans _ _ _ Hxz Hs) in Hno. discriminate.
      * intros z Hz. apply in_app_or in Hz. destruct Hz as [Hz|[<-|[]]].
        -- destruct (H3 z Hz) as (y & Hy & Hs). exists y. split; [apply in_or_app; now left|exact Hs].
        -- exists x. split; [apply in_or_app; right; now left|apply same_refl].
Qed.
End Coll.

Lemma insert_map A B (same : A -> A -> bool) multi (make : B -> A) (l : list B) : forall c,
  fold_left (fun c x => c_insert same multi c (make x)) l c = fold_left (c_insert same multi) (map make l) c.
Proof. induction l as [|x l IH]; intros c; [reflexivity|]. cbn. apply IH. Qed.
Lemma collection_sink_calls W A B (same : A -> A -> bool) multi (make : B -> A) al xs : forall w c,
  sink_calls (collection_sink W make same multi al) w c xs = (w, fold_left (fun c x => c_insert same multi c (make x)) xs c).
Proof. induction xs as [|x xs IH]; intros w c; cbn [sink_calls fold_left]; [reflexivity|]. cbn [collection_sink sk_call]. apply IH. Qed.

Lemma insert_reserve A (same : A -> A -> bool) multi l : forall n (c : container A),
  c_items (fold_left (c_insert same multi) l (c_reserve n c)) = c_items (fold_left (c_insert same multi) l c) /\
  c_alloc (fold_left (c_insert same multi) l (c_reserve n c)) = c_alloc (fold_left (c_insert same multi) l c).
Proof.
  assert (G : forall l (c d : container A), c_items c = c_items d -> c_alloc c = c_alloc d ->
             c_items (fold_left (c_insert same multi) l c) = c_items (fold_left (c_insert same multi) l d) /\
             c_alloc (fold_left (c_insert same multi) l c) = c_alloc (fold_left (c_insert same multi) l d)).
  { induction l0 as [|x l0 IH]; intros c d Hi Ha; cbn [fold_left]; [split; assumption|].
    apply IH.
    - destruct (insert_items same multi c x) as (-> & _). destruct (insert_items same multi d x) as (-> & _). now rewrite Hi.
    - destruct (insert_items same multi c x) as (_ & ->). destruct (insert_items same multi d x) as (_ & ->). exact Ha. }
  intros n c. apply G; reflexivity.
Qed.

Lemma collection_ok W A B (same : A -> A -> bool) (make : B -> A) f al xs (w : W) multi :
  (forall x y, same x y = same y x) -> (forall x, same x x = true) ->
  (forall x y z, same x y = true -> same y z = true -> same x z = true) ->
  let r := sink_run (collection_sink W make same multi al) w xs in
  let c := collection_cb make same multi f al (LElements xs) in
  fst r = w /\ c_alloc (snd r) = al /\
  (if multi then c_items (snd r) = map make xs else first_of_each same (map make xs) (c_items (snd r))) /\
  c_items c = c_items (snd r) /\ c_alloc c = al.
Proof.
  intros Hs Hr Ht. cbn zeta. unfold sink_run. cbn [collection_sink sk_make sk_finish].
  rewrite (@collection_sink_calls W A B same multi make al xs w (c_default al)). cbn [fst snd].
  rewrite insert_map. split; [reflexivity|].
  assert (Ha : c_alloc (fold_left (c_insert same multi) (map make xs) (c_default al)) = al).
  { assert (G : forall l c, c_alloc (fold_left (c_insert same multi) l c) = c_alloc c).
    { induction l as [|x l IH]; intros c; cbn; [reflexivity|]. rewrite IH. apply insert_items. }
    apply G. }
  split; [exact Ha|]. split.
  - destruct multi.
    + destruct (insert_multi same (map make xs) (c_default al)) as (-> & _). reflexivity.
    + destruct (@insert_first A same Hs Hr Ht (map make xs) [] (c_default al)) as (H & _); [|exact H].
      split; [|split]; cbn; intros; try contradiction. destruct i; discriminate.
  - cbn [collection_cb]. rewrite insert_map. destruct (has_reserve f); [|split; [reflexivity|exact Ha]].
    destruct (insert_reserve same multi (map make xs) (length xs) (c_default al)) as (-> & ->). split; [reflexivity|exact Ha].
Qed.

(** ** concat *)
Lemma concat_append_items A f (c d : container A) :
  c_items (concat_append f c d) = c_items c ++ c_items d.
Proof. unfold concat_append. destruct (has_append f); [reflexivity|]. apply push_all. Qed.
Lemma concat_fold A f (l : list (container A)) : forall c,
  c_items (fold_left (concat_append f) l c) = c_items c ++ concat (map (@c_items A) l).
Proof.
  induction l as [|d l IH]; intros c; cbn [fold_left map concat]; [now rewrite app_nil_r|].
  rewrite IH, concat_append_items. now rewrite <- app_assoc.
Qed.
Lemma concat_sink_items A f (c d : container A) :
  c_items (concat_sink_call f c d) = c_items c ++ c_items d.
Proof.
  unfold concat_sink_call. destruct (c_items c) as [|x l] eqn:Hc; [reflexivity|]. rewrite <- Hc.
  destruct (has_append f); [reflexivity|].
  destruct (push_all (c_items d) (if has_reserve f
     then if c_capacity c <? length (c_items c) + length (c_items d)
          then if 2 * c_capacity c <? length (c_items c) + length (c_items d)
               then c_reserve (length (c_items c) + length (c_items d)) c
               else c_reserve (2 * c_capacity c) c else c else c)%nat) as (-> & _).
  destruct (has_reserve f); [|reflexivity]. destruct (_ <? _)%nat; [|reflexivity].
  destruct (_ <? _)%nat; reflexivity.
Qed.
Lemma concat_sink_calls W A f (l : list (container A)) : forall (w : W) c,
  exists c', sink_calls (concat_sink W A f) w c l = (w, c') /\ c_items c' = c_items c ++ concat (map (@c_items A) l).
Proof.
  induction l as [|d l IH]; intros w c; cbn [sink_calls].
  - exists c. split; [reflexivity|]. cbn. now rewrite app_nil_r.
  - cbn [concat_sink sk_call]. destruct (IH w (concat_sink_call f c d)) as (c' & H & Hi).
    exists c'. split; [exact H|]. rewrite Hi, concat_sink_items. cbn. now rewrite <- app_assoc.
Qed.
Lemma concat_ok W A f (head : container A) tail (w : W) :
  let r := sink_run (concat_sink W A f) w (head :: tail) in
  fst r = w /\ c_items (snd r) = concat (map (@c_items A) (head :: tail)) /\
  c_items (concat_cb f (Some (head, tail))) = concat (map (@c_items A) (head :: tail)) /\
  c_items (snd (sink_run (concat_sink W A f) w [])) = [] /\ c_items (concat_cb (A := A) f None) = [].
Proof.
  cbn zeta. unfold sink_run at 1 2. cbn [concat_sink sk_make].
  destruct (@concat_sink_calls W A f (head :: tail) w (c_default 0)) as (c' & H & Hi).
  rewrite H. cbn [sk_finish concat_sink fst snd]. split; [reflexivity|]. split; [exact Hi|]. split; [|split; reflexivity].
  unfold concat_cb, concat_call. destruct tail as [|t tail]; [cbn; now rewrite app_nil_r|].
  cbv zeta. rewrite concat_fold. destruct (has_reserve f); reflexivity.
Qed.

(** ** collect and fold *)
Lemma calls_exact W B A (f : W -> B -> W * A) : forall bs w,
  exists as_ w', calls f w bs as_ w' /\ (forall as2 w2, calls f w bs as2 w2 -> as2 = as_ /\ w2 = w').
Proof.
  induction bs as [|b bs IH]; intros w.
  - exists [], w. split; [constructor|]. intros as2 w2 H. inversion H. now subst.
  - destruct (f w b) as [w1 a] eqn:Hf. destruct (IH w1) as (as_ & w' & H & Hu).
    exists (a :: as_), w'. split; [econstructor; eauto|]. intros as2 w2 H2. inversion H2 as [|? ? w1' a' ? as' ? Hf' Hc]; subst.
    rewrite Hf in Hf'. injection Hf' as <- <-. destruct (Hu as' w2 Hc) as (-> & ->). split; reflexivity.
Qed.
Lemma collect_ok W B A (f : W -> B -> W * A) al w bs as_ w' :
  calls f w bs as_ w' ->
  let r := sink_run (collect_sink f al) w bs in fst r = w' /\ c_items (snd r) = as_ /\ c_alloc (snd r) = al.
Proof.
  cbn zeta. unfold sink_run. cbn [collect_sink sk_make].
  assert (G : forall w as_ w', calls f w bs as_ w' -> forall c,
     exists c', sink_calls (collect_sink f al) w c bs = (w', c') /\ c_items c' = c_items c ++ as_ /\ c_alloc c' = c_alloc c).
  { induction bs as [|b bs IH]; intros w0 as0 w0' H c; inversion H as [|? ? w1 a ? as1 ? Hf Hc]; subst; cbn [sink_calls].
    - exists c. rewrite app_nil_r. repeat split.
    - cbn [collect_sink sk_call]. rewrite Hf.
      destruct (IH _ _ _ Hc (c_push c a)) as (c' & Hs & Hi & Ha).
      exists c'. split; [exact Hs|]. rewrite Hi, Ha. cbn [c_push c_items c_alloc]. now rewrite <- app_assoc. }
  intros H. destruct (G w as_ w' H (c_default al)) as (c' & Hc & Hi & Ha).
  match goal with |- context [sink_calls ?s ?w ?c ?b] => change (sink_calls s w c b) with (sink_calls (collect_sink f al) w (c_default al) b) end.
  rewrite Hc. cbn. auto.
Qed.
Lemma collect_void_ok W B (f : W -> B -> W) w bs w' :
  calls (fun w b => (f w b, tt)) w bs (map (fun _ => tt) bs) w' ->
  sink_run (collect_void_sink f) w bs = (w', length bs).
Proof.
  unfold sink_run. cbn [collect_void_sink sk_make].
  assert (G : forall n w as_ w', calls (fun w b => (f w b, tt)) w bs as_ w' ->
     sink_calls (collect_void_sink f) w n bs = (w', (n + length bs)%nat)).
  { induction bs as [|b bs IH]; intros n w0 as0 w0' H; inversion H; subst; cbn [sink_calls length].
    - now rewrite Nat.add_0_r.
    - cbn [collect_void_sink sk_call].
      match goal with H : _ = (_, _) |- _ => injection H as Ha Hb end. rewrite Ha.
      erewrite IH by eauto. f_equal. lia. }
  intros H. rewrite (G _ _ _ _ H). cbn. reflexivity.
Qed.
Lemma folds_exact W B T (op : W -> T -> B -> W * T) : forall bs w t,
  exists w' t', folds op w t bs w' t' /\ (forall w2 t2, folds op w t bs w2 t2 -> w2 = w' /\ t2 = t').
Proof.
  induction bs as [|b bs IH]; intros w t.
  - exists w, t. split; [constructor|]. intros w2 t2 H. inversion H. now subst.
  - destruct (op w t b) as [w1 t1] eqn:Hf. destruct (IH w1 t1) as (w' & t' & H & Hu).
    exists w', t'. split; [econstructor; eauto|]. intros w2 t2 H2. inversion H2 as [|? ? ? w1' t1' ? ? ? Hf' Hc]; subst.
    rewrite Hf in Hf'. injection Hf' as <- <-. now apply Hu.
Qed.
Lemma fold_ok W B T (init : W -> W * T) (op : fold_op W B T) (f : W -> T -> B -> W * T) w w0 t bs w' t' :
  op = Fold f \/ op = FoldInplace f -> init w = (w0, t) -> folds f w0 t bs w' t' ->
  sink_run (fold_sink init op) w bs = (w', t').
Proof.
  intros Hop Hi H. unfold sink_run. cbn [fold_sink sk_make]. rewrite Hi.
  assert (G : forall bs w t w' t', folds f w t bs w' t' -> sink_calls (fold_sink init op) w t bs = (w', t')).
  { clear - Hop. induction bs as [|b bs IH]; intros w t w' t' H; inversion H; subst; cbn [sink_calls]; [reflexivity|].
    cbn [fold_sink sk_call]. destruct Hop as [->| ->]; match goal with H : f _ _ _ = _ |- _ => rewrite H end; now apply IH. }
  rewrite (G _ _ _ _ _ H). reflexivity.
Qed.
Lemma count_ok W B (w : W) (bs : list B) : sink_run (count_sink W B) w bs = (w, length bs).
Proof.
  eapply fold_ok; [right; reflexivity|reflexivity|].
  assert (G : forall bs n, folds (fun (w : W) n (_ : B) => (w, S n)) w n bs w (n + length bs)%nat).
  { induction bs0 as [|b bs0 IH]; intros n; cbn [length]; [rewrite Nat.add_0_r; constructor|].
    econstructor; [reflexivity|]. rewrite <- Nat.add_succ_comm. apply IH. }
  apply (G bs 0%nat).
Qed.

Lemma callback_ok W A R (s : sink W A R) w args : cb_from_sink s w args = sink_run s w args.
Proof.
  unfold cb_from_sink, sink_run. destruct (sk_make s w) as [w1 st].
  assert (G : forall args w st, fold_left (fun wc a => sk_call s (fst wc) (snd wc) a) args (w, st) = sink_calls s w st args).
  { clear. induction args as [|a args IH]; intros w st; cbn [fold_left sink_calls fst snd]; [reflexivity|].
    destruct (sk_call s w st a) as [w' st']. apply IH. }
  now rewrite G.
Qed.

(** ** as_aggregate *)
Lemma agg_rest_fold T M V (assign : M -> T -> V -> T) ms : forall t,
  agg_rest assign t ms = fold_left (fun t mv => assign (fst mv) t (snd mv)) ms t.
Proof. induction ms as [|(m, v) ms IH]; intros t; cbn; [reflexivity|]. apply IH. Qed.
Lemma agg_ok W T M V (assign : M -> T -> V -> T) (zero : T) (w : W) ms :
  sink_run (agg_sink W assign zero) w ms = (w, fold_left (fun t mv => assign (fst mv) t (snd mv)) ms zero) /\
  agg_cb assign zero (AggMembers ms) = fold_left (fun t mv => assign (fst mv) t (snd mv)) ms zero /\
  (forall t, agg_cb assign zero (AggObject t ms) = fold_left (fun t mv => assign (fst mv) t (snd mv)) ms t).
Proof.
  split; [|split].
  - unfold sink_run. cbn [agg_sink sk_make].
    assert (G : forall ms (t : T), sink_calls (agg_sink W assign zero) w t ms = (w, fold_left (fun t mv => assign (fst mv) t (snd mv)) ms t)).
    { induction ms0 as [|mv ms0 IH]; intros t; cbn [sink_calls fold_left]; [reflexivity|]. cbn [agg_sink sk_call]. apply IH. }
    rewrite G. reflexivity.
  - destruct ms as [|(m, v) ms]; [reflexivity|]. cbn [agg_cb fold_left fst snd]. apply agg_rest_fold.
  - intros t. apply agg_rest_fold.
Qed.

(** ** bind *)
Section BindProofs.
Variables (V S R : Type).
Implicit Types (bs : list (bound V S)) (args : list (arg V)) (state : option S).

Lemma nth_call_ok n fb fn args a state : n <> 0%nat ->
  nth_call n fb fn args = Some a <-> stands_for state args (BNth n fb fn) [a].
Proof.
  intros Hn. destruct n as [|n]; [congruence|]. unfold nth_call. rewrite Nat.sub_succ, Nat.sub_0_r.
  assert (Hl : (length args <? Datatypes.S n)%nat = true <-> nth_error args n = None).
  { rewrite nth_error_None. destruct (Nat.ltb_spec (length args) (Datatypes.S n)); split; intros; try reflexivity; try discriminate; lia. }
  assert (Hl2 : (Datatypes.S n <=? length args)%nat = true <-> nth_error args n <> None).
  { rewrite nth_error_Some. destruct (Nat.leb_spec (Datatypes.S n) (length args)); split; intros; try reflexivity; try discriminate; lia. }
  destruct fb as [fb|], fn as [fn|].
  - destruct (nth_error args n) as [[v|]|] eqn:He.
    + destruct (_ <? _)%nat; [destruct Hl as [Hl _]; specialize (Hl eq_refl); discriminate|].
      split; [intros [= <-]; now constructor|]. intros H. inversion H; subst; try congruence.
      destruct H1; congruence.
    + destruct (_ <? _)%nat; [destruct Hl as [Hl _]; specialize (Hl eq_refl); discriminate|].
      split; [intros [= <-]; constructor; auto|]. intros H. inversion H; subst; congruence.
    + destruct (_ <? _)%nat; [|destruct Hl as [_ Hl]; specialize (Hl eq_refl); discriminate].
      split; [intros [= <-]; constructor; auto|]. intros H. inversion H; subst; congruence.
  - destruct (nth_error args n) as [[v|]|] eqn:He.
    + destruct (_ <? _)%nat; [destruct Hl as [Hl _]; specialize (Hl eq_refl); discriminate|].
      split; [intros [= <-]; now constructor|]. intros H. inversion H; subst; try congruence.
      destruct H1; congruence.
    + destruct (_ <? _)%nat; [destruct Hl as [Hl _]; specialize (Hl eq_refl); discriminate|].
      split; [intros [= <-]; constructor; auto|]. intros H. inversion H; subst; congruence.
    + destruct (_ <? _)%nat; [|destruct Hl as [_ Hl]; specialize (Hl eq_refl); discriminate].
      split; [intros [= <-]; constructor; auto|]. intros H. inversion H; subst; congruence.
  - destruct (nth_error args n) as [b|] eqn:He.
    + destruct (_ <=? _)%nat; [|destruct Hl2 as [_ Hl2]; exfalso; assert (false = true) by (apply Hl2; discriminate); discriminate].
      cbn. split; [intros [= <-]; now constructor|]. intros H. inversion H; subst; congruence.
    + destruct (_ <=? _)%nat; cbn; split; try discriminate; intros H; inversion H; subst; congruence.
  - destruct (nth_error args n) as [b|] eqn:He.
    + destruct (_ <=? _)%nat; [|destruct Hl2 as [_ Hl2]; exfalso; assert (false = true) by (apply Hl2; discriminate); discriminate].
      split; [intros [= <-]; now constructor|]. intros H. inversion H; subst; congruence.
    + destruct (_ <=? _)%nat; split; try discriminate; intros H; inversion H; subst; congruence.
Qed.

Lemma expand_ok b state args a : is_all b = false -> one_based b ->
  expand_bound_arg b state args = Some a <-> stands_for state args b [a].
Proof.
  intros Ha Hb. destruct b as [v| |n fb fn|fn]; cbn [expand_bound_arg].
  - split; [intros [= <-]; constructor|]. intros H. inversion H. reflexivity.
  - discriminate.
  - apply nth_call_ok. exact Hb.
  - destruct state as [s|]; cbn.
    + split; [intros [= <-]; now constructor|]. intros H. inversion H; subst. congruence.
    + split; [discriminate|]. intros H. inversion H; subst. discriminate.
Qed.
Lemma stands_single b state args l : is_all b = false -> stands_for state args b l -> exists a, l = [a].
Proof. intros Ha H. destruct H; eauto. discriminate. Qed.

Lemma invoke_all_ok (fn : list (arg V) -> R) state args : forall bs produced r, Forall (@one_based V S) bs ->
  invoke_all fn bs state args produced = Some r <->
  exists outs, Forall2 (stands_for state args) bs outs /\ r = fn (produced ++ concat outs).
Proof.
  induction bs as [|b bs IH]; intros produced r Hb; cbn [invoke_all].
  - split.
    + intros [= <-]. exists []. split; [constructor|]. now rewrite app_nil_r.
    + intros (outs & H & ->). inversion H. cbn. now rewrite app_nil_r.
  - inversion Hb as [|? ? Hb1 Hb2]; subst. destruct (is_all b) eqn:Ha.
    + destruct b; try discriminate. rewrite IH by exact Hb2. split.
      * intros (outs & H & ->). exists (args :: outs). split; [constructor; [constructor|exact H]|]. cbn. now rewrite app_assoc.
      * intros (outs & H & ->). inversion H as [|? o ? os Ho Hos]; subst. inversion Ho; subst.
        exists os. split; [exact Hos|]. cbn. now rewrite app_assoc.
    + destruct (expand_bound_arg b state args) as [a|] eqn:He.
      * apply (expand_ok _ _ _ _ Ha Hb1) in He. rewrite IH by exact Hb2. split.
        -- intros (outs & H & ->). exists ([a] :: outs). split; [constructor; assumption|]. cbn. now rewrite <- app_assoc.
        -- intros (outs & H & ->). inversion H as [|? o ? os Ho Hos]; subst.
           destruct (stands_single Ha Ho) as (a' & ->).
           apply (expand_ok _ _ _ _ Ha Hb1) in Ho. apply (expand_ok _ _ _ _ Ha Hb1) in He.
           assert (a' = a) as -> by congruence. exists os. split; [exact Hos|]. cbn. now rewrite <- app_assoc.
      * split; [discriminate|]. intros (outs & H & ->). inversion H as [|? o ? os Ho Hos]; subst.
        destruct (stands_single Ha Ho) as (a' & ->). apply (expand_ok _ _ _ _ Ha Hb1) in Ho. congruence.
Qed.

Lemma expand_each_ok state args : forall bs l, Forall (@one_based V S) bs -> existsb (@is_all V S) bs = false ->
  expand_each bs state args = Some l <->
  exists outs, Forall2 (stands_for state args) bs outs /\ l = concat outs.
Proof.
  induction bs as [|b bs IH]; intros l Hb Ha; cbn [expand_each].
  - split.
    + intros [= <-]. exists []. split; [constructor|reflexivity].
    + intros (outs & H & ->). inversion H. reflexivity.
  - inversion Hb as [|? ? Hb1 Hb2]; subst. cbn in Ha. apply orb_false_elim in Ha. destruct Ha as (Ha1 & Ha2).
    destruct (expand_bound_arg b state args) as [a|] eqn:He.
    + apply (expand_ok _ _ _ _ Ha1 Hb1) in He.
      destruct (expand_each bs state args) as [l'|] eqn:Hl.
      * destruct (IH l' Hb2 Ha2) as (IH1 & _). destruct (IH1 eq_refl) as (outs & H & ->). split.
        -- intros [= <-]. exists ([a] :: outs). split; [constructor; assumption|reflexivity].
        -- intros (outs' & H' & ->). inversion H' as [|? o ? os Ho Hos]; subst.
           destruct (stands_single Ha1 Ho) as (a' & ->).
           apply (expand_ok _ _ _ _ Ha1 Hb1) in Ho. apply (expand_ok _ _ _ _ Ha1 Hb1) in He.
           destruct (IH (concat os) Hb2 Ha2) as (_ & IH2). pose proof (IH2 (ex_intro _ os (conj Hos eq_refl))) as Hx. cbn [concat app]. congruence.
      * split; [discriminate|]. intros (outs' & H' & ->). inversion H' as [|? o ? os Ho Hos]; subst.
        destruct (IH (concat os) Hb2 Ha2) as (_ & IH2). pose proof (IH2 (ex_intro _ os (conj Hos eq_refl))) as Hx. congruence.
    + split; [discriminate|]. intros (outs' & H' & ->). inversion H' as [|? o ? os Ho Hos]; subst.
      destruct (stands_single Ha1 Ho) as (a' & ->). apply (expand_ok _ _ _ _ Ha1 Hb1) in Ho. congruence.
Qed.

Lemma bind_ok (fn : list (arg V) -> R) bs state args r : Forall (@one_based V S) bs ->
  bind_call fn bs state args = Some r <->
  exists outs, Forall2 (stands_for state args) bs outs /\ r = fn (concat outs).
Proof.
  intros Hb. unfold bind_call, invoke_bound. destruct (existsb (@is_all V S) bs) eqn:Ha.
  - apply (invoke_all_ok fn state args [] r Hb).
  - destruct (expand_each bs state args) as [l|] eqn:Hl; cbn.
    + destruct (proj1 (expand_each_ok state args l Hb Ha) Hl) as (outs & H & ->). split.
      * intros [= <-]. eauto.
      * intros (outs' & H' & ->).
        assert (Some (concat outs) = Some (concat outs')) as [= ->]; [|reflexivity].
        rewrite <- Hl. apply (expand_each_ok state args _ Hb Ha). eauto.
    + split; [discriminate|]. intros (outs & H & ->).
      assert (expand_each bs state args = Some (concat outs)) by (apply (expand_each_ok state args _ Hb Ha); eauto). congruence.
Qed.

Lemma bind_sink_ok (fn : list (arg V) -> R) bs state r : Forall (@one_based V S) bs ->
  existsb (@is_all V S) bs = false ->
  (state = None -> Forall (fun b => exists a, b = BValue a) bs) ->
  bind_sink fn bs state = Some r <->
  exists outs, Forall2 (stands_for state []) bs outs /\ r = fn (concat outs).
Proof.
  intros Hb Ha Hn. unfold bind_sink. rewrite Ha. destruct state as [s|]; [now apply bind_ok|].
  assert (Hp : existsb (@is_placeholder V S) bs = false).
  { destruct (existsb (@is_placeholder V S) bs) eqn:He; [|reflexivity]. apply existsb_exists in He. destruct He as (b & Hin & Hpb).
    specialize (Hn eq_refl). rewrite Forall_forall in Hn. destruct (Hn b Hin) as (a & ->). discriminate. }
  rewrite Hp. now apply bind_ok.
Qed.
End BindProofs.

(** ** Composition *)
Section ComposeProofs.
Variables (S V : Type).
Lemma compose_ok (f g : callback S V) s args :
  cb_plain (compose f g) args = then_ (cb_plain f args) (cb_plain g) /\
  call_with s (compose f g) args = then_ (call_with s f args) (call_with s g).
Proof.
  split; [reflexivity|]. unfold call_with at 1, compose. cbn [cb_state cb_plain].
  unfold is_state_cb, call_with. destruct (cb_state f), (cb_state g); reflexivity.
Qed.
Lemma compose_assoc (f g h : callback S V) s args :
  call_with s (compose (compose f g) h) args = call_with s (compose f (compose g h)) args /\
  cb_plain (compose (compose f g) h) args = cb_plain (compose f (compose g h)) args.
Proof.
  split.
  - rewrite (proj2 (compose_ok (compose f g) h s args)), (proj2 (compose_ok f (compose g h) s args)), (proj2 (compose_ok f g s args)).
    destruct (call_with s f args) as [v|]; cbn [then_]; [|reflexivity].
    now rewrite (proj2 (compose_ok g h _ _)).
  - cbn. destruct (cb_plain f args) as [v|]; reflexivity.
Qed.
End ComposeProofs.
