(** Proofs about the holders of _detail/lazy_init.hpp. *)
From Verif Require Import Prelude LazyModel LazySpec.
From Coq Require Import List Arith Lia Bool.
Import ListNotations.
Set Implicit Arguments.
Local Open Scope nat_scope.

Section Proofs.
Variable V : Type.
Implicit Types (w : world V) (l : list (option (holder V))).

Definition view l (i : nat) : option (option (contents V)) :=
  match nth_error l i with Some (Some h) => Some (h_store h) | _ => None end.

Definition weight (x : option (holder V)) : nat :=
  match x with Some (Holder _ (Some _)) => 1 | _ => 0 end.

Definition count l : nat := fold_right (fun x n => weight x + n) 0 l.

Definition sane (x : option (holder V)) : Prop :=
  match x with
  | Some h => h_init h = match h_store h with Some _ => true | None => false end
  | None => True
  end.

Lemma nth_set {A} (l : list A) i a k :
  i < length l ->
  nth_error (set l i a) k = if k =? i then Some a else nth_error l k.
Proof.
  revert i k. induction l as [|x l IH]; cbn; intros i k H; [lia|].
  destruct i as [|i]; destruct k as [|k]; cbn; auto.
  rewrite IH by lia. reflexivity.
Qed.

Lemma set_length {A} (l : list A) i a : length (set l i a) = length l.
Proof.
  revert i. induction l as [|x l IH]; intros [|i]; cbn; auto.
Qed.

Lemma set_Forall {A} (P : A -> Prop) (l : list A) i a :
  Forall P l -> P a -> Forall P (set l i a).
Proof.
  intros H. revert i. induction H; intros [|i] Ha; cbn; auto.
Qed.

Lemma count_set l i a x :
  nth_error l i = Some x -> count (set l i a) + weight x = count l + weight a.
Proof.
  revert i. induction l as [|y l IH]; intros [|i] H; cbn in *; try discriminate.
  - injection H as ->. lia.
  - specialize (IH _ H). unfold count in *. lia.
Qed.

Lemma count_app l m : count (l ++ m) = count l + count m.
Proof. induction l; cbn; auto. unfold count in *. lia. Qed.

Lemma view_set l i a k :
  i < length l ->
  view (set l i a) k
  = if k =? i then option_map (@h_store V) a else view l k.
Proof.
  intros H. unfold view. rewrite nth_set by auto.
  destruct (k =? i); reflexivity.
Qed.

Lemma view_app l h k :
  view (l ++ [Some h]) k = if k =? length l then Some (h_store h) else view l k.
Proof.
  unfold view. destruct (Nat.eqb_spec k (length l)) as [->|N].
  - rewrite nth_error_app2, Nat.sub_diag by lia. reflexivity.
  - destruct (lt_dec k (length l)).
    + rewrite nth_error_app1 by auto. reflexivity.
    + rewrite (proj2 (nth_error_None l k)) by lia.
      rewrite (proj2 (nth_error_None (l ++ [Some h]) k)); auto.
      rewrite app_length. cbn. lia.
Qed.

Lemma get_view w i h :
  get w i = Some h ->
  nth_error (slots w) i = Some (Some h) /\ i < length (slots w).
Proof.
  unfold get. intros H. destruct (nth_error (slots w) i) as [[k|]|] eqn:E;
    try discriminate. injection H as ->. split; auto.
  apply nth_error_Some. congruence.
Qed.

(** The holders of the model against the notes. *)
Definition agrees (fl : flavor) w (b : notebook V) : Prop :=
  (forall i, b i = view (slots w) i) /\
  Forall sane (slots w) /\
  made w = gone w + counted fl (count (slots w)).

Lemma named fl w b i :
  agrees fl w b -> b i <> None ->
  exists h, get w i = Some h /\ sane (Some h) /\ b i = Some (h_store h).
Proof.
  intros (Hv & Hs & _) H. rewrite Hv in *. unfold view, get in *.
  destruct (nth_error (slots w) i) as [[h|]|] eqn:E; try congruence.
  exists h. split; auto. split; auto.
  rewrite Forall_forall in Hs. apply Hs. eapply nth_error_In; eauto.
Qed.

Ltac sides :=
  repeat match goal with
  | H : get _ _ = Some _ |- _ => apply get_view in H; destruct H
  end.

Lemma agrees_new fl w b :
  agrees fl w b ->
  agrees fl (World (slots w ++ [Some (fresh V)]) (made w) (gone w))
         (note b (length (slots w)) (Some None)).
Proof.
  intros (Hv & Hs & Hc). split; [|split]; cbn.
  - intros i. rewrite view_app. unfold note. cbn. rewrite Hv. reflexivity.
  - apply Forall_app. split; auto. constructor; cbn; auto.
  - rewrite count_app. cbn. rewrite Nat.add_0_r. exact Hc.
Qed.

Lemma counted_add fl a c : counted fl (a + c) = counted fl a + counted fl c.
Proof. destruct fl; reflexivity. Qed.

(** Replacing one holder. *)
Lemma agrees_set fl w b i h h' m g :
  agrees fl w b -> get w i = Some h ->
  sane h' ->
  m + counted fl (weight (Some h)) = g + counted fl (weight h') ->
  agrees fl (World (set (slots w) i h') (made w + m) (gone w + g))
         (note b i (option_map (@h_store V) h')).
Proof.
  intros (Hv & Hs & Hc) Hg Hok Hm. sides. split; [|split]; cbn [slots made gone].
  - intros k. rewrite view_set by auto. unfold note. rewrite Hv.
    destruct (k =? i); reflexivity.
  - apply set_Forall; auto.
  - pose proof (count_set (slots w) i h' H) as E.
    apply (f_equal (counted fl)) in E. rewrite !counted_add in E. lia.
Qed.

Arguments agrees_set {fl w b i h h' m g}.

Lemma agrees_same fl w b b' :
  agrees fl w b -> (forall i, b' i = b i) -> agrees fl w b'.
Proof.
  intros (Hv & Hs & Hc) H. split; [|split]; auto. intros i. rewrite H. auto.
Qed.

Lemma agrees_app fl w b h m :
  agrees fl w b -> sane (Some h) -> m = counted fl (weight (Some h)) ->
  agrees fl (World (slots w ++ [Some h]) (made w + m) (gone w))
         (note b (length (slots w)) (Some (h_store h))).
Proof.
  intros (Hv & Hs & Hc) Hok Hm. split; [|split]; cbn [slots made gone].
  - intros i. rewrite view_app. unfold note. rewrite Hv. reflexivity.
  - apply Forall_app. split; auto.
  - rewrite count_app, counted_add. cbn [count fold_right].
    rewrite Nat.add_0_r. lia.
Qed.

Arguments agrees_app {fl w b h m}.

Lemma eta w : World (slots w) (made w) (gone w) = w.
Proof. destruct w; reflexivity. Qed.

Lemma get_set w i a m g k :
  i < length (slots w) ->
  get (World (set (slots w) i (Some a)) m g) k
  = if k =? i then Some a else get w k.
Proof.
  intros H. unfold get. cbn. rewrite nth_set by auto.
  destruct (k =? i); reflexivity.
Qed.

Lemma step_ok fl w b o :
  agrees fl w b -> proper b o ->
  exists w', step fl w o = Some w' /\
             agrees fl w' (noted fl b (length (slots w)) o) /\
             length (slots w') = length (slots w) + creates o.
Proof.
  intros HA HP. destruct o as [|i v|i|i|i j|i]; cbn [proper] in HP; cbn [step noted creates].
  - eexists. split; [reflexivity|]. split.
    + apply agrees_new; auto.
    + cbn. rewrite app_length. reflexivity.
  - destruct (named i HA HP) as (h & Hg & Hs & Hb). rewrite Hg.
    assert (exists h' m g, emplace fl h (Val v) = Some (h', m, g) /\
             h' = Holder true (Some (Val v)) /\
             m + counted fl (weight (Some h)) = g + counted fl 1)
      as (h' & m & g & He & -> & Hm).
    { destruct h as [f s]; cbn in Hs; subst f.
      destruct fl; destruct s; cbn; do 3 eexists; repeat split; reflexivity. }
    rewrite He. eexists. split; [reflexivity|]. split.
    + exact (agrees_set (h' := Some (Holder true (Some (Val v)))) HA Hg eq_refl Hm).
    + cbn. rewrite set_length. lia.
  - destruct (named i HA HP) as (h & Hg & Hs & Hb). rewrite Hg.
    unfold emplace_throws.
    eexists. split; [reflexivity|]. split.
    + replace (made w) with (made w + 0) by lia.
      replace (gone w) with (gone w + 0) by lia.
      eapply agrees_same.
      * exact (agrees_set (h' := Some h) (m := 0) (g := 0) HA Hg Hs eq_refl).
      * intros k. unfold note. destruct (Nat.eqb_spec k i) as [->|]; auto.
    + cbn. rewrite set_length. lia.
  - destruct (named i HA HP) as (h & Hg & Hs & Hb). rewrite Hg.
    assert (exists h', move_construct fl h = Some (h, h', counted fl (weight (Some h)))
             /\ h' = Holder (h_init h) (option_map (left_over fl) (h_store h))
             /\ sane (Some h') /\ weight (Some h') = weight (Some h))
      as (h' & He & Eh & Hs' & Hw).
    { destruct h as [f s]; cbn in Hs; subst f.
      destruct fl; destruct s; cbn; eexists; repeat split; reflexivity. }
    rewrite He. eexists. split; [reflexivity|].
    pose proof (agrees_set (h' := Some h') (m := 0) (g := 0) HA Hg Hs'
                  ltac:(rewrite Hw; reflexivity)) as HA1.
    rewrite !Nat.add_0_r in HA1.
    pose proof (agrees_app HA1 Hs eq_refl) as HA2. cbn [slots made gone] in HA2.
    rewrite set_length in HA2. split.
    + eapply agrees_same; [exact HA2|]. intros k. unfold note.
      rewrite Hb, Eh. cbn. reflexivity.
    + cbn. rewrite app_length, set_length. reflexivity.
  - destruct HP as [Hi Hj].
    destruct (named i HA Hi) as (h & Hg & Hs & Hb). rewrite Hg.
    destruct (named j HA Hj) as (k & Hgk & Hsk & Hbk). rewrite Hgk.
    destruct (Nat.eqb_spec i j) as [->|N].
    + rewrite Hg in Hgk. injection Hgk as ->.
      assert (exists h', self_assign fl k = Some h'
               /\ h' = Holder (h_init k) (option_map (left_over fl) (h_store k))
               /\ sane (Some h') /\ weight (Some h') = weight (Some k))
        as (h' & He & Eh & Hs' & Hw).
      { destruct k as [f s]; cbn in Hs; subst f.
        destruct fl; destruct s; cbn; eexists; repeat split; reflexivity. }
      rewrite He. eexists. split; [reflexivity|].
      pose proof (agrees_set (h' := Some h') (m := 0) (g := 0) HA Hg Hs'
                    ltac:(rewrite Hw; reflexivity)) as HA1.
      rewrite !Nat.add_0_r in HA1. split.
      * eapply agrees_same; [exact HA1|]. intros x. unfold note.
        destruct (Nat.eqb_spec x j); auto. rewrite Hbk, Eh. reflexivity.
      * cbn. rewrite set_length. lia.
    + assert (exists h' k' m g, move_assign fl h k = Some (h', k', m, g)
               /\ h' = Holder (h_init k) (h_store k)
               /\ k' = Holder (h_init k) (option_map (left_over fl) (h_store k))
               /\ sane (Some h') /\ sane (Some k')
               /\ m + counted fl (weight (Some h)) = g + counted fl (weight (Some h'))
               /\ weight (Some k') = weight (Some k))
        as (h' & k' & m & g & He & Eh & Ek & Hs' & Hsk' & Hm & Hw).
      { destruct h as [f s]; cbn in Hs; subst f.
        destruct k as [f t]; cbn in Hsk; subst f.
        destruct fl; destruct s; destruct t; cbn; do 4 eexists; repeat split; reflexivity. }
      rewrite He. eexists. split; [reflexivity|].
      pose proof (agrees_set (h' := Some h') HA Hg Hs' Hm) as HA1.
      assert (Hg1 : get (World (set (slots w) i (Some h')) (made w + m) (gone w + g)) j
                    = Some k).
      { destruct (get_view _ _ Hg) as [_ Hlt]. rewrite get_set by auto.
        destruct (Nat.eqb_spec j i); [congruence|auto]. }
      pose proof (agrees_set (h' := Some k') (m := 0) (g := 0) HA1 Hg1 Hsk'
                    ltac:(rewrite Hw; reflexivity)) as HA2.
      cbn [slots made gone] in HA2. rewrite !Nat.add_0_r in HA2. split.
      * eapply agrees_same; [exact HA2|]. intros x. unfold note.
        rewrite Hbk, Eh, Ek. reflexivity.
      * cbn. rewrite !set_length. lia.
  - destruct (named i HA HP) as (h & Hg & Hs & Hb). rewrite Hg.
    assert (exists g, destroy fl h = Some g /\ counted fl (weight (Some h)) = g)
      as (g & He & Hm).
    { destruct h as [f s]; cbn in Hs; subst f.
      destruct fl; destruct s; cbn; eexists; split; reflexivity. }
    rewrite He. eexists. split; [reflexivity|]. split.
    + pose proof (agrees_set (h' := None) (m := 0) (g := g) HA Hg I) as HA1.
      cbn [option_map] in HA1. rewrite Nat.add_0_r in HA1. apply HA1.
      destruct fl; cbn in *; lia.
    + cbn. rewrite set_length. lia.
Qed.

Lemma run_ok fl os : forall w b,
  agrees fl w b -> history fl b (length (slots w)) os ->
  exists w', run fl w os = Some w' /\
             agrees fl w' (notes fl b (length (slots w)) os) /\
             length (slots w') = length (slots w) + created os.
Proof.
  induction os as [|o os IH]; intros w b HA HH.
  - exists w. cbn. auto.
  - destruct HH as [HP HH]. destruct (step_ok o HA HP) as (w1 & E & HA1 & L).
    cbn. rewrite E. rewrite <- L in HH.
    destruct (IH _ _ HA1 HH) as (w2 & E2 & HA2 & L2).
    exists w2. split; auto. split; [rewrite <- L; auto|lia].
Qed.

Lemma start_agrees fl : agrees fl (start V) (blank V).
Proof.
  split; [|split]; cbn.
  - intros i. unfold view. destruct i; reflexivity.
  - constructor.
  - destruct fl; reflexivity.
Qed.

Lemma holding_ext (b c : notebook V) n :
  (forall i, i < n -> b i = c i) -> holding b n = holding c n.
Proof.
  induction n as [|n IH]; intros H; cbn; auto.
  rewrite (H n) by lia. rewrite IH; auto.
Qed.

Lemma count_holding l : holding (view l) (length l) = count l.
Proof.
  induction l as [|x l IH] using rev_ind; auto.
  rewrite count_app, app_length. cbn. rewrite Nat.add_comm. cbn.
  rewrite (holding_ext (view (l ++ [x])) (view l) (n := length l)).
  - rewrite IH. unfold view. rewrite nth_error_app2, Nat.sub_diag by lia. cbn.
    destruct x as [[f [c|]]|]; cbn; lia.
  - intros i Hi. unfold view. rewrite nth_error_app1 by auto. reflexivity.
Qed.

Lemma holders_ok fl os :
  history fl (blank V) 0 os ->
  exists w, run fl (start V) os = Some w /\
    (forall i, has_value w i
               = match notes fl (blank V) 0 os i with Some (Some _) => true | _ => false end) /\
    (forall i, value w i = notes fl (blank V) 0 os i) /\
    made w = gone w + counted fl (holding (notes fl (blank V) 0 os) (created os)).
Proof.
  intros H. destruct (run_ok os (start_agrees fl) H) as (w & E & (Hv & Hs & Hc) & L).
  cbn in Hv, L. exists w. split; auto.
  assert (G : forall i, sane (match get w i with Some h => Some h | None => None end)).
  { intros i. unfold get. destruct (nth_error (slots w) i) as [[h|]|] eqn:En; cbn; auto.
    rewrite Forall_forall in Hs. apply (Hs (Some h)). eapply nth_error_In; eauto. }
  assert (Q : forall i, notes fl (blank V) 0 os i = option_map (@h_store V) (get w i)).
  { intros i. rewrite Hv. unfold view, get.
    destruct (nth_error (slots w) i) as [[h|]|]; reflexivity. }
  split; [|split].
  - intros i. rewrite Q. unfold has_value. specialize (G i).
    destruct (get w i) as [h|]; auto.
  - intros i. rewrite Q. unfold value, deref. specialize (G i).
    destruct (get w i) as [h|]; auto. cbn in *. rewrite G.
    destruct (h_store h); reflexivity.
  - rewrite Hc, <- count_holding, L. do 2 f_equal.
    apply holding_ext. intros i _. symmetry. apply Hv.
Qed.

Lemma no_holder_no_object (b : notebook V) n :
  (forall i, i < n -> b i = None) -> holding b n = 0.
Proof.
  induction n as [|n IH]; intros H; cbn; auto. rewrite (H n) by lia. apply IH. auto.
Qed.
End Proofs.
