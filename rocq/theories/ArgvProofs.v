(** Proofs about [argv_input]. *)
From Verif Require Import Prelude ArgvModel ArgvSpec.
Open Scope N_scope.

(** ** Positions of the joined arguments *)

(** Iterator at offset [k] of the arguments [l], the first of which has index [i]. *)
Fixpoint locate (i : nat) (l : list (list N)) (k : nat) : argv_it :=
  match l with
  | [] => It i None
  | s :: l' => if (k <=? length s)%nat then It i (Some k) else locate (S i) l' (k - S (length s))
  end.

Lemma joined_cons s l : l <> [] -> joined (s :: l) = s ++ 0 :: joined l.
Proof. destruct l; [congruence|reflexivity]. Qed.
Lemma joined_length s l : length (joined (s :: l)) = (length s + match l with [] => 0 | _ => S (length (joined l)) end)%nat.
Proof. destruct l; [cbn; lia|]. rewrite joined_cons by discriminate. rewrite app_length. cbn [length]. lia. Qed.

Definition pos_of (a : args) (k : nat) : argv_it :=
  if (length a <=? 1)%nat then It (length a) None else locate 1 (tl a) k.

Lemma nth_app_mid {A} (p : list A) s l : nth_error (p ++ s :: l) (length p) = Some s.
Proof. rewrite nth_error_app2, Nat.sub_diag by lia. reflexivity. Qed.
Lemma nth_app_next {A} (p : list A) s l : nth_error (p ++ s :: l) (S (length p)) = nth_error l 0.
Proof. rewrite nth_error_app2 by lia. replace (S (length p) - length p)%nat with 1%nat by lia. reflexivity. Qed.

Lemma char_at_mid p s l k : char_at (p ++ s :: l) (length p) k = nth_error (s ++ [0]) k.
Proof. unfold char_at. now rewrite nth_app_mid. Qed.

Lemma not_nul s k c : ~ In 0 s -> nth_error s k = Some c -> (c =? 0) = false.
Proof. intros H Hn. apply N.eqb_neq. intros ->. apply H. eapply nth_error_In; eauto. Qed.

(** Everything about the iterator at an offset. *)
Lemma locate_ok : forall l p k, c_strings l -> l <> [] -> (k <= length (joined l))%nat ->
  let a := p ++ l in let x := locate (length p) l k in
  ((k < length (joined l))%nat ->
     it_deref a x = nth_error (joined l) k /\ it_is_end a x = Some false /\
     it_increment a x = Some (locate (length p) l (S k)) /\
     it_decrement a (locate (length p) l (S k)) = Some x) /\
  (k = length (joined l) -> it_is_end a x = Some true /\ it_decrement a (It (length a) None) = Some x /\
     it_deref a x = Some 0).
Proof.
  induction l as [|s l IH]; intros p k Hc Hne Hk; [congruence|]. apply Forall_cons_iff in Hc as (Hs & Hc). cbn zeta. cbn [locate].
  rewrite joined_length in *. destruct (Nat.leb_spec k (length s)) as [L|L].
  - (* in this argument *)
    destruct (Nat.eq_dec k (length s)) as [->|Hks].
    + (* its end *)
      assert (Hn : nth_error (s ++ [0]) (length s) = Some 0) by (rewrite nth_error_app2, Nat.sub_diag by lia; reflexivity).
      split.
      * intros Hlt. destruct l as [|s2 l]; [lia|]. rewrite (joined_cons s (s2 :: l)) by discriminate.
        unfold it_increment, it_is_end, it_deref. cbn [it_c it_arg]. rewrite char_at_mid, Hn. cbn [N.eqb].
        rewrite app_length. cbn [length]. destruct (Nat.eqb_spec (S (length p)) (length p + S (S (length l)))) as [E|_]; [lia|].
        rewrite N.eqb_refl. cbn [andb]. rewrite nth_app_next. cbn [nth_error].
        destruct (Nat.leb_spec (S (length s)) (length s)) as [|_]; [lia|]. rewrite Nat.sub_diag. cbn [locate Nat.leb].
        split; [rewrite nth_error_app2, Nat.sub_diag by lia; reflexivity|]. split; [reflexivity|]. split; [reflexivity|].
        unfold it_decrement. cbn [it_c it_arg]. rewrite nth_app_next. cbn [nth_error Nat.eqb]. rewrite nth_app_mid. reflexivity.
      * intros Hend. destruct l as [|s2 l]; [|lia]. unfold it_is_end, it_deref, it_decrement. cbn [it_c it_arg]. rewrite char_at_mid, Hn, N.eqb_refl, app_length.
        cbn [length]. rewrite Nat.add_1_r, Nat.eqb_refl. split; [reflexivity|]. split; [|reflexivity].
        replace (nth_error (p ++ [s]) (S (length p))) with (@None (list N)).
        2:{ symmetry. apply nth_error_None. rewrite app_length. cbn. lia. }
        rewrite nth_app_mid. reflexivity.
    + (* inside *)
      assert (Hk2 : (k < length s)%nat) by lia. clear Hk. split; [|intros; lia]. intros _.
      destruct (nth_error s k) as [c|] eqn:Hn; [|apply nth_error_None in Hn; lia].
      assert (Hn2 : nth_error (s ++ [0]) k = Some c) by (rewrite nth_error_app1 by lia; exact Hn).
      assert (Hj : nth_error (joined (s :: l)) k = Some c).
      { destruct l; [exact Hn|]. rewrite joined_cons by discriminate. rewrite nth_error_app1 by lia. exact Hn. }
      unfold it_increment, it_is_end, it_deref. cbn [it_c it_arg]. rewrite char_at_mid, Hn2, Hj, (not_nul s k c Hs Hn). cbn [andb].
      destruct (Nat.leb_spec (S k) (length s)) as [_|]; [|lia]. split; [reflexivity|]. split; [reflexivity|]. split; [reflexivity|].
      unfold it_decrement. cbn [it_c it_arg]. rewrite nth_app_mid. cbn [Nat.eqb]. reflexivity.
  - (* in a later argument *)
    destruct l as [|s2 l]; [lia|]. rewrite (joined_cons s (s2 :: l)) by discriminate.
    replace (p ++ s :: s2 :: l) with ((p ++ [s]) ++ s2 :: l) by (rewrite <- app_assoc; reflexivity).
    replace (S (length p)) with (length (p ++ [s])) by (rewrite app_length; cbn; lia).
    assert (Hk2 : (k - S (length s) <= length (joined (s2 :: l)))%nat) by lia.
    destruct (IH (p ++ [s]) (k - S (length s))%nat Hc ltac:(discriminate) Hk2) as (H1 & H2). cbn zeta in H1, H2. split.
    + intros Hlt. destruct H1 as (G1 & G2 & G3 & G4); [lia|]. destruct (Nat.leb_spec (S k) (length s)) as [|_]; [lia|].
      replace (S k - S (length s))%nat with (S (k - S (length s))) by lia.
      split; [|auto]. rewrite G1. rewrite nth_error_app2 by lia. replace (k - length s)%nat with (S (k - S (length s))) by lia. reflexivity.
    + intros Hend. apply H2. lia.
Qed.

Lemma locate_inj : forall l i j k, l <> [] -> (j <= length (joined l))%nat -> (k <= length (joined l))%nat ->
  locate i l j = locate i l k -> j = k.
Proof.
  induction l as [|s l IH]; intros i j k Hne Hj Hk H; [congruence|]. cbn [locate] in H. rewrite joined_length in *.
  assert (Hlo : forall l i k, (i <= it_arg (locate i l k))%nat).
  { clear. induction l as [|s l IH]; intros i k; cbn [locate]; [cbn; lia|]. destruct (_ <=? _)%nat; [cbn; lia|].
    specialize (IH (S i) (k - S (length s))%nat). lia. }
  destruct (Nat.leb_spec j (length s)), (Nat.leb_spec k (length s)).
  - now injection H.
  - pose proof (Hlo l (S i) (k - S (length s))%nat) as G. rewrite <- H in G. cbn in G. lia.
  - pose proof (Hlo l (S i) (j - S (length s))%nat) as G. rewrite H in G. cbn in G. lia.
  - destruct l as [|s2 l]; [lia|]. apply IH in H; try lia. discriminate.
Qed.

Lemma equal_iff x y : it_equal x y = true <-> x = y.
Proof.
  destruct x as [i c], y as [j d]. unfold it_equal. cbn. rewrite andb_true_iff, Nat.eqb_eq. split.
  - intros (-> & H). destruct c, d; try discriminate; [apply Nat.eqb_eq in H; now subst|reflexivity].
  - intros [= -> ->]. split; [reflexivity|]. destruct d; [apply Nat.eqb_refl|reflexivity].
Qed.

(** ** The whole input *)

Lemma pos_ok a k : c_strings a -> (k <= length (argv_text a))%nat ->
  ((k < length (argv_text a))%nat ->
     it_deref a (pos_of a k) = nth_error (argv_text a) k /\ it_is_end a (pos_of a k) = Some false /\
     it_increment a (pos_of a k) = Some (pos_of a (S k)) /\
     it_decrement a (pos_of a (S k)) = Some (pos_of a k)) /\
  (k = length (argv_text a) -> it_is_end a (pos_of a k) = Some true /\ argv_end a = Some (pos_of a k)).
Proof.
  intros Hc Hk. unfold argv_text, pos_of, argv_end in *. destruct (Nat.leb_spec (length a) 1) as [L|L].
  - destruct a as [|n [|s l]]; cbn in *; try lia; (split; [intros; lia|auto]).
  - destruct a as [|n l]; [cbn in L; lia|]. destruct l as [|s l]; [cbn in L; lia|]. cbn [tl] in *.
    apply Forall_cons_iff in Hc as (_ & Hc).
    destruct (locate_ok (s :: l) [n] k Hc ltac:(discriminate) Hk) as (H1 & H2). cbn [app length] in H1, H2. split; [exact H1|].
    intros Hend. destruct (H2 Hend) as (G1 & G2 & _). split; [exact G1|exact G2].
Qed.

Lemma begin_pos a : argv_begin a = pos_of a 0.
Proof.
  unfold argv_begin, pos_of. destruct (Nat.leb_spec (length a) 1) as [L|L]; [reflexivity|].
  destruct a as [|n [|s l]]; cbn in L; try lia. reflexivity.
Qed.

Lemma steps_S a k x : steps a (S k) x = match steps a k x with Some y => it_increment a y | None => None end.
Proof.
  revert x. induction k as [|k IH]; intros x; [cbn; destruct (it_increment a x); reflexivity|].
  cbn [steps]. destruct (it_increment a x) as [y|]; [|reflexivity]. rewrite <- IH. reflexivity.
Qed.

Lemma steps_ok a k x : c_strings a -> (k <= length (argv_text a))%nat -> at_pos a k x <-> x = pos_of a k.
Proof.
  intros Hc Hk. unfold at_pos. enough (H : steps a k (argv_begin a) = Some (pos_of a k)) by (rewrite H; split; congruence).
  induction k as [|k IH]; [cbn; now rewrite begin_pos|]. rewrite steps_S, IH by lia.
  destruct (pos_ok a k Hc ltac:(lia)) as (H1 & _). now destruct H1 as (_ & _ & -> & _).
Qed.

Lemma pos_inj a j k : (j <= length (argv_text a))%nat -> (k <= length (argv_text a))%nat -> pos_of a j = pos_of a k -> j = k.
Proof.
  unfold argv_text, pos_of. destruct (Nat.leb_spec (length a) 1) as [L|L].
  - destruct a as [|n [|s l]]; cbn in *; lia.
  - intros. eapply locate_inj; eauto. destruct a as [|n [|s l]]; cbn in L; try lia. discriminate.
Qed.

Lemma argv_ok a : c_strings a ->
  forall k, (k <= length (argv_text a))%nat -> exists x, at_pos a k x /\
    ((k < length (argv_text a))%nat ->
       it_deref a x = nth_error (argv_text a) k /\ it_is_end a x = Some false /\
       exists y, at_pos a (S k) y /\ it_increment a x = Some y /\ it_decrement a y = Some x) /\
    (k = length (argv_text a) -> argv_end a = Some x /\ it_is_end a x = Some true) /\
    (forall j y, (j <= length (argv_text a))%nat -> at_pos a j y -> (it_equal y x = true <-> j = k)).
Proof.
  intros Hc k Hk. exists (pos_of a k). split; [now apply steps_ok|]. destruct (pos_ok a k Hc Hk) as (H1 & H2). split; [|split].
  - intros Hlt. destruct (H1 Hlt) as (G1 & G2 & G3 & G4). split; [exact G1|]. split; [exact G2|].
    exists (pos_of a (S k)). split; [apply steps_ok; [exact Hc|lia|reflexivity]|auto].
  - intros Hend. destruct (H2 Hend). auto.
  - intros j y Hj Hy. apply steps_ok in Hy as ->; auto. rewrite equal_iff. split; [now apply pos_inj|now intros ->].
Qed.

Lemma reader_ok a e : c_strings a -> argv_end a = Some e ->
  forall k x, (k <= length (argv_text a))%nat -> at_pos a k x ->
    rr_peek a e x = Some (nth_error (argv_text a) k) /\
    ((k < length (argv_text a))%nat -> exists y, rr_bump a e x = Some y /\ at_pos a (S k) y).
Proof.
  intros Hc He k x Hk Hx. destruct (argv_ok a Hc (length (argv_text a)) (le_n _)) as (e' & Hat & _ & H2 & Heq).
  destruct (H2 eq_refl) as (He' & _). rewrite He in He'. injection He' as <-.
  pose proof (Heq k x Hk Hx) as Hxe. unfold rr_peek, rr_bump. destruct (argv_ok a Hc k Hk) as (x' & Hx' & H1 & _).
  unfold at_pos in Hx, Hx'. rewrite Hx in Hx'. injection Hx' as <-. destruct (it_equal x e) eqn:E.
  - rewrite (proj1 Hxe eq_refl). split; [|intros; lia].
    now replace (nth_error (argv_text a) (length (argv_text a))) with (@None N) by (symmetry; apply nth_error_None; lia).
  - assert (Hlt : (k < length (argv_text a))%nat).
    { destruct (Nat.eq_dec k (length (argv_text a))) as [Hkk|]; [|lia]. apply Hxe in Hkk. congruence. }
    destruct (H1 Hlt) as (G1 & _ & y & G2 & G3 & _). rewrite G1. split; [|intros _; eauto].
    destruct (nth_error (argv_text a) k) eqn:En; [reflexivity|]. apply nth_error_None in En. lia.
Qed.

Lemma joined_app l1 l2 : l1 <> [] -> l2 <> [] -> joined (l1 ++ l2) = joined l1 ++ 0 :: joined l2.
Proof.
  intros H1 H2. induction l1 as [|s l1 IH]; [congruence|]. destruct l1 as [|s1 l1]; cbn [app].
  - now rewrite joined_cons.
  - rewrite joined_cons by discriminate. rewrite (joined_cons s (s1 :: l1)) by discriminate.
    rewrite <- app_assoc. cbn [app]. rewrite <- IH by discriminate. reflexivity.
Qed.

Lemma nul_at : forall l k, c_strings l -> nth_error (joined l) k = Some 0 <->
  exists l1 l2, l1 <> [] /\ l2 <> [] /\ l = l1 ++ l2 /\ k = length (joined l1).
Proof.
  intros l k Hc. split.
  - revert k. induction l as [|s l IH]; intros k H; [destruct k; discriminate|].
    apply Forall_cons_iff in Hc as (Hs & Hc). destruct l as [|s2 l].
    + cbn in H. apply nth_error_In in H. contradiction.
    + rewrite joined_cons in H by discriminate. destruct (Nat.lt_trichotomy k (length s)) as [L|[->|L]].
      * rewrite nth_error_app1 in H by lia. apply nth_error_In in H. contradiction.
      * exists [s], (s2 :: l). repeat split; try discriminate.
      * rewrite nth_error_app2 in H by lia. replace (k - length s)%nat with (S (k - S (length s))) in H by lia. cbn [nth_error] in H.
        destruct (IH Hc _ H) as (l1 & l2 & H1 & H2 & H3 & H4). exists (s :: l1), l2. split; [discriminate|]. split; [exact H2|].
        split; [cbn; now rewrite H3|]. rewrite joined_length. destruct l1; [congruence|]. lia.
  - intros (l1 & l2 & H1 & H2 & -> & ->). rewrite joined_app by assumption. now rewrite nth_error_app2, Nat.sub_diag by lia.
Qed.

Lemma separator_ok a e : c_strings a -> argv_end a = Some e ->
  forall k x, (k <= length (argv_text a))%nat -> at_pos a k x ->
    exists b y, argv_separator a e x = Some (b, y) /\
      (b = true <-> exists l1 l2, l1 <> [] /\ l2 <> [] /\ tl a = l1 ++ l2 /\ k = length (joined l1)) /\
      (b = true -> at_pos a (S k) y).
Proof.
  intros Hc He k x Hk Hx. destruct (reader_ok a e Hc He k x Hk Hx) as (H1 & H2). unfold argv_separator. rewrite H1.
  assert (Hct : c_strings (tl a)) by (destruct a; [constructor|now apply Forall_cons_iff in Hc as (_ & Hc)]).
  pose proof (nul_at (tl a) k Hct) as Hn. fold (argv_text a) in Hn. destruct (nth_error (argv_text a) k) as [c|] eqn:En.
  - destruct (N.eqb_spec c 0) as [->|Hc0].
    + destruct H2 as (y & -> & Hy); [apply nth_error_Some; congruence|]. exists true, y. split; [reflexivity|]. tauto.
    + exists false, x. split; [reflexivity|]. split; [|discriminate]. rewrite <- Hn. split; congruence.
  - exists false, x. split; [reflexivity|]. split; [|discriminate]. rewrite <- Hn. split; congruence.
Qed.

(** ** Range algorithms *)

Section ranges.
Context (a : args) (Hc : c_strings a).
Let n := length (argv_text a).
Notation P := (pos_of a).

Lemma P_equal j k : (j <= n)%nat -> (k <= n)%nat -> it_equal (P j) (P k) = (j =? k)%nat.
Proof.
  intros Hj Hk. destruct (Nat.eqb_spec j k) as [->|H]; [now apply equal_iff|].
  destruct (it_equal (P j) (P k)) eqn:E; [|reflexivity]. apply equal_iff in E. exfalso. apply H. now apply (pos_inj a).
Qed.
Lemma P_inc k : (k < n)%nat -> it_increment a (P k) = Some (P (S k)).
Proof. intros Hk. destruct (pos_ok a k Hc ltac:(unfold n in *; lia)) as (H & _). now destruct (H Hk) as (_ & _ & -> & _). Qed.

Lemma range_size_ok : forall fuel i j, (i <= j)%nat -> (j <= n)%nat -> (j - i <= fuel)%nat ->
  range_size a fuel (P i) (P j) = Some (j - i)%nat.
Proof.
  induction fuel as [|fuel IH]; intros i j Hij Hj Hf; cbn [range_size]; rewrite P_equal by lia.
  - replace (i =? j)%nat with true by lia. f_equal. lia.
  - destruct (Nat.eqb_spec i j) as [->|H]; [f_equal; lia|]. rewrite P_inc by lia. rewrite IH by lia. cbn. f_equal. lia.
Qed.
Lemma next_clamped_ok : forall m i j, (i <= j)%nat -> (j <= n)%nat -> next_clamped a (P i) m (P j) = Some (P (Nat.min (i + m) j)).
Proof.
  induction m as [|m IH]; intros i j Hij Hj; cbn [next_clamped].
  - replace (Nat.min (i + 0) j) with i by lia. reflexivity.
  - rewrite P_equal by lia. destruct (Nat.eqb_spec i j) as [->|H]; [f_equal; f_equal; lia|]. rewrite P_inc by lia. rewrite IH by lia. f_equal. f_equal. lia.
Qed.
Lemma min_end_ok : forall fuel i j k, (i <= j)%nat -> (i <= k)%nat -> (j <= n)%nat -> (k <= n)%nat -> (Nat.min j k - i <= fuel)%nat ->
  min_range_end a fuel (P i) (P j) (P k) = Some (P (Nat.min j k)).
Proof.
  induction fuel as [|fuel IH]; intros i j k Hij Hik Hj Hk Hf; cbn [min_range_end]; rewrite !P_equal by lia.
  - destruct (Nat.eqb_spec i j) as [->|H1]; cbn [negb andb]; [f_equal; f_equal; lia|].
    destruct (Nat.eqb_spec i k) as [->|H2]; cbn [negb andb]; [f_equal; f_equal; lia|lia].
  - destruct (Nat.eqb_spec i j) as [->|H1]; cbn [negb andb]; [f_equal; f_equal; lia|].
    destruct (Nat.eqb_spec i k) as [->|H2]; cbn [negb andb]; [f_equal; f_equal; lia|].
    rewrite P_inc by lia. apply IH; lia.
Qed.
Lemma max_end_ok : forall fuel i j k, (i <= j)%nat -> (i <= k)%nat -> (j <= n)%nat -> (k <= n)%nat -> (Nat.min j k - i <= fuel)%nat ->
  max_range_end a fuel (P i) (P j) (P k) = Some (P (Nat.max j k)).
Proof.
  induction fuel as [|fuel IH]; intros i j k Hij Hik Hj Hk Hf; cbn [max_range_end]; rewrite !P_equal by lia.
  - destruct (Nat.eqb_spec i j) as [->|H1]; [f_equal; f_equal; lia|]. destruct (Nat.eqb_spec i k) as [->|H2]; [f_equal; f_equal; lia|lia].
  - destruct (Nat.eqb_spec i j) as [->|H1]; [f_equal; f_equal; lia|]. destruct (Nat.eqb_spec i k) as [->|H2]; [f_equal; f_equal; lia|].
    rewrite P_inc by lia. apply IH; lia.
Qed.
End ranges.

Lemma ranges_ok a : c_strings a -> forall i j k x y z m fuel,
  (i <= j)%nat -> (i <= k)%nat -> (j <= length (argv_text a))%nat -> (k <= length (argv_text a))%nat -> (length (argv_text a) <= fuel)%nat ->
  at_pos a i x -> at_pos a j y -> at_pos a k z ->
  range_size a fuel x y = Some (j - i)%nat /\
  (exists w, next_clamped a x m y = Some w /\ at_pos a (Nat.min (i + m) j) w) /\
  (exists w, min_range_end a fuel x y z = Some w /\ at_pos a (Nat.min j k) w) /\
  (exists w, max_range_end a fuel x y z = Some w /\ at_pos a (Nat.max j k) w).
Proof.
  intros Hc i j k x y z m fuel Hij Hik Hj Hk Hf Hx Hy Hz.
  apply steps_ok in Hx as ->; [|exact Hc|lia]. apply steps_ok in Hy as ->; [|exact Hc|lia]. apply steps_ok in Hz as ->; [|exact Hc|lia].
  split; [apply range_size_ok; auto; lia|]. split; [|split].
  - exists (pos_of a (Nat.min (i + m) j)). split; [now apply next_clamped_ok|]. apply steps_ok; [exact Hc|lia|reflexivity].
  - exists (pos_of a (Nat.min j k)). split; [apply min_end_ok; auto; lia|]. apply steps_ok; [exact Hc|lia|reflexivity].
  - exists (pos_of a (Nat.max j k)). split; [apply max_end_ok; auto; lia|]. apply steps_ok; [exact Hc|lia|reflexivity].
Qed.
