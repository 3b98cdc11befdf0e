(** Expression parsing terminates, more fuel changes nothing, and no empty value is
    dereferenced. *)
From Verif Require Import Prelude ExprModel ExprSpec ExprTable ExprProofs.
Open Scope nat_scope.

Section Fuel.
Variable tbl : operation.
Variable max_nesting : nat.
Variable input : list N.
Variable atom : nat -> bool * nat.
Variable op_rest : nat -> nat -> nat -> bool * nat.

Notation parse := (parse tbl max_nesting input atom op_rest).
Notation parse_lhs := (parse_lhs tbl max_nesting input atom op_rest).
Notation post_loop := (post_loop tbl max_nesting input atom op_rest).
Notation do_op := (do_op tbl max_nesting input atom op_rest).
Notation do_kind := (do_kind tbl max_nesting input atom op_rest).
Notation list_loop := (list_loop tbl max_nesting input atom op_rest).

(** ** More fuel *)
Definition keeps (a b : res) : Prop := a <> NoFuel -> b = a.
Lemma mono_S : forall f,
  (forall min s, keeps (parse f min s) (parse (S f) min s)) /\
  (forall min s, keeps (parse_lhs f min s) (parse_lhs (S f) min s)) /\
  (forall min s, keeps (post_loop f min s) (post_loop (S f) min s)) /\
  (forall e idx b s, keeps (do_op f e idx b s) (do_op (S f) e idx b s)) /\
  (forall e sp o s, keeps (list_loop f e sp o s) (list_loop (S f) e sp o s)).
Proof.
  induction f as [|f (IA & IB & IC & ID & IL)].
  { repeat split; intros; intros H; contradiction (H eq_refl). }
  assert (Use : forall (a b : res), keeps a b -> a = NoFuel \/ b = a).
  { intros a b H. destruct a; auto; right; apply H; discriminate. }
  split; [|split; [|split; [|split]]].
  - intros min s. rewrite !parse_S. unfold keeps. destruct (op_list false min tbl 1) as [|e0 l0].
    + apply IB.
    + destruct (Use _ _ (IB min (emit (EStart (pos s)) s))) as [->| ->]; [intros H; now contradiction H|].
      destruct (parse_lhs f min (emit (EStart (pos s)) s)) as [[|] s1| |]; try reflexivity.
      destruct (Use _ _ (IC min s1)) as [->| ->]; [intros H; now contradiction H|]. reflexivity.
  - intros min s. rewrite !parse_lhs_S. unfold keeps.
    destruct (parse_operator _ _) as [[[e idx] n]|]; [|reflexivity].
    match goal with |- context [do_op f ?a ?b ?c ?d] =>
      destruct (Use _ _ (ID a b c d)) as [->| ->]; [intros H; now contradiction H|] end. reflexivity.
  - intros min s. rewrite !post_loop_S. unfold keeps.
    destruct (parse_operator _ _) as [[[e idx] n]|]; [|reflexivity].
    match goal with |- context [do_op f ?a ?b ?c ?d] =>
      destruct (Use _ _ (ID a b c d)) as [->| ->]; [intros H; now contradiction H|];
      destruct (do_op f a b c d) as [[|] s1| |]; try reflexivity end.
    apply IC.
  - intros e idx b s. rewrite !do_op_S. unfold keeps.
    destruct (enter_op _ _ _ _ _ _) as [[|] s0]; [|reflexivity].
    destruct (op_finish _ _ _ _ _ _) as [[[|] o] s1]; [|reflexivity].
    unfold ExprProofs.do_kind. cbv zeta.
    assert (P : forall m s, parse f m s = NoFuel \/ parse (S f) m s = parse f m s) by (intros; now apply Use).
    destruct (e_kind e).
    + destruct (P (br (bp tbl (e_id e))) (set_val None s1)) as [->| ->]; [intros H; now contradiction H|reflexivity].
    + destruct (P (br (bp tbl (e_id e))) (set_val None s1)) as [->| ->]; [intros H; now contradiction H|reflexivity].
    + destruct (val s1) as [lhs|]; [|reflexivity].
      destruct (Use _ _ (IL e (SOne lhs) o (set_val None s1))) as [->| ->]; [intros H; now contradiction H|reflexivity].
    + destruct (P (br (bp tbl (e_id e))) (set_val None s1)) as [->| ->]; [intros H; now contradiction H|reflexivity].
    + reflexivity.
    + destruct (P (br (bp tbl (e_id e))) s1) as [->| ->]; [intros H; now contradiction H|reflexivity].
  - intros e sp o s. rewrite !list_loop_S. unfold keeps.
    destruct (Use _ _ (IA (br (bp tbl (e_id e))) s)) as [->| ->]; [intros H; now contradiction H|].
    destruct (parse f (br (bp tbl (e_id e))) s) as [[|] s1| |]; try reflexivity.
    destruct (val s1) as [v|]; [|reflexivity].
    destruct (parse_operator _ _) as [[[e' idx] n]|]; [|reflexivity].
    destruct (op_finish _ _ _ _ _ _) as [[[|] o2] s2]; [|reflexivity]. apply IL.
Qed.

Lemma keeps_le (F : nat -> res) : (forall f, keeps (F f) (F (S f))) ->
  forall f f', f <= f' -> F f <> NoFuel -> F f' = F f.
Proof.
  intros H f f' L. induction L as [|f' L IH]; intros Hn; [reflexivity|].
  rewrite <- (IH Hn). apply H. rewrite (IH Hn). exact Hn.
Qed.
Lemma parse_mono f f' min s ok s' : f <= f' -> parse f min s = Done ok s' -> parse f' min s = Done ok s'.
Proof.
  intros L H. rewrite <- H. apply (keeps_le (fun f => parse f min s)); [|exact L|congruence].
  intros g. apply (mono_S g).
Qed.
Lemma lhs_mono f f' min s ok s' : f <= f' -> parse_lhs f min s = Done ok s' -> parse_lhs f' min s = Done ok s'.
Proof.
  intros L H. rewrite <- H. apply (keeps_le (fun f => parse_lhs f min s)); [|exact L|congruence].
  intros g. apply (mono_S g).
Qed.
Lemma loop_mono f f' min s ok s' : f <= f' -> post_loop f min s = Done ok s' -> post_loop f' min s = Done ok s'.
Proof.
  intros L H. rewrite <- H. apply (keeps_le (fun f => post_loop f min s)); [|exact L|congruence].
  intros g. apply (mono_S g).
Qed.
Lemma do_op_mono f f' e idx b s ok s' : f <= f' -> do_op f e idx b s = Done ok s' -> do_op f' e idx b s = Done ok s'.
Proof.
  intros L H. rewrite <- H. apply (keeps_le (fun f => do_op f e idx b s)); [|exact L|congruence].
  intros g. apply (mono_S g).
Qed.
Lemma list_mono f f' e sp o s ok s' : f <= f' -> list_loop f e sp o s = Done ok s' -> list_loop f' e sp o s = Done ok s'.
Proof.
  intros L H. rewrite <- H. apply (keeps_le (fun f => list_loop f e sp o s)); [|exact L|congruence].
  intros g. apply (mono_S g).
Qed.
Lemma parse_det f f' min s ok s' ok' s'' :
  parse f min s = Done ok s' -> parse f' min s = Done ok' s'' -> ok = ok' /\ s' = s''.
Proof.
  intros H H'. destruct (Nat.le_ge_cases f f') as [L|L].
  - pose proof (parse_mono _ _ _ _ _ _ L H). rewrite H0 in H'. now injection H'.
  - pose proof (parse_mono _ _ _ _ _ _ L H'). rewrite H0 in H. injection H. auto.
Qed.

(** ** No empty value is used *)
Definition valued (r : res) : Prop :=
  match r with Done true s => val s <> None | UB => False | _ => True end.
Lemma op_finish_val e idx b m s : val (snd (op_finish op_rest e idx b m s)) = val s.
Proof. unfold op_finish. destruct (op_rest _ _ _). reflexivity. Qed.
Lemma enter_op_val e b m s : val (snd (enter_op tbl max_nesting e b m s)) = val s.
Proof.
  unfold enter_op. destruct (_ <=? _); [reflexivity|]. cbn. destruct (_ =? 0); [reflexivity|].
  destruct (_ =? 0); [reflexivity|]. destruct (negb _); reflexivity.
Qed.
Lemma in_op_list_kind pre min e : In e (op_list pre min tbl 1) -> is_pre (e_kind e) = pre.
Proof. intros H. apply (in_op_list pre min e tbl 0 []) in H. destruct H as (d & _ & -> & H & _). exact H. Qed.

Lemma valued_all : forall f,
  (forall min s, valued (parse f min s)) /\
  (forall min s, valued (parse_lhs f min s)) /\
  (forall min s, val s <> None -> valued (post_loop f min s)) /\
  (forall e idx b s, (is_pre (e_kind e) = false -> val s <> None) -> valued (do_op f e idx b s)) /\
  (forall e sp o s, valued (list_loop f e sp o s)).
Proof.
  induction f as [|f (IA & IB & IC & ID & IL)]; [repeat split; intros; exact I|].
  split; [|split; [|split; [|split]]].
  - intros min s. rewrite parse_S. destruct (op_list false min tbl 1) as [|e0 l0]; [apply IB|].
    pose proof (IB min (emit (EStart (pos s)) s)) as H.
    destruct (parse_lhs f min _) as [[|] s1| |]; [|exact I|contradiction H|exact I]. cbn in H.
    pose proof (IC min s1 H) as H2. destruct (post_loop f min s1) as [[|] s2| |]; exact H2.
  - intros min s. rewrite parse_lhs_S. destruct (parse_operator _ _) as [[[e idx] n]|] eqn:Ep.
    + apply parse_operator_some in Ep. destruct Ep as (Hin & _).
      apply in_op_list_kind in Hin.
      match goal with |- context [do_op f ?a ?b ?c ?d] => pose proof (ID a b c d ltac:(congruence)) as H;
        destruct (do_op f a b c d) as [[|] s1| |]; exact H end.
    + unfold parse_atom. destruct (atom (pos s)) as [[|] n]; cbn; [discriminate|exact I].
  - intros min s Hv. rewrite post_loop_S. destruct (parse_operator _ _) as [[[e idx] n]|] eqn:Ep; [|exact Hv].
    match goal with |- context [do_op f ?a ?b ?c ?d] => pose proof (ID a b c d ltac:(intros; exact Hv)) as H;
      destruct (do_op f a b c d) as [[|] s1| |]; [|exact I|exact H|exact I] end.
    apply IC. exact H.
  - intros e idx b s Hv. rewrite do_op_S. pose proof (enter_op_val e b (pos s) s) as He.
    destruct (enter_op _ _ _ _ _ _) as [[|] s0]; [|exact I]. cbn in He.
    pose proof (op_finish_val e idx b (pos s0) s0) as Ho.
    destruct (op_finish _ _ _ _ _ _) as [[[|] o] s1]; [|exact I]. cbn in Ho.
    assert (Ev : val s1 = val s) by congruence. unfold ExprProofs.do_kind. cbv zeta. rewrite Ev.
    destruct (e_kind e) eqn:Ek; cbn in Hv.
    + pose proof (IA (br (bp tbl (e_id e))) (set_val None s1)) as H.
      destruct (parse f _ _) as [[|] s2| |]; [|exact I|exact H|exact I]. cbn in H.
      destruct (val s); [|now contradiction Hv]. destruct (val s2); [cbn; discriminate|congruence].
    + pose proof (IA (br (bp tbl (e_id e))) (set_val None s1)) as H.
      destruct (parse f _ _) as [[|] s2| |]; [|exact I|exact H|exact I]. cbn in H.
      destruct (val s); [|now contradiction Hv]. destruct (val s2); [cbn; discriminate|congruence].
    + destruct (val s) as [lhs|]; [|now contradiction Hv].
      pose proof (IL e (SOne lhs) o (set_val None s1)) as H.
      destruct (list_loop f _ _ _ _) as [[|] s2| |]; exact H.
    + pose proof (IA (br (bp tbl (e_id e))) (set_val None s1)) as H.
      destruct (parse f _ _) as [[|] s2| |]; [|exact I|exact H|exact I]. cbn in H.
      destruct (val s); [|now contradiction Hv]. destruct (val s2) eqn:E2; [|congruence]. cbn.
      match goal with |- val (match ?x with _ => _ end) <> None => destruct x as [[[? ?] ?]|] end; cbn; discriminate.
    + destruct (val s); [cbn; discriminate|now contradiction Hv].
    + pose proof (IA (br (bp tbl (e_id e))) s1) as H.
      destruct (parse f _ _) as [[|] s2| |]; [|exact I|exact H|exact I]. cbn in H.
      destruct (val s2); [cbn; discriminate|congruence].
  - intros e sp o s. rewrite list_loop_S. pose proof (IA (br (bp tbl (e_id e))) s) as H.
    destruct (parse f _ _) as [[|] s1| |]; [|exact I|exact H|exact I]. cbn in H.
    destruct (val s1) as [v|]; [|congruence].
    destruct (parse_operator _ _) as [[[e' idx] n]|]; [|cbn; discriminate].
    destruct (op_finish _ _ _ _ _ _) as [[[|] o2] s2]; [|exact I]. apply IL.
Qed.

(** ** Termination *)
Hypothesis Hok : table_ok tbl.
Notation left s := (length input - pos s).
Definition enough (s : st) (r : res) : Prop :=
  match r with Done true s' => pos s <= pos s' | Done false _ => True | UB => True | NoFuel => False end.

Lemma starts_with_len a b : starts_with a b = true -> length a <= length b.
Proof.
  revert b. induction a as [|c a IH]; intros b H; cbn in *; [lia|]. destruct b as [|d b]; [discriminate|].
  cbn. apply andb_true_iff in H. destruct H as (_ & H). specialize (IH _ H). lia.
Qed.
Lemma matches_len x p : matches x (at_ input p) = true -> p + length (l_text x) <= length input \/ l_text x = [].
Proof.
  unfold matches, at_. intros H. apply andb_true_iff in H. destruct H as (H & _).
  apply starts_with_len in H. rewrite skipn_length in H.
  destruct (l_text x) as [|c r]; [auto|]. cbn in *. lia.
Qed.
Lemma op_finish_pos e idx b m s : m <= pos (snd (op_finish op_rest e idx b m s)).
Proof. unfold op_finish. destruct (op_rest _ _ _). cbn. lia. Qed.
Lemma enter_op_pos e b m s : fst (enter_op tbl max_nesting e b m s) = true ->
  pos (snd (enter_op tbl max_nesting e b m s)) = pos s.
Proof.
  unfold enter_op. destruct (_ <=? _); [discriminate|]. cbn. intros _. destruct (_ =? 0); [reflexivity|].
  destruct (_ =? 0); [reflexivity|]. destruct (negb _); reflexivity.
Qed.
Lemma found_len l p e idx n : (forall e, In e l -> exists d, declared tbl d /\ e = entry_of d) ->
  parse_operator l (at_ input p) = Some (e, idx, n) -> 1 <= n /\ p + n <= length input /\
  exists d, declared tbl d /\ e = entry_of d.
Proof.
  intros Hl H. apply parse_operator_some in H. destruct H as (Hin & x & Hx & Hm & ->).
  destruct (Hl _ Hin) as (d & Hd & ->). cbn in Hx. apply nth_error_In in Hx.
  pose proof (proj2 Hok d x Hd Hx) as Hne. destruct (matches_len _ _ Hm) as [L|E]; [|contradiction].
  split; [destruct (l_text x); [congruence|cbn; lia]|]. split; [exact L|eauto].
Qed.
Lemma op_list_declared pre min e : In e (op_list pre min tbl 1) -> exists d, declared tbl d /\ e = entry_of d.
Proof. intros H. apply (in_op_list pre min e tbl 0 []) in H. destruct H as (d & H1 & H2 & _). exists d. auto. Qed.

Lemma enough_all : forall f,
  (forall min s, 4 * left s + 3 <= f -> enough s (parse f min s)) /\
  (forall min s, 4 * left s + 2 <= f -> enough s (parse_lhs f min s)) /\
  (forall min s, 4 * left s + 2 <= f -> enough s (post_loop f min s)) /\
  (forall d idx b s, declared tbl d -> 4 * left s + 5 <= f -> enough s (do_op f (entry_of d) idx b s)) /\
  (forall d sp o s, declared tbl d -> 4 * left s + 4 <= f -> enough s (list_loop f (entry_of d) sp o s)).
Proof.
  induction f as [|f (IA & IB & IC & ID & IL)]; [repeat split; intros; lia|].
  split; [|split; [|split; [|split]]].
  - intros min s L. rewrite parse_S. destruct (op_list false min tbl 1) as [|e0 l0]; [apply IB; lia|].
    pose proof (IB min (emit (EStart (pos s)) s) ltac:(cbn [pos emit]; lia)) as H.
    destruct (parse_lhs f min _) as [[|] s1| |]; [|exact I|exact I|contradiction H]. cbn in H.
    pose proof (IC min s1 ltac:(lia)) as H2. destruct (post_loop f min s1) as [[|] s2| |]; cbn in *; auto; lia.
  - intros min s L. rewrite parse_lhs_S. destruct (parse_operator _ _) as [[[e idx] n]|] eqn:Ep.
    + destruct (found_len _ _ _ _ _ (op_list_declared true min) Ep) as (H1 & H2 & d & Hd & ->).
      match goal with |- context [do_op f ?a ?b ?c ?s0] =>
        pose proof (ID d b c s0 Hd ltac:(cbn [pos set_pos]; lia)) as H;
        destruct (do_op f a b c s0) as [[|] s1| |]; cbn in *; auto; lia end.
    + unfold parse_atom. destruct (atom (pos s)) as [[|] n]; cbn; [lia|exact I].
  - intros min s L. rewrite post_loop_S. destruct (parse_operator _ _) as [[[e idx] n]|] eqn:Ep; [|cbn; lia].
    destruct (found_len _ _ _ _ _ (op_list_declared false min) Ep) as (H1 & H2 & d & Hd & ->).
    match goal with |- context [do_op f ?a ?b ?c ?s0] =>
      pose proof (ID d b c s0 Hd ltac:(cbn [pos set_pos]; lia)) as H;
      destruct (do_op f a b c s0) as [[|] s1| |]; [|exact I|exact I|contradiction H] end.
    cbn in H. pose proof (IC min s1 ltac:(lia)) as H3. destruct (post_loop f min s1) as [[|] s2| |]; cbn in *; auto; lia.
  - intros d idx b s Hd L. rewrite do_op_S. pose proof (enter_op_pos (entry_of d) b (pos s) s) as He.
    destruct (enter_op _ _ _ _ _ _) as [[|] s0]; [|exact I]. cbn in He. specialize (He eq_refl).
    pose proof (op_finish_pos (entry_of d) idx b (pos s0) s0) as Ho.
    destruct (op_finish _ _ _ _ _ _) as [[[|] o] s1]; [|exact I]. cbn in Ho.
    unfold ExprProofs.do_kind. cbv zeta.
    pose proof (IA (br (bp tbl (e_id (entry_of d)))) (set_val None s1) ltac:(cbn [pos set_val]; lia)) as HP.
    pose proof (IA (br (bp tbl (e_id (entry_of d)))) s1 ltac:(lia)) as HP'.
    destruct (e_kind (entry_of d)).
    + destruct (parse f _ (set_val None s1)) as [[|] s2| |]; [|exact I|exact I|contradiction HP]. cbn in HP.
      destruct (val s1); [|exact I]. destruct (val s2); [|exact I]. cbn. lia.
    + destruct (parse f _ (set_val None s1)) as [[|] s2| |]; [|exact I|exact I|contradiction HP]. cbn in HP.
      destruct (val s1); [|exact I]. destruct (val s2); [|exact I]. cbn. lia.
    + destruct (val s1) as [lhs|]; [|exact I].
      pose proof (IL d (SOne lhs) o (set_val None s1) Hd ltac:(cbn [pos set_val]; lia)) as H.
      destruct (list_loop f _ _ _ _) as [[|] s2| |]; cbn in *; auto; lia.
    + destruct (parse f _ (set_val None s1)) as [[|] s2| |]; [|exact I|exact I|contradiction HP]. cbn in HP.
      destruct (val s1); [|exact I]. destruct (val s2); [|exact I]. cbn.
      match goal with |- pos s <= pos (match ?x with _ => _ end) => destruct x as [[[? ?] ?]|] end; cbn; lia.
    + destruct (val s1); [cbn; lia|exact I].
    + destruct (parse f _ s1) as [[|] s2| |]; [|exact I|exact I|contradiction HP']. cbn in HP'.
      destruct (val s2); [cbn; lia|exact I].
  - intros d sp o s Hd L. rewrite list_loop_S.
    pose proof (IA (br (bp tbl (e_id (entry_of d)))) s ltac:(lia)) as HP.
    destruct (parse f _ _) as [[|] s1| |]; [|exact I|exact I|contradiction HP]. cbn in HP.
    destruct (val s1) as [v|]; [|exact I].
    destruct (parse_operator _ _) as [[[e' idx] n]|] eqn:Ep; [|cbn; lia].
    assert (Hl : forall e0, In e0 [entry_of d] -> exists d0, declared tbl d0 /\ e0 = entry_of d0).
    { intros e0 [<-|[]]. eauto. }
    destruct (found_len _ _ _ _ _ Hl Ep) as (H1 & H2 & _).
    pose proof (op_finish_pos (entry_of d) idx (pos s1) (pos s1 + n) (set_val None s1)) as Ho.
    destruct (op_finish _ _ _ _ _ _) as [[[|] o2] s2]; [|exact I]. cbn in Ho.
    pose proof (IL d (SMore sp o v) o2 s2 Hd ltac:(lia)) as H.
    destruct (list_loop f _ _ _ _) as [[|] s3| |]; cbn in *; auto; lia.
Qed.

(** Enough fuel for a whole input. *)
Lemma parse_terminates fuel min s : 4 * length input + 3 <= fuel -> exists ok s', parse fuel min s = Done ok s'.
Proof.
  intros L. pose proof (proj1 (enough_all fuel) min s ltac:(lia)) as H.
  pose proof (proj1 (valued_all fuel) min s) as V.
  destruct (parse fuel min s) as [ok s'| |]; [eauto|contradiction V|contradiction H].
Qed.
End Fuel.
