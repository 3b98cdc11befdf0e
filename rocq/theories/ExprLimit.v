(** The nesting limit changes nothing but by raising its error. *)
From Verif Require Import Prelude ExprModel ExprSpec ExprTable ExprProofs ExprFuel.
Open Scope nat_scope.

Section Limit.
Variable tbl : operation.
Variable max_nesting max' : nat.
Hypothesis Hmax : max_nesting <= max'.
Variable input : list N.
Variable atom : nat -> bool * nat.
Variable op_rest : nat -> nat -> nat -> bool * nat.

Notation parse m := (parse tbl m input atom op_rest).
Notation parse_lhs m := (parse_lhs tbl m input atom op_rest).
Notation post_loop m := (post_loop tbl m input atom op_rest).
Notation do_op m := (do_op tbl m input atom op_rest).
Notation list_loop m := (list_loop tbl m input atom op_rest).

Definition hit (l : list ev) : Prop := exists b m, In (ENesting b m) l.
Lemma hit_app l l' : hit l -> hit (l ++ l').
Proof. intros (b & m & H). exists b, m. apply in_or_app. auto. Qed.

Definition grows (s : st) (r : res) : Prop := match r with Done _ s' => hit (evs s) -> hit (evs s') | _ => True end.
Lemma op_finish_grows e idx b m s : hit (evs s) -> hit (evs (snd (op_finish op_rest e idx b m s))).
Proof. intros H. unfold op_finish. destruct (op_rest _ _ _) as [ok n]. cbn. now do 2 apply hit_app. Qed.
Lemma enter_op_grows e b m s : hit (evs s) -> hit (evs (snd (enter_op tbl max_nesting e b m s))).
Proof.
  intros H. unfold enter_op. destruct (max_nesting <=? nest s); cbn; [now apply hit_app|].
  destruct (bg _ =? 0); [exact H|]. destruct (grp s =? 0); [exact H|]. destruct (negb _); [now apply hit_app|exact H].
Qed.

Ltac use H := let T := fresh in pose proof H as T; unfold grows in T;
  match type of T with match ?r with _ => _ end => destruct r as [[|] ?| |] end; try exact I.
Lemma grows_all : forall f,
  (forall min s, grows s (parse max_nesting f min s)) /\ (forall min s, grows s (parse_lhs max_nesting f min s)) /\
  (forall min s, grows s (post_loop max_nesting f min s)) /\
  (forall e idx b s, grows s (do_op max_nesting f e idx b s)) /\
  (forall e sp o s, grows s (list_loop max_nesting f e sp o s)).
Proof.
  induction f as [|f (IA & IB & IC & ID & IL)]; [repeat split; intros; exact I|].
  split; [|split; [|split; [|split]]].
  - intros min s. rewrite parse_S. destruct (op_list false min tbl 1) as [|e0 l0]; [apply IB|].
    use (IB min (emit (EStart (pos s)) s)).
    + pose proof (IC min s0) as G. destruct (post_loop _ f min s0) as [ok s2| |]; try exact I.
      cbn in *. intros Hh. apply hit_app. apply G, H. now apply hit_app.
    + cbn in *. intros Hh. apply hit_app, H. now apply hit_app.
  - intros min s. rewrite parse_lhs_S. destruct (parse_operator _ _) as [[[e idx] n]|].
    + match goal with |- context [do_op _ f ?a ?b ?c ?d] => use (ID a b c d) end;
        cbn in *; intros Hh; apply hit_app, H; now apply hit_app.
    + unfold parse_atom. destruct (atom _) as [[|] n]; cbn; apply hit_app.
  - intros min s. rewrite post_loop_S. destruct (parse_operator _ _) as [[[e idx] n]|]; [|cbn; auto].
    match goal with |- context [do_op _ f ?a ?b ?c ?d] => use (ID a b c d) end.
    + pose proof (IC min s0) as G. destruct (post_loop _ f min s0) as [ok s2| |]; try exact I. cbn in *. auto.
    + cbn in *. auto.
  - intros e idx b s. rewrite do_op_S.
    pose proof (enter_op_grows e b (pos s) s) as He. destruct (enter_op _ _ _ _ _ _) as [[|] s0]; [|exact He]. cbn [snd] in He.
    pose proof (op_finish_grows e idx b (pos s0) s0) as Hf. destruct (op_finish _ _ _ _ _ _) as [[[|] o] s1]; [|cbn in *; auto].
    cbn [snd] in Hf. unfold ExprProofs.do_kind. cbv zeta.
    destruct (e_kind e).
    + use (IA (br (bp tbl (e_id e))) (set_val None s1)); [|cbn in *; auto].
      destruct (val s1), (val s2); try exact I. cbn in *. intros Hh. apply hit_app. auto.
    + use (IA (br (bp tbl (e_id e))) (set_val None s1)); [|cbn in *; auto].
      destruct (val s1), (val s2); try exact I. cbn in *. intros Hh. apply hit_app. auto.
    + destruct (val s1) as [lhs|]; [|exact I]. use (IL e (SOne lhs) o (set_val None s1)); cbn in *; intros Hh; try apply hit_app; auto.
    + use (IA (br (bp tbl (e_id e))) (set_val None s1)); [|cbn in *; auto].
      destruct (val s1), (val s2); try exact I. destruct (parse_operator _ _) as [[[? ?] ?]|]; cbn in *; intros Hh;
      repeat apply hit_app; auto.
    + destruct (val s1); [|exact I]. cbn in *. intros Hh. apply hit_app; auto.
    + use (IA (br (bp tbl (e_id e))) s1); [|cbn in *; auto].
      destruct (val s2); try exact I. cbn in *. intros Hh. apply hit_app. auto.
  - intros e sp o s. rewrite list_loop_S.
    use (IA (br (bp tbl (e_id e))) s); [|cbn in *; auto].
    destruct (val s0) as [v|]; [|exact I].
    destruct (parse_operator _ _) as [[[e' idx] n]|]; [|cbn in *; auto].
    match goal with |- context [op_finish op_rest ?a ?b ?c ?d ?x] => pose proof (op_finish_grows a b c d x) as Hf end.
    destruct (op_finish _ _ _ _ _ _) as [[[|] o2] s2]; [|cbn in *; auto]. cbn in Hf.
    match goal with |- context [list_loop _ f ?a ?b ?c ?d] => pose proof (IL a b c d) as G; destruct (list_loop max_nesting f a b c d) end;
      try exact I. cbn in *. auto.
Qed.

Definition same_or_hit (a b : res) : Prop :=
  match a with Done _ s' => a = b \/ hit (evs s') | _ => True end.
Ltac inner H := let T := fresh "T" in pose proof H as T; unfold same_or_hit in T;
  match type of T with match ?r with _ => _ end => destruct r as [[|] ?| |] end; try exact I; (destruct T as [<-|T]; [|]).

Lemma same_or_hit_all : forall f,
  (forall min s, same_or_hit (parse max_nesting f min s) (parse max' f min s)) /\
  (forall min s, same_or_hit (parse_lhs max_nesting f min s) (parse_lhs max' f min s)) /\
  (forall min s, same_or_hit (post_loop max_nesting f min s) (post_loop max' f min s)) /\
  (forall e idx b s, same_or_hit (do_op max_nesting f e idx b s) (do_op max' f e idx b s)) /\
  (forall e sp o s, same_or_hit (list_loop max_nesting f e sp o s) (list_loop max' f e sp o s)).
Proof.
  induction f as [|f (IA & IB & IC & ID & IL)]; [repeat split; intros; exact I|].
  assert (R : forall r, same_or_hit r r) by (intros [| |]; cbn; auto).
  split; [|split; [|split; [|split]]].
  - intros min s. rewrite !parse_S. destruct (op_list false min tbl 1) as [|e0 l0]; [apply IB|].
    pose proof (IB min (emit (EStart (pos s)) s)) as T.
    destruct (parse_lhs max_nesting f min _) as [[|] s1| |]; try exact I; (destruct T as [<-|T]; [|]).
    + inner (IC min s1); try apply R; right; cbn; now apply hit_app.
    + pose proof (proj1 (proj2 (proj2 (grows_all f))) min s1) as G. destruct (post_loop max_nesting f min s1); try exact I.
      right. cbn in *. apply hit_app. auto.
    + apply R.
    + right. cbn. now apply hit_app.
  - intros min s. rewrite !parse_lhs_S. destruct (parse_operator _ _) as [[[e idx] n]|]; [|apply R].
    match goal with |- context [do_op max_nesting f ?a ?b ?c ?d] => inner (ID a b c d) end;
      try apply R; right; cbn; now apply hit_app.
  - intros min s. rewrite !post_loop_S. destruct (parse_operator _ _) as [[[e idx] n]|]; [|apply R].
    match goal with |- context [do_op max_nesting f ?a ?b ?c ?d] => pose proof (ID a b c d) as T;
      destruct (do_op max_nesting f a b c d) as [[|] s1| |] end; try exact I; (destruct T as [<-|T]; [|]).
    + apply IC.
    + pose proof (proj1 (proj2 (proj2 (grows_all f))) min s1) as G. destruct (post_loop max_nesting f min s1); try exact I.
      right. cbn in *. auto.
    + apply R.
    + right. exact T.
  - intros e idx b s. rewrite !do_op_S.
    unfold enter_op. destruct (max_nesting <=? nest s) eqn:E1.
    { right. cbn. exists b, (pos s). apply in_or_app. right. left. reflexivity. }
    replace (max' <=? nest s) with false by (symmetry; apply Nat.leb_gt; apply Nat.leb_gt in E1; lia). cbv zeta.
    match goal with |- context [op_finish op_rest ?a ?b ?c ?d ?x] =>
      destruct (op_finish op_rest a b c d x) as [[[|] o] s1]; [|apply R] end.
    unfold ExprProofs.do_kind. cbv zeta.
    destruct (e_kind e).
    + inner (IA (br (bp tbl (e_id e))) (set_val None s1)); try apply R; [|right; exact T].
      destruct (val s1), (val s0); try exact I. right. cbn. now apply hit_app.
    + inner (IA (br (bp tbl (e_id e))) (set_val None s1)); try apply R; [|right; exact T].
      destruct (val s1), (val s0); try exact I. right. cbn. now apply hit_app.
    + destruct (val s1) as [lhs|]; [|exact I].
      inner (IL e (SOne lhs) o (set_val None s1)); try apply R; right; cbn; try apply hit_app; exact T.
    + inner (IA (br (bp tbl (e_id e))) (set_val None s1)); try apply R; [|right; exact T].
      destruct (val s1), (val s0); try exact I. right.
      destruct (parse_operator _ _) as [[[? ?] ?]|]; cbn; repeat apply hit_app; exact T.
    + apply R.
    + inner (IA (br (bp tbl (e_id e))) s1); try apply R; [|right; exact T].
      destruct (val s0); try exact I. right. cbn. now apply hit_app.
  - intros e sp o s. rewrite !list_loop_S.
    pose proof (IA (br (bp tbl (e_id e))) s) as T.
    destruct (parse max_nesting f _ s) as [[|] s1| |]; try exact I; (destruct T as [<-|T]; [|]).
    + destruct (val s1) as [v|]; [|exact I].
      destruct (parse_operator _ _) as [[[e' idx] n]|]; [|apply R].
      destruct (op_finish _ _ _ _ _ _) as [[[|] o2] s2]; [|apply R]. apply IL.
    + destruct (val s1) as [v|]; [|exact I].
      destruct (parse_operator _ _) as [[[e' idx] n]|]; [|right; exact T].
      match goal with |- context [op_finish op_rest ?a ?b ?c ?d ?x] => pose proof (op_finish_grows a b c d x T) as Hf;
        destruct (op_finish op_rest a b c d x) as [[[|] o2] s2] end; [|right; exact Hf]. cbn in Hf.
      match goal with |- context [list_loop max_nesting f ?a ?b ?c ?d] =>
        pose proof (proj2 (proj2 (proj2 (proj2 (grows_all f)))) a b c d) as G; destruct (list_loop max_nesting f a b c d) end;
      try exact I. right. auto.
    + apply R.
    + right. exact T.
Qed.
End Limit.
