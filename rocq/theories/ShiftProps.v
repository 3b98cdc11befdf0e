(** C80: parsing a part of an input. *)
From Verif Require Import Prelude RuleModel RuleSpec RuleProps HaltSpec ShiftSpec ShiftModel ShiftBase ShiftProofs RuleSample.
From Verif Require GtModel GtProps LitModel.
From Coq Require Import String List.
Close Scope string_scope.
Close Scope N_scope.
Notation length := List.length.

(** Parsing the part from [b] to [e] of an input does what parsing a copy of that part does: the
    same outcome, the same values, events and errors, with every position moved by [b]. *)
Theorem C80_part : forall mem b e prods n p, movable prods -> b <= e <= length mem ->
  part_action mem b e prods n p = move_res b (action (slice mem b e) prods n p).
Proof.
  intros mem b e prods n p HG Hb. pose proof (moved_action (firstn b mem) (slice mem b e) prods HG n p) as H.
  rewrite firstn_length_le in H by lia. unfold part_action. rewrite <- H. do 2 f_equal.
  unfold slice. rewrite <- (firstn_skipn b (firstn e mem)), firstn_firstn, Nat.min_l by lia.
  now rewrite firstn_skipn_comm, Nat.add_comm, Nat.sub_add by lia.
Qed.
Print Assumptions C80_part.

(** So what is around it does not matter, nor where it is. *)
Theorem C80_around : forall mem1 b1 e1 mem2 b2 e2 prods, movable prods ->
  b1 <= e1 <= length mem1 -> b2 <= e2 <= length mem2 -> slice mem1 b1 e1 = slice mem2 b2 e2 ->
  forall n p, exists r, part_action mem1 b1 e1 prods n p = move_res b1 r /\
                        part_action mem2 b2 e2 prods n p = move_res b2 r.
Proof.
  intros mem1 b1 e1 mem2 b2 e2 prods HG H1 H2 He n p. exists (action (slice mem1 b1 e1) prods n p). split.
  - now apply C80_part.
  - rewrite He. now apply C80_part.
Qed.
Print Assumptions C80_around.

(** Every position is one of the part, and the tokens are its text from the begin on. *)
Theorem C80_inside : forall mem b e prods n p o s m, movable prods -> b <= e <= length mem ->
  part_action mem b e prods n p = Res o s m ->
  b <= pos s <= e /\
  (forall k x y, In (EToken k x y) (trace s) -> b <= x <= y /\ y <= e) /\
  (forall t x y, In (EError t x y) (trace s) -> b <= x <= y /\ y <= e) /\
  concat (map (fun t => slice mem (fst t) (snd t)) (tokens (rev (trace s)))) = slice mem b (pos s).
Proof.
  intros mem b e prods n p o s m HG Hb HA. rewrite (C80_part _ _ _ _ _ _ HG Hb) in HA.
  destruct (action (slice mem b e) prods n p) as [o0 s0 m0| |] eqn:H0; try discriminate.
  injection HA as _ <- _. unfold move_st; cbn [pos trace].
  assert (Hlen : length (slice mem b e) = e - b) by (unfold slice; rewrite firstn_length, skipn_length; lia).
  pose proof (C30_positions_in_input _ _ _ _ _ _ _ H0) as (H1 & H2 & H3 & _). rewrite Hlen in *.
  pose proof (C31_tokens_tile _ _ _ _ _ _ _ H0) as [_ H4].
  split; [lia|split; [|split]].
  - intros k x y Hi. apply in_map_iff in Hi. destruct Hi as ([] & [= -> <- <-] & Hi). apply H2 in Hi. lia.
  - intros t x y Hi. apply in_map_iff in Hi. destruct Hi as ([] & [= -> <- <-] & Hi). apply H3 in Hi. lia.
  - rewrite <- map_rev.
    assert (Ht : forall l, tokens (map (move_event b) l) = map (fun t => (b + fst t, b + snd t)) (tokens l)).
    { induction l as [|[] l IH]; cbn [tokens map move_event]; auto. now rewrite IH. }
    rewrite Ht, map_map. cbn [fst snd].
    assert (Hf : firstn (pos s0) (slice mem b e) = slice mem b (b + pos s0)).
    { unfold slice. rewrite firstn_firstn. f_equal. lia. }
    rewrite <- Hf, <- H4. f_equal. apply map_ext_in. intros [x y] Hi.
    assert (Hy : y <= e - b).
    { assert (Hin : exists k, In (EToken k x y) (trace s0)).
      { setoid_rewrite in_rev. revert Hi. generalize (rev (trace s0)).
        induction l as [|[] l IH]; cbn [tokens In]; intros Hi; try (destruct (IH Hi) as [k0 Hk]; exists k0; now right).
        - destruct Hi.
        - destruct Hi as [[= <- <-]|Hi]; [eexists; now left|destruct (IH Hi) as [k0 Hk]; exists k0; now right]. }
      destruct Hin as [k Hk]. apply H2 in Hk. lia. }
    cbn [fst snd]. unfold slice. rewrite skipn_firstn_comm, firstn_firstn, skipn_skipn. replace (Nat.min (y - x) (e - b - x)) with (b + y - (b + x)) by lia.
    now rewrite (Nat.add_comm b x).
Qed.
Print Assumptions C80_inside.

(** The token rules of the library meet what is asked of the tokens of the grammar. *)
Theorem C80_tokens : forall fold k E t, movable_token (GtModel.engine_token fold k E t).
Proof.
  intros fold k E t pre inp p.
  assert (Hi : forall n, GtModel.inside (length pre + p) (pre ++ inp) n = length pre + GtModel.inside p inp n)
    by (intros n; unfold GtModel.inside; rewrite app_length; lia).
  split; cbn [GtModel.engine_token tk_try tk_err]; unfold GtModel.engine_try, GtModel.engine_err;
    rewrite skipn_pre.
  - destruct (GtModel.tr_try fold E t (skipn p inp)) as [[ok n]|]; cbn [fst snd]; now rewrite ?Hi.
  - destruct (GtModel.tr_err fold E t (skipn p inp)) as [[tag x] y]; cbn [fst snd]; now rewrite !Hi.
Qed.
Print Assumptions C80_tokens.

(** The grammar of C78: numbers and nulls with whitespace and comments. *)
Example C80_grammar : movable GtProps.a_list.
Proof.
  assert (Ht : forall t, movable_rule (GtProps.the_token t)) by (intros; split; [apply C80_tokens|exact I]).
  assert (Hs : forall r rs, movable_rule r -> Forall movable_rule rs -> movable_rule (RBr r rs)) by (intros; now apply ok_br).
  assert (Hk : forall t, movable_rule (RCap (GtProps.the_token t))) by (intros; split; [exact I|apply Ht]).
  intros [|p]; split.
  - split; [exact I|]. split; [|split; [split; exact I|exact I]]. split; [exact I|]. split; [split; exact I|apply Ht].
  - intros w [= <-]. apply ok_chc. apply Forall_cons; [apply Ht|]. apply Forall_cons; [|constructor].
    apply Hs; [apply Ht|]. apply Forall_cons; [apply Ht|constructor].
  - apply ok_chc. apply Forall_cons; [apply Hk|]. apply Forall_cons; [apply Hk|constructor].
  - discriminate.
Qed.
(** The part "7,null" of "x = [7,null];": the rest would be an error. *)
Example C80_example :
  (exists s, part_action (str "x = [7,null];") 5 11 GtProps.a_list 60 0 =
    Res (OTrue [VSink [[VProd 1 [VLex 5 6]]; [VProd 1 [VLex 7 11]]]]) s 0 /\ pos s = 11) /\
  (exists s, part_action (str "x = [7,null];") 5 12 GtProps.a_list 60 0 =
    Res (OTrue [VSink [[VProd 1 [VLex 5 6]]; [VProd 1 [VLex 7 11]]]]) s 0 /\ In (EError TEof 11 11) (trace s)).
Proof. split; eexists; (split; [vm_compute; reflexivity|vm_compute; tauto]). Qed.
