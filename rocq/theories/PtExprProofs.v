(** The builder calls of an expression. *)
From Verif Require Import Prelude RuleModel PtModel PtSpec PtExprModel PtExprSpec ExprModel ExprSpec ExprProofs ExprProps.
Close Scope N_scope.

Lemma token_add k b e : ignore_if_empty k = false -> b <= e -> calls_add [CToken k b e] [TTok k b e].
Proof.
  intros Hk Hb f st. cbn [spec_calls spec_call careful_calls careful]. unfold spec_token. rewrite Hk. cbn [andb].
  destruct k; try discriminate; (destruct (b <=? e) eqn:E; [split; reflexivity|lia]).
Qed.

(** ** Events of an expression are nested *)
Section Events.
Variable tbl : operation.
Variable max_nesting : nat.
Variable input : list N.
Variable atom : nat -> bool * nat.
Variable op_rest : nat -> nat -> nat -> bool * nat.
Notation parse := (parse tbl max_nesting input atom op_rest).
Notation parse_lhs := (parse_lhs tbl max_nesting input atom op_rest).
Notation post_loop := (post_loop tbl max_nesting input atom op_rest).
Notation do_op := (do_op tbl max_nesting input atom op_rest).
Notation list_loop := (list_loop tbl max_nesting input atom op_rest).

Definition is_atom (b e : nat) : bool := let (ok, n) := atom b in ok && (e =? b + n).

(** The number of open operation chains after the events, from [n] on and never less than [base];
    ranges go forward and operations are inside of chains. *)
Fixpoint stays (base n : nat) (l : list ev) : option nat :=
  match l with
  | [] => Some n
  | EStart _ :: l => stays base (S n) l
  | EFinish _ :: l => if base <? n then stays base (pred n) l else None
  | EOp _ _ :: l => if 0 <? n then stays base n l else None
  | EToken _ _ b e :: l | ERest b e :: l => if b <=? e then stays base n l else None
  | EAtom b e :: l => if is_atom b e then stays base n l else None
  | _ :: l => stays base n l
  end.

Lemma stays_app : forall a base n b, stays base n (a ++ b) =
  match stays base n a with Some m => stays base m b | None => None end.
Proof.
  induction a as [|e a IH]; intros base n b; [reflexivity|].
  destruct e; cbn [app stays]; rewrite ?IH; try reflexivity;
    match goal with |- context [if ?c then _ else _] => destruct c; reflexivity end.
Qed.
Lemma stays_base : forall l base base' n m, base' <= base -> stays base n l = Some m -> stays base' n l = Some m.
Proof.
  induction l as [|e l IH]; intros base base' n m Hb H; [exact H|].
  destruct e; cbn [stays] in *; eauto;
    try (match type of H with context [if ?c then _ else _] => destruct c eqn:Ec; [|discriminate] end; eauto).
  destruct (base' <? n) eqn:Ec'; [eauto|]. lia.
Qed.

Definition nests (n : nat) (s s' : st) : Prop := exists d, evs s' = evs s ++ d /\ stays n n d = Some n.
Lemma nests_refl n s s' : evs s' = evs s -> nests n s s'.
Proof. intros H. exists []. rewrite app_nil_r. auto. Qed.
Lemma nests_trans n s1 s2 s3 : nests n s1 s2 -> nests n s2 s3 -> nests n s1 s3.
Proof.
  intros (d1 & E1 & H1) (d2 & E2 & H2). exists (d1 ++ d2). rewrite E2, E1, app_assoc. split; [reflexivity|].
  now rewrite stays_app, H1.
Qed.
Lemma nests_step n s s' e : evs s' = evs s ++ [e] -> stays n n [e] = Some n -> nests n s s'.
Proof. intros H1 H2. exists [e]. auto. Qed.
Lemma nests_same n s1 s2 s1' s2' : nests n s1 s2 -> evs s1' = evs s1 -> evs s2' = evs s2 -> nests n s1' s2'.
Proof. intros (d & E & H) E1 E2. exists d. rewrite E2, E1. auto. Qed.
(** A chain around events one level deeper. *)
Lemma nests_chain n s s1 p q : nests (S n) (emit (EStart p) s) s1 ->
  exists d, evs (emit (EFinish q) s1) = evs s ++ EStart p :: d ++ [EFinish q] /\ stays (S n) (S n) d = Some (S n).
Proof.
  intros (d & E & H). exists d. unfold emit in *. cbn in *. rewrite E. rewrite <- !app_assoc. auto.
Qed.
Lemma chain_stays n p d q : stays (S n) (S n) d = Some (S n) -> stays n n (EStart p :: d ++ [EFinish q]) = Some n.
Proof.
  intros H. cbn [stays]. rewrite stays_app, (stays_base d (S n) n _ _ ltac:(lia) H).
  cbn [stays pred]. destruct (n <? S n) eqn:En; [reflexivity|lia].
Qed.
Lemma nests_chain' n s s1 p q : nests (S n) (emit (EStart p) s) s1 -> nests n s (emit (EFinish q) s1).
Proof.
  intros H. destruct (nests_chain _ _ _ _ q H) as (d & E & Hd). eexists. split; [exact E|]. now apply chain_stays.
Qed.

Lemma enter_nests n e b m s r s' : enter_op tbl max_nesting e b m s = (r, s') -> nests n s s'.
Proof.
  unfold enter_op. destruct (max_nesting <=? nest s).
  - intros [= <- <-]. eapply nests_step; reflexivity.
  - intros [= <- <-]. repeat match goal with |- context [if ?c then _ else _] => destruct c end;
      try (apply nests_refl; reflexivity). eapply nests_step; reflexivity.
Qed.
Lemma op_nests n e idx b m s r o s' : b <= m -> op_finish op_rest e idx b m s = (r, o, s') -> nests n s s'.
Proof.
  intros Hb. unfold op_finish. destruct (op_rest (e_id e) idx m) as [ok k]. intros [= <- <- <-].
  eexists. split; [cbn; rewrite <- app_assoc; reflexivity|]. cbn [app stays].
  destruct (b <=? m) eqn:Eb; [|lia]. destruct ok; cbn [stays]; [|reflexivity].
  destruct (m <=? m + k) eqn:Em; [reflexivity|lia].
Qed.

Lemma events_nest : forall f,
  (forall min s r s' n, parse f min s = Done r s' -> nests n s s') /\
  (forall min s r s' n, parse_lhs f min s = Done r s' -> nests n s s') /\
  (forall min s r s' n, post_loop f min s = Done r s' -> nests (S n) s s') /\
  (forall e idx b s r s' n, b <= pos s -> do_op f e idx b s = Done r s' -> nests (S n) s s') /\
  (forall e sp o s r s' n, list_loop f e sp o s = Done r s' -> nests (S n) s s').
Proof.
  induction f as [|f (IHp & IHl & IHo & IHd & IHL)]; [repeat split; discriminate|].
  split; [|split; [|split; [|split]]].
  - intros min s r s' n. rewrite parse_S. destruct (op_list false min tbl 1) as [|e l]; [apply IHl|].
    destruct (parse_lhs f min (emit (EStart (pos s)) s)) as [[|] s1| |] eqn:E1; try discriminate.
    + destruct (post_loop f min s1) as [r2 s2| |] eqn:E2; try discriminate. intros [= <- <-].
      eapply nests_chain'. eapply nests_trans; eauto.
    + intros [= <- <-]. eapply nests_chain'. eauto.
  - intros min s r s' n. rewrite parse_lhs_S.
    destruct (parse_operator _ _) as [[[e idx] k]|].
    + destruct (do_op f e idx (pos s) _) as [r1 s1| |] eqn:E1; try discriminate. intros [= <- <-].
      eapply nests_chain'. eapply nests_same; [eapply IHd; [|exact E1]; cbn; lia|reflexivity|reflexivity].
    + unfold parse_atom. destruct (atom (pos s)) as [[|] k] eqn:Ea; intros [= <- <-].
      * eapply nests_step; [reflexivity|]. cbn [stays]. unfold is_atom. rewrite Ea, Nat.eqb_refl. reflexivity.
      * eapply nests_step; reflexivity.
  - intros min s r s' n. rewrite post_loop_S.
    destruct (parse_operator _ _) as [[[e idx] k]|].
    + destruct (do_op f e idx (pos s) _) as [[|] s1| |] eqn:E1; try discriminate.
      * intros H. eapply nests_trans; [|eapply IHo; exact H].
        eapply nests_same; [eapply IHd; [|exact E1]; cbn; lia|reflexivity|reflexivity].
      * intros [= <- <-]. eapply nests_same; [eapply IHd; [|exact E1]; cbn; lia|reflexivity|reflexivity].
    + intros [= <- <-]. apply nests_refl. reflexivity.
  - intros e idx b s r s' n Hb. rewrite do_op_S.
    destruct (enter_op tbl max_nesting e b (pos s) s) as [[|] s1] eqn:E1.
    2:{ intros [= <- <-]. eapply enter_nests; eassumption. }
    pose proof (enter_nests (S n) _ _ _ _ _ _ E1) as N1.
    assert (P1 : pos s1 = pos s).
    { revert E1. unfold enter_op. destruct (max_nesting <=? nest s); [discriminate|]. intros [= <-].
      repeat match goal with |- context [if ?c then _ else _] => destruct c end; reflexivity. }
    destruct (op_finish op_rest e idx b (pos s1) s1) as [[[|] o] s2] eqn:E2.
    2:{ intros [= <- <-]. eapply nests_trans; [exact N1|]. eapply op_nests; [|eassumption]. lia. }
    assert (N2 : nests (S n) s s2). { eapply nests_trans; [exact N1|]. eapply op_nests; [|eassumption]. lia. }
    clear E1 N1 P1 E2 s1.
    assert (Fin : forall p x, nests (S n) s x -> nests (S n) s (emit (EOp (e_id e) p) x)).
    { intros p x Hx. eapply nests_trans; [exact Hx|]. eapply nests_step; reflexivity. }
    assert (Two : forall s3 s4 s5, nests (S n) s3 s4 -> evs s3 = evs s2 -> evs s5 = evs s4 -> nests (S n) s s5).
    { intros s3 s4 s5 H3 E3 E5. eapply nests_trans; [exact N2|]. eapply nests_same; [exact H3|auto|exact E5]. }
    unfold do_kind. destruct (e_kind e).
    1,2,4: destruct (parse f _ (set_val None s2)) as [[|] s3| |] eqn:E3; try discriminate;
      [destruct (val s2), (val s3); try discriminate; intros [= <- <-]; apply Fin|
       intros [= <- <-]; eapply Two; [eapply IHp; exact E3|reflexivity|reflexivity]].
    1,2: eapply Two; [eapply IHp; exact E3|reflexivity|reflexivity].
    + assert (N3 : nests (S n) s s3) by (eapply Two; [eapply IHp; exact E3|reflexivity|reflexivity]).
      destruct (parse_operator _ _) as [[[? ?] ?]|]; (eapply nests_trans; [exact N3|]);
        [eapply nests_step; reflexivity|apply nests_refl; reflexivity].
    + destruct (val s2) as [lhs|]; [|discriminate].
      destruct (list_loop f e (SOne lhs) o (set_val None s2)) as [[|] s3| |] eqn:E3; try discriminate; intros [= <- <-];
        [apply Fin|]; (eapply Two; [eapply IHL; exact E3|reflexivity|reflexivity]).
    + destruct (val s2); [|discriminate]. intros [= <- <-]. apply Fin.
      eapply Two; [apply nests_refl| |]; reflexivity.
    + destruct (parse f _ s2) as [[|] s3| |] eqn:E3; try discriminate.
      2:{ intros [= <- <-]. eapply nests_trans; [exact N2|]. eauto. }
      destruct (val s3); try discriminate. intros [= <- <-]. apply Fin.
      eapply Two; [eapply IHp; exact E3|reflexivity|reflexivity].
  - intros e sp o s r s' n. rewrite list_loop_S.
    destruct (parse f _ s) as [[|] s1| |] eqn:E1; try discriminate.
    2:{ intros [= <- <-]. eapply nests_same; [eapply IHp; exact E1|reflexivity|reflexivity]. }
    pose proof (IHp _ _ _ _ (S n) E1) as N1. destruct (val s1); [|discriminate].
    destruct (parse_operator _ _) as [[[e' idx] k]|].
    + destruct (op_finish _ _ _ _ _ _) as [[[|] o'] s2] eqn:E2.
      * intros H. eapply nests_trans; [exact N1|]. eapply nests_trans; [|eapply IHL; exact H].
        eapply nests_same; [eapply op_nests; [|exact E2]; lia|reflexivity|reflexivity].
      * intros [= <- <-]. eapply nests_trans; [exact N1|].
        eapply nests_same; [eapply op_nests; [|exact E2]; lia|reflexivity|reflexivity].
    + intros [= <- <-]. eapply nests_trans; [exact N1|]. apply nests_refl. reflexivity.
Qed.

(** The events of an expression without errors are an atom's, or a chain. *)
Definition shape (d : list ev) : Prop :=
  (exists b e, d = [EAtom b e] /\ is_atom b e = true) \/
  (exists p d' q, d = EStart p :: d' ++ [EFinish q] /\ stays 1 1 d' = Some 1).
Lemma lhs_shape f min s r s' : parse_lhs f min s = Done r s' ->
  exists d, evs s' = evs s ++ d /\ (shape d \/ exists b e, d = [EAtomError b e]).
Proof.
  destruct f as [|f]; [discriminate|]. rewrite parse_lhs_S.
  destruct (parse_operator _ _) as [[[e idx] k]|].
  - destruct (do_op f e idx (pos s) _) as [r1 s1| |] eqn:E1; try discriminate. intros [= <- <-].
    assert (N : nests 1 (emit (EStart (pos s)) s) s1).
    { eapply nests_same; [eapply (proj1 (proj2 (proj2 (proj2 (events_nest f))))); [|exact E1]; cbn; lia|reflexivity|reflexivity]. }
    destruct (nests_chain _ _ _ _ (pos s1) N) as (d & E & Hd). eexists. split; [exact E|]. left. right. eauto.
  - unfold parse_atom. destruct (atom (pos s)) as [[|] k] eqn:Ea; intros [= <- <-].
    + eexists. split; [reflexivity|]. left. left. do 2 eexists. split; [reflexivity|]. unfold is_atom.
      rewrite Ea, Nat.eqb_refl. reflexivity.
    + eexists. split; [reflexivity|]. right. eauto.
Qed.
Lemma parse_shape f min s r s' : parse f min s = Done r s' ->
  exists d, evs s' = evs s ++ d /\ (shape d \/ exists b e, d = [EAtomError b e]).
Proof.
  destruct f as [|f]; [discriminate|]. rewrite parse_S.
  destruct (op_list false min tbl 1) as [|e l]; [apply lhs_shape|].
  destruct (events_nest f) as (_ & Hl & Ho & _ & _).
  destruct (parse_lhs f min (emit (EStart (pos s)) s)) as [[|] s1| |] eqn:E1; try discriminate.
  - destruct (post_loop f min s1) as [r2 s2| |] eqn:E2; try discriminate. intros [= <- <-].
    assert (N : nests 1 (emit (EStart (pos s)) s) s2) by (eapply nests_trans; eauto).
    destruct (nests_chain _ _ _ _ (pos s2) N) as (d & E & Hd). eexists. split; [exact E|]. left. right. eauto.
  - intros [= <- <-].
    assert (N : nests 1 (emit (EStart (pos s)) s) s1) by eauto.
    destruct (nests_chain _ _ _ _ (pos s1) N) as (d & E & Hd). eexists. split; [exact E|]. left. right. eauto.
Qed.

Variable op_kind : nat -> nat -> tkind.
Variable op_info : nat -> info.
Variable atom_calls : nat -> nat -> list call.
Variable rest_calls : nat -> nat -> list call.
Variable atom_trees : nat -> nat -> list ptree.
Variable rest_trees : nat -> nat -> list ptree.
Hypothesis kinds : forall id idx, ignore_if_empty (op_kind id idx) = false.
Hypothesis infos : forall id, i_transparent (op_info id) = false.
Hypothesis atoms : forall b n, atom b = (true, n) ->
  calls_add (atom_calls b (b + n)) (atom_trees b (b + n)) /\ atom_trees b (b + n) <> [].
Hypothesis rests : forall b e, b <= e -> calls_add (rest_calls b e) (rest_trees b e).
Notation calls_on := (calls_on op_kind op_info atom_calls rest_calls).
Notation expr_calls := (expr_calls op_kind op_info atom_calls rest_calls).
Notation expr_trees := (expr_trees op_kind op_info atom_trees rest_trees).
Notation spine_trees := (spine_trees op_kind op_info atom_trees rest_trees).
Notation op_trees := (op_trees op_kind rest_trees).

(** ** From the nodes described by the events to nodes of the parse tree *)
Fixpoint tr1 (x : node) : list ptree :=
  match x with
  | NToken id idx b e => [TTok (op_kind id idx) b e]
  | NRest b e => rest_trees b e
  | NAtom b e => atom_trees b e
  | NOp id l => [TProd (i_id (op_info id)) (i_token (op_info id)) (flat_map tr1 l)]
  end.
Definition tr (l : list node) : list ptree := flat_map tr1 l.
Lemma tr_app a b : tr (a ++ b) = tr a ++ tr b.
Proof. apply flat_map_app. Qed.

Scheme tree_mut := Induction for tree Sort Prop
  with spine_mut := Induction for spine Sort Prop.
Lemma tr_nodes : forall t, tr (ExprSpec.nodes t) = expr_trees t.
Proof.
  apply (tree_mut (fun t => tr (ExprSpec.nodes t) = expr_trees t) (fun sp => tr (ExprSpec.nodes_sp sp) = spine_trees sp)).
  - intros b e. cbn. apply app_nil_r.
  - intros o t IH. cbn [ExprSpec.nodes PtExprSpec.expr_trees]. unfold op_node, tr. cbn [flat_map tr1 app]. fold tr.
    rewrite flat_map_app. fold tr. unfold tr in IH. rewrite IH. unfold PtExprSpec.op_trees. cbn. now rewrite app_nil_r.
  - intros t IH o. cbn [ExprSpec.nodes PtExprSpec.expr_trees]. unfold op_node, tr. cbn [flat_map tr1 app].
    rewrite flat_map_app. unfold tr in IH. rewrite IH. unfold PtExprSpec.op_trees. cbn. now rewrite app_nil_r.
  - intros l IHl o r IHr. cbn [ExprSpec.nodes PtExprSpec.expr_trees]. unfold op_node, tr. cbn [flat_map tr1 app].
    rewrite !flat_map_app. unfold tr in *. rewrite IHl, IHr. unfold PtExprSpec.op_trees. cbn. now rewrite app_nil_r.
  - intros sp IH d. destruct sp as [t|sp o t].
    + exact IH.
    + cbn [ExprSpec.nodes PtExprSpec.expr_trees]. unfold op_node, tr. cbn [flat_map tr1 app].
      unfold tr in IH. now rewrite IH.
  - intros t IH. exact IH.
  - intros sp IHs o t IHt. cbn [ExprSpec.nodes_sp PtExprSpec.spine_trees]. rewrite !tr_app, IHs, IHt.
    unfold PtExprSpec.op_trees, tr. cbn. now rewrite app_nil_r.
Qed.

(** ** The builder follows the events *)
Lemma spec_app a : forall b x, spec_calls (a ++ b) x = match spec_calls a x with Some y => spec_calls b y | None => None end.
Proof.
  induction a as [|c a IH]; intros b x; [reflexivity|]. cbn [app spec_calls].
  destruct (spec_call c x); [apply IH|reflexivity].
Qed.
Lemma careful_app a : forall b x y, spec_calls a x = Some y ->
  careful_calls (a ++ b) x = careful_calls a x && careful_calls b y.
Proof.
  induction a as [|c a IH]; intros b x y H; cbn [app careful_calls spec_calls] in *.
  - now injection H as ->.
  - destruct (spec_call c x) as [z|]; [|discriminate]. rewrite (IH b z y H). now rewrite andb_assoc.
Qed.

Section Base.
Variable f0 : frame.
Variable st0 : list (option frame).
Fixpoint sim (stack : list (list node)) : state :=
  match stack with
  | [] => (f0, st0)
  | [c] => (add (tr c) f0, st0)
  | c :: r => let (f, st) := sim r in (Frame None (tr c), Some f :: st)
  end.
Lemma sim_cons c d r : sim (c :: d :: r) = let (f, st) := sim (d :: r) in (Frame None (tr c), Some f :: st).
Proof. reflexivity. Qed.
Lemma sim_top c r : exists p ts st, sim (c :: r) = (Frame p (ts ++ tr c), st) /\
  forall c', sim (c' :: r) = (Frame p (ts ++ tr c'), st).
Proof.
  destruct r as [|d r].
  - exists (f_prod f0), (f_kids f0), st0. split; [reflexivity|]. intros c'. reflexivity.
  - destruct (sim (d :: r)) as [f st] eqn:E. exists None, [], (Some f :: st).
    rewrite sim_cons, E. split; [reflexivity|]. intros c'. now rewrite sim_cons, E.
Qed.
Lemma add_frame p ts x y : add y (Frame p (ts ++ x)) = Frame p (ts ++ x ++ y).
Proof. unfold add. cbn. now rewrite app_assoc. Qed.

Lemma sim_add cs x c r : calls_add cs (tr1 x) ->
  spec_calls cs (sim (c :: r)) = Some (sim ((c ++ [x]) :: r)) /\ careful_calls cs (sim (c :: r)) = true.
Proof.
  intros H. destruct (sim_top c r) as (p & ts & st & E & E'). rewrite E, E'.
  destruct (H (Frame p (ts ++ tr c)) st) as [H1 H2]. split; [|exact H2]. rewrite H1, add_frame, tr_app.
  unfold tr at 3. cbn [flat_map]. now rewrite app_nil_r.
Qed.

Lemma sim_calls : forall l n m stack, no_errors l -> stays 1 n l = Some m -> length stack = S n -> 1 <= n ->
  spec_calls (expr_calls l) (sim stack) = Some (sim (replay l stack)) /\
  careful_calls (expr_calls l) (sim stack) = true /\ length (replay l stack) = S m.
Proof.
  induction l as [|x l IH]; intros n m stack Hn Hs Hl H1.
  { cbn in *. injection Hs as <-. auto. }
  assert (Hn' : no_errors l) by (intros y Hy; apply Hn; now right).
  assert (Hx : is_error x = false) by (apply Hn; now left).
  assert (Step : forall n', stays 1 n' l = Some m -> length (step x stack) = S n' -> 1 <= n' ->
    spec_calls (calls_on x) (sim stack) = Some (sim (step x stack)) ->
    careful_calls (calls_on x) (sim stack) = true ->
    spec_calls (expr_calls (x :: l)) (sim stack) = Some (sim (replay (x :: l) stack)) /\
    careful_calls (expr_calls (x :: l)) (sim stack) = true /\ length (replay (x :: l) stack) = S m).
  { intros n' E1 E2 E3 E4 E5. destruct (IH n' m (step x stack) Hn' E1 E2 E3) as (A1 & A2 & A3).
    change (expr_calls (x :: l)) with (calls_on x ++ expr_calls l).
    change (replay (x :: l) stack) with (replay l (step x stack)).
    rewrite spec_app, E4, (careful_app _ _ _ _ E4), E5. auto. }
  destruct stack as [|c stack]; [discriminate|]. destruct stack as [|c2 stack]; [cbn in Hl; lia|].
  destruct x; try discriminate Hx; cbn [stays] in Hs.
  - apply (Step (S n)); cbn [step length] in *; auto; try lia;
      rewrite ?(sim_cons []); destruct (sim (c :: c2 :: stack)) as [f st]; reflexivity.
  - destruct (1 <? n) eqn:En; [|discriminate]. destruct stack as [|c3 stack]; [cbn in Hl; lia|].
    apply (Step (pred n)); cbn [step length] in *; auto; try lia.
    + rewrite !sim_cons. destruct (sim (c3 :: stack)) as [f st]. cbn. rewrite tr_app. reflexivity.
    + rewrite !sim_cons. destruct (sim (c3 :: stack)) as [f st]. reflexivity.
  - destruct (0 <? n); [|discriminate]. apply (Step n); cbn [step length] in *; auto; try lia.
    + rewrite !sim_cons. destruct (sim (c2 :: stack)) as [f st]. cbn. rewrite infos. reflexivity.
    + rewrite !sim_cons. destruct (sim (c2 :: stack)) as [f st]. cbn. rewrite infos. reflexivity.
  - destruct (b <=? e) eqn:Eb; [|discriminate].
    destruct (sim_add [CToken (op_kind id idx) b e] (NToken id idx b e) c (c2 :: stack)) as [A1 A2].
    { apply token_add; [apply kinds|lia]. }
    apply (Step n); auto.
  - destruct (b <=? e) eqn:Eb; [|discriminate].
    destruct (sim_add (rest_calls b e) (NRest b e) c (c2 :: stack)) as [A1 A2]; [apply rests; lia|].
    apply (Step n); auto.
  - destruct (is_atom b e) eqn:Eb; [|discriminate].
    destruct (sim_add (atom_calls b e) (NAtom b e) c (c2 :: stack)) as [A1 A2].
    { unfold is_atom in Eb. destruct (atom b) as [[|] k] eqn:Ea; [|discriminate]. apply Nat.eqb_eq in Eb as ->.
      apply atoms. exact Ea. }
    apply (Step n); auto.
Qed.
End Base.

Lemma trees_some : forall t b e, reads tbl input atom op_rest t b e -> expr_trees t <> [].
Proof.
  apply (tree_mut (fun t => forall b e, reads tbl input atom op_rest t b e -> expr_trees t <> [])
    (fun sp => forall b e, reads_sp tbl input atom op_rest sp b e -> spine_trees sp <> [])); cbn [PtExprSpec.expr_trees PtExprSpec.spine_trees]; try (intros; discriminate).
  - intros b e b' e' (-> & -> & n & E & ->). now apply (atoms b n).
  - intros sp IH d b e (_ & H). destruct sp; [eapply IH; exact H|discriminate].
  - intros t IH b e H. eapply IH; exact H.
  - intros sp IHs o t IHt b e (H & _) E. apply app_eq_nil in E as (E & _). eapply IHs; eassumption.
Qed.

Lemma expr_adds fuel start ok s t : table_ok tbl ->
  expr tbl max_nesting input atom op_rest fuel tbl start = Some (ok, s) -> no_errors (evs s) -> val s = Some t ->
  expr_trees t <> [] -> calls_add (expr_calls (evs s)) (expr_trees t).
Proof.
  intros Ht He Hn Hv Hne f st.
  pose proof (C45_events _ _ _ _ _ _ _ _ _ _ Ht He Hn Hv) as Hr.
  unfold expr in He. destruct (parse fuel (min_bp tbl tbl) _) as [r s'| |] eqn:Ep; try discriminate.
  injection He as _ <-. destruct (parse_shape _ _ _ _ _ Ep) as (d & E & Hd). cbn in E. rewrite E in *.
  destruct Hd as [[(b & e & -> & Ha)|(p & d' & q & -> & Hs)]|(b & e & ->)].
  - cbn in Hr. injection Hr as Hr. rewrite <- (tr_nodes t), <- Hr. unfold is_atom in Ha.
    destruct (atom b) as [[|] k] eqn:Ea; [|discriminate]. apply Nat.eqb_eq in Ha as ->.
    unfold PtExprModel.expr_calls, tr. cbn. rewrite !app_nil_r. now apply atoms.
  - assert (Hn' : no_errors d').
    { intros y Hy. apply Hn. right. apply in_or_app. now left. }
    destruct (sim_calls f st d' 1 1 [[]; []] Hn' Hs eq_refl ltac:(lia)) as (A1 & A2 & A3).
    unfold replay in Hr. cbn [fold_left step] in Hr. rewrite fold_left_app in Hr. fold (replay d' [[]; []]) in Hr.
    destruct (replay d' [[]; []]) as [|c [|c2 [|]]] eqn:Ed; try discriminate A3. cbn in Hr. injection Hr as Hr.
    assert (E0 : sim f st [[]; []] = (Frame None [], Some f :: st)).
    { rewrite sim_cons. cbn [sim]. unfold add. cbn. rewrite app_nil_r. now destruct f. }
    rewrite E0 in A1, A2. rewrite sim_cons in A1. cbn [sim] in A1.
    assert (E1 : expr_calls (EStart p :: d' ++ [EFinish q]) = COpen :: expr_calls d' ++ [CClose]).
    { unfold PtExprModel.expr_calls. cbn [flat_map PtExprModel.calls_on app]. f_equal. apply flat_map_app. }
    rewrite E1. cbn [spec_calls spec_call careful_calls careful]. rewrite spec_app, A1.
    rewrite (careful_app _ _ _ _ A1), A2. cbn [spec_calls spec_call careful_calls careful f_prod f_kids].
    rewrite <- (tr_nodes t) in *. rewrite <- Hr in *. rewrite tr_app in *. split.
    + unfold add. cbn [f_prod f_kids]. now rewrite app_assoc.
    + cbn [add f_prod f_kids]. destruct (f_prod f); [|reflexivity].
      destruct (tr c) as [|y l]; [|reflexivity]. rewrite app_nil_r in Hne.
      destruct (tr c2) as [|y l]; [contradiction|]. destruct (f_kids f); reflexivity.
  - exfalso. specialize (Hn _ (or_introl eq_refl)). discriminate.
Qed.
End Events.
