(** Soundness of expression parsing: an error-free run delivers a tree that
    respects the table, reads the consumed text and matches the events. *)
From Verif Require Import Prelude ExprModel ExprSpec ExprTable.
Open Scope nat_scope.

Lemma no_errors_app a b : no_errors (a ++ b) <-> no_errors a /\ no_errors b.
Proof.
  unfold no_errors. split.
  - intros H. split; intros e He; apply H; apply in_or_app; auto.
  - intros (H1 & H2) e He. apply in_app_or in He. destruct He; auto.
Qed.
Lemma no_errors_one e : no_errors [e] <-> is_error e = false.
Proof. unfold no_errors. split; [intros H; apply H; left; reflexivity|]. intros H x [<-|[]]. exact H. Qed.
Lemma replay_app a b st : replay (a ++ b) st = replay b (replay a st).
Proof. unfold replay. apply fold_left_app. Qed.

Section Sound.
Variable tbl : operation.
Variable max_nesting : nat.
Variable input : list N.
Variable atom : nat -> bool * nat.
Variable op_rest : nat -> nat -> nat -> bool * nat.
Hypothesis Hok : table_ok tbl.

Notation reads := (reads tbl input atom op_rest).
Notation reads_sp := (reads_sp tbl input atom op_rest).
Notation op_text := (op_text tbl input op_rest).
Notation absent := (absent input).
Notation parse := (parse tbl max_nesting input atom op_rest).
Notation parse_lhs := (parse_lhs tbl max_nesting input atom op_rest).
Notation post_loop := (post_loop tbl max_nesting input atom op_rest).
Notation do_op := (do_op tbl max_nesting input atom op_rest).
Notation list_loop := (list_loop tbl max_nesting input atom op_rest).

(** One step of each function. *)
Lemma parse_S f min s : parse (S f) min s =
  match op_list false min tbl 1 with
  | [] => parse_lhs f min s
  | _ =>
    match parse_lhs f min (emit (EStart (pos s)) s) with
    | Done false s1 => Done false (emit (EFinish (pos s1)) s1)
    | Done true s1 =>
      match post_loop f min s1 with
      | Done r s2 => Done r (emit (EFinish (pos s2)) s2)
      | r => r
      end
    | r => r
    end
  end.
Proof. reflexivity. Qed.
Lemma parse_lhs_S f min s : parse_lhs (S f) min s =
  match parse_operator (op_list true min tbl 1) (at_ input (pos s)) with
  | None => parse_atom atom s
  | Some (e, idx, n) =>
    match do_op f e idx (pos s) (set_pos (pos s + n) (emit (EStart (pos s)) s)) with
    | Done r s1 => Done r (emit (EFinish (pos s1)) s1)
    | r => r
    end
  end.
Proof. reflexivity. Qed.
Lemma post_loop_S f min s : post_loop (S f) min s =
  match parse_operator (op_list false min tbl 1) (at_ input (pos s)) with
  | None => Done true s
  | Some (e, idx, n) =>
    match do_op f e idx (pos s) (set_pos (pos s + n) s) with
    | Done true s1 => post_loop f min s1
    | r => r
    end
  end.
Proof. reflexivity. Qed.
Definition do_kind (f : nat) (e : entry) (o : opn) (s : st) : res :=
  let finish r :=
    match r with
    | Done true s => Done true (emit (EOp (e_id e) (pos s)) s)
    | r => r
    end in
  match e_kind e with
  | IList =>
    match val s with
    | None => UB
    | Some lhs => finish (list_loop f e (SOne lhs) o (set_val None s))
    end
  | KPre =>
    match parse f (br (bp tbl (e_id e))) s with
    | Done true s1 =>
      match val s1 with
      | None => UB
      | Some v => finish (Done true (set_val (Some (Pre o v)) s1))
      end
    | r => r
    end
  | KPost =>
    match val s with
    | None => UB
    | Some v => finish (Done true (set_val (Some (Post v o)) s))
    end
  | ILeft | IRight | ISingle =>
    let lhs := val s in
    match parse f (br (bp tbl (e_id e))) (set_val None s) with
    | Done false s1 => Done false (set_val lhs s1)
    | Done true s1 =>
      match lhs, val s1 with
      | Some l, Some r =>
        let s2 := set_val (Some (Inf l o r)) s1 in
        finish (Done true
          (match e_kind e with
           | ISingle =>
             match parse_operator [e] (at_ input (pos s2)) with
             | Some (_, _, n) => emit (EChain (pos s2) (pos s2 + n)) s2
             | None => s2
             end
           | _ => s2
           end))
      | _, _ => UB
      end
    | r => r
    end
  end.
Lemma do_op_S f e idx b s : do_op (S f) e idx b s =
  match enter_op tbl max_nesting e b (pos s) s with
  | (false, s) => Done false s
  | (true, s) =>
    match op_finish op_rest e idx b (pos s) s with
    | (false, _, s) => Done false s
    | (true, o, s) => do_kind f e o s
    end
  end.
Proof. reflexivity. Qed.
Lemma list_loop_S f e sp o s : list_loop (S f) e sp o s =
  match parse f (br (bp tbl (e_id e))) s with
  | Done false s1 => Done false (set_val (Some (Lst sp (Some o))) s1)
  | Done true s1 =>
    match val s1 with
    | None => UB
    | Some v =>
      match parse_operator [e] (at_ input (pos s1)) with
      | None => Done true (set_val (Some (Lst (SMore sp o v) None)) (set_val None s1))
      | Some (_, idx, n) =>
        match op_finish op_rest e idx (pos s1) (pos s1 + n) (set_val None s1) with
        | (false, _, s2) => Done false (set_val (Some (Lst (SMore sp o v) None)) s2)
        | (true, o2, s2) => list_loop f e (SMore sp o v) o2 s2
        end
      end
    end
  | r => r
  end.
Proof. reflexivity. Qed.

Definition lb (id : nat) : nat := bl (bp tbl id).
Definition rb (id : nat) : nat := br (bp tbl id).

Lemma lb_power d : declared tbl d -> lb (d_id d) = left_power d.
Proof. intros H. apply (bp_sides tbl Hok d H). Qed.
Lemma rb_power d : declared tbl d -> rb (d_id d) = right_power d.
Proof. intros H. apply (bp_sides tbl Hok d H). Qed.

Definition follows (q o : nat) : Prop := lb o < rb q /\ (q = o -> kind_of tbl q ILeft).

(** [respects] in terms of binding powers. *)
Fixpoint respb (t : tree) : Prop :=
  match t with
  | Leaf _ _ => True
  | Pre o r => kind_of tbl (o_id o) KPre /\ respb r /\
      Forall (fun q => rb (o_id o) <= lb q) (left_edge r) /\
      Forall (fun q => rb (o_id o) <= rb q) (left_prefix r)
  | Post l o => kind_of tbl (o_id o) KPost /\ respb l /\
      Forall (fun q => follows q (o_id o)) (right_edge l)
  | Inf l o r =>
      (kind_of tbl (o_id o) ILeft \/ kind_of tbl (o_id o) IRight \/ kind_of tbl (o_id o) ISingle) /\
      respb l /\ respb r /\
      Forall (fun q => follows q (o_id o)) (right_edge l) /\
      Forall (fun q => rb (o_id o) <= lb q) (left_edge r) /\
      Forall (fun q => rb (o_id o) <= rb q) (left_prefix r)
  | Lst sp dangling =>
      dangling = None /\ (exists sp' o v, sp = SMore sp' o v /\ kind_of tbl (o_id o) IList) /\ respb_sp sp
  end
with respb_sp (sp : spine) : Prop :=
  match sp with
  | SOne t => respb t
  | SMore sp o t => respb_sp sp /\ respb t /\
      (exists x, sp = SOne x \/ exists sp' o', sp = SMore sp' o' x /\ o_id o' = o_id o) /\
      Forall (fun q => follows q (o_id o)) (right_edge (last_operand sp)) /\
      Forall (fun q => rb (o_id o) <= lb q) (left_edge t) /\
      Forall (fun q => rb (o_id o) <= rb q) (left_prefix t)
  end.

(** Nothing at [p] could be taken over by the operator [q]. *)
Definition closed_at (p q : nat) : Prop :=
  (forall d, declared tbl d -> is_pre (d_kind d) = false -> rb q <= left_power d -> absent d p) /\
  (forall d, declared tbl d -> d_id d = q -> d_kind d = ISingle \/ d_kind d = IList -> absent d p).
Definition stops (min p : nat) : Prop :=
  forall d, declared tbl d -> is_pre (d_kind d) = false -> min <= left_power d -> absent d p.

Definition inv (min : nat) (t : tree) (b e : nat) : Prop :=
  reads t b e /\ respb t /\ Forall (fun q => min <= lb q) (left_edge t) /\
  Forall (fun q => min <= rb q) (left_prefix t) /\ Forall (closed_at e) (right_edge t).

Definition in_group (s : st) (id : nat) : Prop := bg (bp tbl id) = 0 \/ bg (bp tbl id) = grp s.
Definition gok (t : tree) (s : st) : Prop := Forall (in_group s) (ops t).
Definition gmono (s s' : st) : Prop := grp s <> 0 -> grp s' = grp s.
Definition nest_ok (s s' : st) : Prop := nest s' = nest s \/ nest s' <= max_nesting.

Definition good (min : nat) (t : tree) (s s' : st) (d : list ev) : Prop :=
  inv min t (pos s) (pos s') /\ gok t s' /\ gmono s s' /\
  nest s' = nest s + applications t /\ nest_ok s s' /\
  forall c r, replay d (c :: r) = (c ++ nodes t) :: r.

Lemma in_group_mono s s' id : gmono s s' -> in_group s id -> in_group s' id.
Proof.
  unfold gmono, in_group. intros Hm [H|H]; [auto|].
  destruct (Nat.eq_dec (grp s) 0) as [E|E]; [left; congruence|right; rewrite (Hm E); exact H].
Qed.
Lemma gok_mono t s s' : gmono s s' -> gok t s -> gok t s'.
Proof. unfold gok. intros Hm. apply Forall_impl. intros id. apply in_group_mono. exact Hm. Qed.
Lemma gmono_trans a b c : gmono a b -> gmono b c -> gmono a c.
Proof. unfold gmono. intros H1 H2 Ha. rewrite (H2 ltac:(rewrite H1; auto)). auto. Qed.

(** The operator lists. *)
Lemma op_list_in pre min e : In e (op_list pre min tbl 1) <->
  exists d, declared tbl d /\ e = entry_of d /\ is_pre (d_kind d) = pre /\
    min <= (if pre then right_power d else left_power d).
Proof. exact (in_op_list pre min e tbl 0 []). Qed.

Lemma stops_none min p : parse_operator (op_list false min tbl 1) (at_ input p) = None <-> stops min p.
Proof.
  rewrite parse_operator_none. unfold stops, absent, at_. split.
  - intros H d Hd Hk Hm x Hx. apply (H (entry_of d) x); [|exact Hx].
    apply op_list_in. exists d. auto.
  - intros H e x He Hx. apply op_list_in in He. destruct He as (d & Hd & -> & Hk & Hm).
    exact (H d Hd Hk Hm x Hx).
Qed.
Lemma own_none d p : parse_operator [entry_of d] (at_ input p) = None <-> absent d p.
Proof.
  rewrite parse_operator_none. unfold absent, at_. cbn. split.
  - intros H x Hx. apply (H (entry_of d) x); auto.
  - intros H e x [<-|[]] Hx. apply H. exact Hx.
Qed.

(** An operator found at [p] may follow everything that is closed at [p]. *)
Lemma found_follows d p q x : declared tbl d -> is_pre (d_kind d) = false ->
  In x (d_lits d) -> matches x (at_ input p) = true -> closed_at p q -> follows q (d_id d).
Proof.
  intros Hd Hk Hx Hm (H1 & H2). unfold follows. rewrite (lb_power d Hd).
  assert (L : left_power d < rb q).
  { destruct (Nat.lt_ge_cases (left_power d) (rb q)) as [L|L]; [exact L|].
    pose proof (H1 d Hd Hk L x Hx) as E. unfold at_ in Hm. congruence. }
  split; [exact L|]. intros ->. rewrite (rb_power d Hd) in L. unfold left_power, right_power in L.
  destruct (d_kind d) eqn:Ek; cbn in L; try lia; try discriminate.
  - exists d. auto.
  - pose proof (H2 d Hd eq_refl (or_intror Ek) x Hx) as E. unfold at_ in Hm. congruence.
  - pose proof (H2 d Hd eq_refl (or_introl Ek) x Hx) as E. unfold at_ in Hm. congruence.
Qed.

Lemma enter_op_spec e b m s : exists d,
  evs (snd (enter_op tbl max_nesting e b m s)) = evs s ++ d /\
  (no_errors d -> fst (enter_op tbl max_nesting e b m s) = true /\ d = [] /\
     pos (snd (enter_op tbl max_nesting e b m s)) = pos s /\
     val (snd (enter_op tbl max_nesting e b m s)) = val s /\
     nest (snd (enter_op tbl max_nesting e b m s)) = S (nest s) /\
     nest (snd (enter_op tbl max_nesting e b m s)) <= max_nesting /\
     in_group (snd (enter_op tbl max_nesting e b m s)) (e_id e) /\
     gmono s (snd (enter_op tbl max_nesting e b m s))).
Proof.
  unfold enter_op. destruct (max_nesting <=? nest s) eqn:Em.
  - exists [ENesting b m]. split; [reflexivity|]. intros H. apply no_errors_one in H. discriminate.
  - unfold in_group, gmono. destruct (bg (bp tbl (e_id e)) =? 0) eqn:E0; cbn [fst snd].
    + exists []. cbn. rewrite app_nil_r. repeat split; auto; lia.
    + destruct (grp (inc_nest s) =? 0) eqn:Eg; cbn [fst snd].
      * exists []. cbn in *. rewrite app_nil_r. repeat split; auto; lia.
      * destruct (negb (grp (inc_nest s) =? bg (bp tbl (e_id e)))) eqn:En; cbn [fst snd].
        -- exists [EGroup b m]. split; [reflexivity|]. intros H. apply no_errors_one in H. discriminate.
        -- exists []. cbn in *. rewrite app_nil_r. repeat split; auto; lia.
Qed.

Lemma op_finish_spec d idx x b s : declared tbl d -> nth_error (d_lits d) idx = Some x ->
  matches x (at_ input b) = true ->
  (forall y, In y (d_lits d) -> matches y (at_ input b) = true -> length (l_text y) <= length (l_text x)) ->
  exists ok o s', op_finish op_rest (entry_of d) idx b (b + length (l_text x)) s = (ok, o, s') /\
  exists dl, evs s' = evs s ++ dl /\
  (no_errors dl -> ok = true /\ op_text o /\ o_id o = d_id d /\ o_b o = b /\ pos s' = o_e o /\
     val s' = val s /\ nest s' = nest s /\ grp s' = grp s /\
     forall c r, replay dl (c :: r) = (c ++ op_nodes o) :: r).
Proof.
  intros Hd Hx Hm Hlong. unfold op_finish. cbn [e_id entry_of].
  destruct (op_rest (d_id d) idx (b + length (l_text x))) as [ok n] eqn:Er.
  do 3 eexists. split; [reflexivity|].
  exists [EToken (d_id d) idx b (b + length (l_text x));
          if ok then ERest (b + length (l_text x)) (b + length (l_text x) + n)
          else ERestError (b + length (l_text x)) (b + length (l_text x) + n)].
  split; [cbn; now rewrite <- app_assoc|]. intros He. destruct ok.
  - cbn. repeat split; auto.
    + exists d, x. cbn. repeat split; auto. exists n. auto.
    + intros c r. unfold replay. cbn. now rewrite <- app_assoc.
  - exfalso. specialize (He (ERestError (b + length (l_text x)) (b + length (l_text x) + n))).
    cbn in He. specialize (He ltac:(auto)). discriminate.
Qed.

(** ** The induction *)
Definition soundA (f : nat) : Prop := forall min s ok s', parse f min s = Done ok s' ->
  exists d, evs s' = evs s ++ d /\
    (no_errors d -> ok = true /\ exists t, val s' = Some t /\ good min t s s' d /\ stops min (pos s')).
Definition soundB (f : nat) : Prop := forall min s ok s', parse_lhs f min s = Done ok s' ->
  exists d, evs s' = evs s ++ d /\
    (no_errors d -> ok = true /\ exists t, val s' = Some t /\ good min t s s' d /\ left_edge t = []).
Definition soundC (f : nat) : Prop := forall min s ok s', post_loop f min s = Done ok s' ->
  exists d, evs s' = evs s ++ d /\
    (no_errors d -> ok = true /\
     forall t b, val s = Some t -> inv min t b (pos s) -> gok t s ->
     exists t', val s' = Some t' /\ inv min t' b (pos s') /\ gok t' s' /\ gmono s s' /\
       nest s' + applications t = nest s + applications t' /\ nest_ok s s' /\ stops min (pos s') /\
       forall r, replay d (nodes t :: r) = nodes t' :: r).
Definition soundD (f : nat) : Prop := forall dd idx x b s ok s',
  declared tbl dd -> nth_error (d_lits dd) idx = Some x -> matches x (at_ input b) = true ->
  (forall y, In y (d_lits dd) -> matches y (at_ input b) = true -> length (l_text y) <= length (l_text x)) ->
  pos s = b + length (l_text x) -> do_op f (entry_of dd) idx b s = Done ok s' ->
  exists d, evs s' = evs s ++ d /\
    (no_errors d -> ok = true /\
     (is_pre (d_kind dd) = true ->
      exists t, val s' = Some t /\ left_edge t = [] /\
        (forall min, min <= rb (d_id dd) -> inv min t b (pos s')) /\
        gok t s' /\ gmono s s' /\ nest s' = nest s + applications t /\ nest s' <= max_nesting /\
        forall r, replay d ([] :: r) = nodes t :: r) /\
     (is_pre (d_kind dd) = false ->
      forall min t b0, val s = Some t -> inv min t b0 b -> min <= lb (d_id dd) -> gok t s ->
      exists t', val s' = Some t' /\ inv min t' b0 (pos s') /\ gok t' s' /\ gmono s s' /\
        nest s' + applications t = nest s + applications t' /\ nest s' <= max_nesting /\
        forall r, replay d (nodes t :: r) = nodes t' :: r)).
Definition soundL (f : nat) : Prop := forall dd sp o s ok s',
  declared tbl dd -> d_kind dd = IList -> list_loop f (entry_of dd) sp o s = Done ok s' ->
  exists d, evs s' = evs s ++ d /\
    (no_errors d -> ok = true /\
     forall min b0, reads_sp sp b0 (o_b o) -> op_text o -> o_id o = d_id dd -> pos s = o_e o ->
       respb_sp sp -> (exists v, sp = SOne v \/ exists sp' o', sp = SMore sp' o' v /\ o_id o' = o_id o) ->
       Forall (fun q => follows q (o_id o)) (right_edge (last_operand sp)) ->
       Forall (fun q => min <= lb q) (left_edge_sp sp) -> min <= lb (d_id dd) ->
       Forall (fun q => min <= rb q) (left_prefix_sp sp) ->
       Forall (in_group s) (ops_sp sp) -> in_group s (d_id dd) ->
     exists sp' o' v, val s' = Some (Lst (SMore sp' o' v) None) /\ o_id o' = d_id dd /\
       inv min (Lst (SMore sp' o' v) None) b0 (pos s') /\ gok (Lst (SMore sp' o' v) None) s' /\ gmono s s' /\
       nest s' + applications_sp sp = nest s + applications_sp (SMore sp' o' v) /\ nest_ok s s' /\
       forall r, replay d ((nodes_sp sp ++ op_nodes o) :: r) = nodes_sp (SMore sp' o' v) :: r).

Ltac nlia := unfold nest_ok in *; cbn [nest emit set_pos set_val] in *; lia.
Lemma gmono_refl_eq s s' : grp s' = grp s -> gmono s s'.
Proof. unfold gmono. auto. Qed.

Lemma Forall_app_intro {A} (P : A -> Prop) l1 l2 : Forall P l1 -> Forall P l2 -> Forall P (l1 ++ l2).
Proof. intros. apply Forall_app. auto. Qed.

Lemma soundA_S f : soundB f -> soundC f -> soundA (S f).
Proof.
  intros HB HC min s ok s' H. rewrite parse_S in H.
  destruct (op_list false min tbl 1) as [|e0 l0] eqn:El.
  - destruct (HB _ _ _ _ H) as (d & Ed & Q). exists d. split; [exact Ed|]. intros He.
    destruct (Q He) as (-> & t & Ht & G & Hle). split; [reflexivity|]. exists t. split; [exact Ht|].
    split; [exact G|]. apply stops_none. rewrite El. reflexivity.
  - clear e0 l0 El.
    destruct (parse_lhs f min (emit (EStart (pos s)) s)) as [ok1 s1| |] eqn:E1; [|discriminate|discriminate].
    destruct (HB _ _ _ _ E1) as (d1 & Ed1 & Q1). cbn in Ed1.
    destruct ok1.
    + destruct (post_loop f min s1) as [ok2 s2| |] eqn:E2; [|discriminate|discriminate].
      injection H as <- <-. destruct (HC _ _ _ _ E2) as (d2 & Ed2 & Q2).
      exists ([EStart (pos s)] ++ d1 ++ d2 ++ [EFinish (pos s2)]). split.
      { cbn [emit evs]. rewrite Ed2, Ed1. now rewrite <- !app_assoc. }
      intros He. apply no_errors_app in He. destruct He as (_ & He). apply no_errors_app in He.
      destruct He as (He1 & He). apply no_errors_app in He. destruct He as (He2 & _).
      destruct (Q1 He1) as (_ & t & Ht & (I1 & G1 & M1 & N1 & NO1 & R1) & _).
      destruct (Q2 He2) as (-> & Q2'). cbn [pos emit] in I1.
      destruct (Q2' t (pos s) Ht I1 G1) as (t' & Ht' & I2 & G2 & M2 & N2 & NO2 & S2 & R2).
      split; [reflexivity|]. exists t'. split; [exact Ht'|]. split; [|exact S2].
      split; [exact I2|]. split; [exact G2|].
      split; [eapply gmono_trans; [|exact M2]; exact M1|].
      cbn [emit nest] in *. split; [lia|]. split; [nlia|].
      intros c r. rewrite !replay_app. cbn [replay fold_left step].
      change (replay [EFinish (pos s2)] (replay d2 (replay d1 ([] :: c :: r))) = (c ++ nodes t') :: r).
      rewrite R1, R2. reflexivity.
    + injection H as <- <-. exists ([EStart (pos s)] ++ d1 ++ [EFinish (pos s1)]). split.
      { cbn [emit evs]. rewrite Ed1. now rewrite <- !app_assoc. }
      intros He. apply no_errors_app in He. destruct He as (_ & He). apply no_errors_app in He.
      destruct He as (He1 & _). destruct (Q1 He1) as (Q & _). discriminate Q.
Qed.

Lemma soundB_S f : soundD f -> soundB (S f).
Proof.
  intros HD min s ok s' H. rewrite parse_lhs_S in H.
  destruct (parse_operator (op_list true min tbl 1) (at_ input (pos s))) as [[[e idx] n]|] eqn:Ep.
  - pose proof (parse_operator_longest _ _ _ _ _ Ep) as Hlong. apply parse_operator_some in Ep. destruct Ep as (Hin & x & Hx & Hm & ->).
    pose proof Hin as Hin'. apply op_list_in in Hin. destruct Hin as (dd & Hd & -> & Hk & Hmin). cbn [e_lits entry_of] in Hx.
    destruct (do_op f (entry_of dd) idx (pos s) _) as [ok1 s1| |] eqn:E1; [|discriminate|discriminate].
    injection H as <- <-.
    destruct (HD dd idx x (pos s) _ _ _ Hd Hx Hm (fun y => Hlong _ y Hin') (eq_refl : pos (set_pos (pos s + length (l_text x)) _) = _) E1) as (d & Ed & Q). cbn in Ed.
    exists ([EStart (pos s)] ++ d ++ [EFinish (pos s1)]). split.
    { cbn [emit evs]. rewrite Ed. now rewrite <- !app_assoc. }
    intros He. apply no_errors_app in He. destruct He as (_ & He). apply no_errors_app in He.
    destruct He as (He1 & _). destruct (Q He1) as (-> & Q1 & _).
    destruct (Q1 Hk) as (t & Ht & Hle & I & G & M & N & NO & R). split; [reflexivity|].
    exists t. split; [exact Ht|]. split; [|exact Hle].
    split; [cbn [pos emit]; apply I; rewrite (rb_power dd Hd); exact Hmin|].
    split; [exact G|]. split; [exact M|]. cbn [nest emit set_pos] in *. split; [lia|].
    split; [right; nlia|].
    intros c r. rewrite !replay_app. change (replay [EFinish (pos s1)] (replay d ([] :: c :: r)) = (c ++ nodes t) :: r).
    rewrite R. reflexivity.
  - unfold parse_atom in H. destruct (atom (pos s)) as [ok0 n] eqn:Ea. destruct ok0; injection H as <- <-.
    + exists [EAtom (pos s) (pos s + n)]. split; [reflexivity|]. intros _. split; [reflexivity|].
      eexists. split; [reflexivity|]. split; [|reflexivity]. split; [|split; [|split; [|split; [|split]]]].
      * split; [cbn; eauto 8|]. cbn. auto.
      * constructor.
      * unfold gmono. auto.
      * cbn. lia.
      * left. reflexivity.
      * reflexivity.
    + exists [EAtomError (pos s) (pos s + n)]. split; [reflexivity|].
      intros He. apply no_errors_one in He. discriminate.
Qed.

Lemma soundC_S f : soundC f -> soundD f -> soundC (S f).
Proof.
  intros HC HD min s ok s' H. rewrite post_loop_S in H.
  destruct (parse_operator (op_list false min tbl 1) (at_ input (pos s))) as [[[e idx] n]|] eqn:Ep.
  - pose proof (parse_operator_longest _ _ _ _ _ Ep) as Hlong. apply parse_operator_some in Ep. destruct Ep as (Hin & x & Hx & Hm & ->).
    pose proof Hin as Hin'. apply op_list_in in Hin. destruct Hin as (dd & Hd & -> & Hk & Hmin). cbn [e_lits entry_of] in Hx.
    destruct (do_op f (entry_of dd) idx (pos s) _) as [ok1 s1| |] eqn:E1; [|discriminate|discriminate].
    destruct (HD dd idx x (pos s) _ _ _ Hd Hx Hm (fun y => Hlong _ y Hin') (eq_refl : pos (set_pos (pos s + length (l_text x)) _) = _) E1) as (d & Ed & Q). cbn [evs set_pos] in Ed.
    destruct ok1.
    + destruct (HC _ _ _ _ H) as (d2 & Ed2 & Q2). exists (d ++ d2). split; [rewrite Ed2, Ed; now rewrite app_assoc|].
      intros He. apply no_errors_app in He. destruct He as (He1 & He2).
      destruct (Q He1) as (_ & _ & Q1). specialize (Q1 Hk). destruct (Q2 He2) as (-> & Q3).
      split; [reflexivity|]. intros t b Hv Hi Hg.
      destruct (Q1 min t b Hv Hi ltac:(rewrite (lb_power dd Hd); exact Hmin) Hg)
        as (t1 & Hv1 & I1 & G1 & M1 & N1 & NO1 & R1).
      destruct (Q3 t1 b Hv1 I1 G1) as (t2 & Hv2 & I2 & G2 & M2 & N2 & NO2 & S2 & R2).
      exists t2. split; [exact Hv2|]. split; [exact I2|]. split; [exact G2|].
      split; [eapply gmono_trans; [|exact M2]; exact M1|].
      cbn [nest set_pos] in *. split; [lia|]. split; [nlia|].
      split; [exact S2|]. intros r. rewrite replay_app, R1, R2. reflexivity.
    + injection H as <- <-. exists d. split; [exact Ed|]. intros He. destruct (Q He) as (Q1 & _). discriminate Q1.
  - injection H as <- <-. exists []. split; [now rewrite app_nil_r|]. intros _. split; [reflexivity|].
    intros t b Hv Hi Hg. exists t. split; [exact Hv|]. split; [exact Hi|]. split; [exact Hg|].
    split; [unfold gmono; auto|]. split; [lia|]. split; [left; reflexivity|].
    split; [now apply stops_none|reflexivity].
Qed.

(** Combining an operator with its operands. *)
Lemma inv_infix min l o r b0 e dd :
  declared tbl dd -> d_id dd = o_id o -> d_kind dd = ILeft \/ d_kind dd = IRight \/ d_kind dd = ISingle ->
  inv min l b0 (o_b o) -> op_text o -> min <= lb (o_id o) ->
  inv (rb (o_id o)) r (o_e o) e -> stops (rb (o_id o)) e ->
  (d_kind dd = ISingle -> absent dd e) ->
  Forall (fun q => follows q (o_id o)) (right_edge l) ->
  inv min (Inf l o r) b0 e.
Proof.
  intros Hd Ei Hk (A1 & A2 & A3 & A4 & A5) Ho Hmin (B1 & B2 & B3 & B4 & B5) Hs Hsingle Hf.
  assert (Hkk : forall k, d_kind dd = k -> kind_of tbl (o_id o) k).
  { intros k <-. exists dd. auto. }
  split; [cbn; auto|]. split.
  { cbn. split; [|auto]. destruct Hk as [Hk|[Hk|Hk]]; auto. }
  split; [cbn; constructor; auto|]. split; [exact A4|]. cbn. constructor; [|exact B5].
  split; [exact Hs|]. intros d' Hd' Ei' Hk'.
  assert (d' = dd) by (apply (declared_id tbl Hok); congruence). subst d'.
  destruct Hk' as [Hk'|Hk']; [auto|]. exfalso. destruct Hk as [Hk|[Hk|Hk]]; congruence.
Qed.

Lemma found_all d p x t : declared tbl d -> is_pre (d_kind d) = false ->
  In x (d_lits d) -> matches x (at_ input p) = true -> Forall (closed_at p) (right_edge t) ->
  Forall (fun q => follows q (d_id d)) (right_edge t).
Proof. intros. eapply Forall_impl; [|eassumption]. intros q Hq. eapply found_follows; eauto. Qed.

Lemma soundL_S f : soundA f -> soundL f -> soundL (S f).
Proof.
  intros HA HL dd sp o s ok s' Hd Hk H. rewrite list_loop_S in H. cbn [e_id entry_of] in H.
  destruct (parse f (br (bp tbl (d_id dd))) s) as [ok1 s1| |] eqn:E1; [|discriminate|discriminate].
  destruct (HA _ _ _ _ E1) as (d & Ed & Q). destruct ok1.
  - destruct (val s1) as [v|] eqn:Ev; [|discriminate].
    destruct (parse_operator [entry_of dd] (at_ input (pos s1))) as [[[e idx] n]|] eqn:Ep.
    + pose proof (parse_operator_longest _ _ _ _ _ Ep) as Hlong. apply parse_operator_some in Ep. destruct Ep as ([<-|[]] & x & Hx & Hm & ->).
      destruct (op_finish_spec dd idx x (pos s1) (set_val None s1) Hd Hx Hm (fun y => Hlong _ y (or_introl eq_refl))) as (okf & o2 & s2 & Ef & dl & Edl & Qf).
      rewrite Ef in H. cbn [evs set_val] in Edl. destruct okf.
      * destruct (HL dd _ _ _ _ _ Hd Hk H) as (d3 & Ed3 & Q3).
        exists (d ++ dl ++ d3). split; [rewrite Ed3, Edl, Ed; now rewrite <- !app_assoc|].
        intros He. apply no_errors_app in He. destruct He as (He1 & He). apply no_errors_app in He.
        destruct He as (He2 & He3).
        destruct (Q He1) as (_ & t & Ht & (I & G & M & N & NO & R) & S1). injection Ht as <-.
        destruct (Qf He2) as (_ & F1 & F2 & F3 & F4 & F5 & F6 & F7 & F8).
        destruct (Q3 He3) as (-> & Q4). split; [reflexivity|].
        intros min b0 P1 P2 P3 P4 P5 P6 P7 P8 P9 P10 P11 P12.
        destruct I as (I1 & I2 & I3 & I4 & I5).
        destruct (Q4 min b0) as (sp' & o' & v' & W1 & W2 & W3 & W4 & W5 & W6 & W7 & W8).
        { cbn. rewrite F3. rewrite P4 in I1. auto. }
        { exact F1. } { congruence. } { congruence. }
        { cbn. rewrite P3 in *. auto 7. }
        { exists v. right. exists sp, o. split; [reflexivity|congruence]. }
        { cbn. rewrite F2. eapply (found_all dd (pos s1)); eauto.
          - now rewrite Hk. - exact (nth_error_In _ _ Hx). }
        { cbn. constructor; [congruence|exact P8]. }
        { exact P9. } { exact P10. }
        { assert (GM : gmono s s2) by (eapply gmono_trans; [exact M|apply gmono_refl_eq; exact F7]).
          cbn. apply Forall_app_intro.
          - eapply Forall_impl; [|exact P11]. intros id. apply in_group_mono. exact GM.
          - constructor; [rewrite P3; eapply in_group_mono; eauto|].
            eapply gok_mono; [|exact G]. apply gmono_refl_eq. exact F7. }
        { eapply in_group_mono; [|exact P12]. eapply gmono_trans; [exact M|]. apply gmono_refl_eq. exact F7. }
        exists sp', o', v'. split; [exact W1|]. split; [exact W2|]. split; [exact W3|]. split; [exact W4|].
        split; [eapply gmono_trans; [exact M|]; eapply gmono_trans; [|exact W5]; apply gmono_refl_eq; exact F7|].
        cbn [applications_sp] in *. cbn [nest set_val] in F6. split; [lia|].
        split; [nlia|].
        intros r. rewrite !replay_app, R. cbn [nodes_sp] in W8. rewrite <- app_assoc.
        rewrite F8. rewrite <- app_assoc. rewrite <- app_assoc in W8. rewrite <- !app_assoc in W8. rewrite <- !app_assoc. rewrite W8. reflexivity.
      * injection H as <- <-. exists (d ++ dl). split; [cbn [evs set_val]; rewrite Edl, Ed; now rewrite <- !app_assoc|].
        intros He. apply no_errors_app in He. destruct He as (_ & He2). destruct (Qf He2) as (F & _). discriminate F.
    + injection H as <- <-. exists d. split; [exact Ed|]. intros He. split; [reflexivity|].
      intros min b0 P1 P2 P3 P4 P5 P6 P7 P8 P9 P10 P11 P12.
      destruct (Q He) as (_ & t & Ht & (I & G & M & N & NO & R) & S1). injection Ht as <-.
      destruct I as (I1 & I2 & I3 & I4 & I5).
      exists sp, o, v. split; [reflexivity|]. split; [exact P3|]. cbn [pos set_val].
      split.
      { split; [cbn; rewrite P4 in I1; auto|]. split.
        - cbn. split; [reflexivity|]. split; [exists sp, o, v; split; [reflexivity|]; exists dd; auto|]. rewrite P3. auto 7.
          rewrite P3 in P6, P7. auto 7.
        - split; [cbn; constructor; [congruence|exact P8]|]. split; [exact P10|].
          cbn. constructor; [|exact I5]. split.
          + intros d' Hd' Hk' L. apply S1; auto. unfold rb in L. rewrite P3 in L. exact L.
          + intros d' Hd' Ei' Hk'. assert (d' = dd) by (apply (declared_id tbl Hok); congruence). subst d'.
            now apply own_none. }
      split.
      { unfold gok. cbn. apply Forall_app_intro.
        - eapply Forall_impl; [|exact P11]. intros id. now apply in_group_mono.
        - constructor; [rewrite P3; eapply in_group_mono; eauto|]. exact G. }
      split; [exact M|]. cbn [nest set_val applications_sp]. split; [lia|]. split; [exact NO|].
      intros r. rewrite R. cbn. now rewrite <- app_assoc.
  - injection H as <- <-. exists d. split; [exact Ed|]. intros He. destruct (Q He) as (Q1 & _). discriminate Q1.
Qed.

Lemma soundD_S f : soundA f -> soundL f -> soundD (S f).
Proof.
  intros HA HL dd idx x b s ok s' Hd Hx Hm Hlong Hp H. rewrite do_op_S in H.
  destruct (enter_op_spec (entry_of dd) b (pos s) s) as (de & Ede & Qe).
  destruct (enter_op tbl max_nesting (entry_of dd) b (pos s) s) as [oke s0] eqn:Ee. cbn [fst snd] in *.
  destruct oke.
  2:{ injection H as <- <-. exists de. split; [exact Ede|]. intros He. destruct (Qe He) as (Q & _). discriminate Q. }
  assert (Hp0 : pos s0 = pos s).
  { clear -Ee. unfold enter_op in Ee. destruct (max_nesting <=? nest s); [discriminate|].
    injection Ee as <-. destruct (_ =? 0); [reflexivity|]. destruct (_ =? 0); [reflexivity|].
    destruct (negb _); reflexivity. }
  destruct (op_finish_spec dd idx x b s0 Hd Hx Hm Hlong) as (okf & o & s1 & Ef & dl & Edl & Qf).
  rewrite Hp0, Hp, Ef in H. unfold do_kind in H. cbn [e_id e_kind entry_of] in H.
  destruct okf.
  2:{ injection H as <- <-. exists (de ++ dl). split; [rewrite Edl, Ede; now rewrite app_assoc|].
      intros He. apply no_errors_app in He. destruct He as (_ & He). destruct (Qf He) as (Q & _). discriminate Q. }
  (* facts common to all kinds once no error has occurred so far *)
  assert (Common : no_errors (de ++ dl) ->
    de = [] /\ op_text o /\ o_id o = d_id dd /\ o_b o = b /\ pos s1 = o_e o /\ val s1 = val s /\
    nest s1 = S (nest s) /\ nest s1 <= max_nesting /\ in_group s1 (d_id dd) /\ gmono s s1 /\
    forall c r, replay dl (c :: r) = (c ++ op_nodes o) :: r).
  { intros He. apply no_errors_app in He. destruct He as (He1 & He2).
    destruct (Qe He1) as (_ & Z1 & Z2 & Z3 & Z4 & Z5 & Z6 & Z7).
    destruct (Qf He2) as (_ & F1 & F2 & F3 & F4 & F5 & F6 & F7 & F8).
    repeat split; auto; try congruence; try lia.
    - eapply in_group_mono; [apply gmono_refl_eq; exact F7|exact Z6].
    - eapply gmono_trans; [exact Z7|]. apply gmono_refl_eq. exact F7. }
  assert (Epre : evs s1 = evs s ++ (de ++ dl)) by (rewrite Edl, Ede; now rewrite app_assoc).
  clear Ede Qe Ee Edl Qf Ef Hp0.
  assert (Finfix : d_kind dd = ILeft \/ d_kind dd = IRight \/ d_kind dd = ISingle ->
    match parse f (br (bp tbl (d_id dd))) (set_val None s1) with
    | Done false s2 => Done false (set_val (val s1) s2)
    | Done true s2 =>
      match val s1, val s2 with
      | Some l, Some r =>
        let s3 := set_val (Some (Inf l o r)) s2 in
        let s4 := match d_kind dd with
                  | ISingle =>
                    match parse_operator [entry_of dd] (at_ input (pos s3)) with
                    | Some (_, _, n) => emit (EChain (pos s3) (pos s3 + n)) s3
                    | None => s3
                    end
                  | _ => s3
                  end in
        Done true (emit (EOp (d_id dd) (pos s4)) s4)
      | _, _ => UB
      end
    | r => r
    end = Done ok s' ->
    exists d, evs s' = evs s ++ d /\
    (no_errors d -> ok = true /\
     (is_pre (d_kind dd) = true ->
      exists t, val s' = Some t /\ left_edge t = [] /\
        (forall min, min <= rb (d_id dd) -> inv min t b (pos s')) /\
        gok t s' /\ gmono s s' /\ nest s' = nest s + applications t /\ nest s' <= max_nesting /\
        forall r, replay d ([] :: r) = nodes t :: r) /\
     (is_pre (d_kind dd) = false ->
      forall min t b0, val s = Some t -> inv min t b0 b -> min <= lb (d_id dd) -> gok t s ->
      exists t', val s' = Some t' /\ inv min t' b0 (pos s') /\ gok t' s' /\ gmono s s' /\
        nest s' + applications t = nest s + applications t' /\ nest s' <= max_nesting /\
        forall r, replay d (nodes t :: r) = nodes t' :: r))).
  { clear H. intros Hk H.
    destruct (parse f (br (bp tbl (d_id dd))) (set_val None s1)) as [ok2 s2| |] eqn:E2; [|discriminate|discriminate].
    destruct (HA _ _ _ _ E2) as (d2 & Ed2 & Q2). cbn [evs set_val] in Ed2. destruct ok2.
    2:{ injection H as <- <-. exists ((de ++ dl) ++ d2). split; [cbn [evs set_val]; rewrite Ed2, Epre; now rewrite <- !app_assoc|].
        intros He. apply no_errors_app in He. destruct He as (_ & He). destruct (Q2 He) as (Q & _). discriminate Q. }
    destruct (val s1) as [l|] eqn:Ev1; [|discriminate].
    destruct (val s2) as [r|] eqn:Ev2; [|discriminate]. cbn zeta in H.
    set (s3 := set_val (Some (Inf l o r)) s2) in *.
    assert (H4 : exists s4 d4, ok = true /\ s' = emit (EOp (d_id dd) (pos s4)) s4 /\ evs s4 = evs s2 ++ d4 /\
              pos s4 = pos s2 /\ val s4 = Some (Inf l o r) /\ nest s4 = nest s2 /\ grp s4 = grp s2 /\
              (no_errors d4 -> d4 = [] /\ (d_kind dd = ISingle -> absent dd (pos s2)))).
    { destruct (d_kind dd) eqn:Ekd; injection H as <- <-;
        try (exists s3, []; repeat split; auto; [cbn; now rewrite app_nil_r|congruence]).
      change (pos s3) with (pos s2) in *. destruct (parse_operator [entry_of dd] (at_ input (pos s2))) as [[[? ?] n]|] eqn:Ep.
      - exists (emit (EChain (pos s3) (pos s3 + n)) s3), [EChain (pos s3) (pos s3 + n)].
        split; [reflexivity|]. split; [reflexivity|]. do 5 (split; [reflexivity|]).
        intros He. apply no_errors_one in He. discriminate.
      - exists s3, []. split; [reflexivity|]. split; [reflexivity|]. split; [cbn; now rewrite app_nil_r|].
        do 4 (split; [reflexivity|]). intros _. split; [reflexivity|]. intros _. now apply own_none. }
    destruct H4 as (s4 & d4 & -> & -> & V1 & V2 & V3 & V4 & V5 & V6). clear H.
    exists (de ++ dl ++ d2 ++ d4 ++ [EOp (d_id dd) (pos s4)]). split.
    { cbn [evs emit]. rewrite V1, Ed2, Epre. now rewrite <- !app_assoc. }
    intros He. split; [reflexivity|]. rewrite app_assoc in He. apply no_errors_app in He.
    destruct He as (He1 & He). apply no_errors_app in He. destruct He as (He2 & He).
    apply no_errors_app in He. destruct He as (He4 & _).
    destruct (Common He1) as (-> & C1 & C2 & C3 & C4 & C5 & C6 & C7 & C8 & C9 & C10). clear Common.
    destruct (Q2 He2) as (_ & t & Ht & (I & G & M & N & NO & R) & S2). injection Ht as <-.
    destruct (V6 He4) as (-> & Hsingle).
    split; [intros Hpre; exfalso; destruct Hk as [Hk|[Hk|Hk]]; rewrite Hk in Hpre; discriminate|].
    intros Hpost min t b0 Hv Hi Hmin Hg. rewrite Hv in C5. injection C5 as <-.
    exists (Inf l o r). split; [exact V3|]. cbn [pos emit].
    split.
    { rewrite V2. eapply (inv_infix min l o r b0 (pos s2) dd); auto.
      - rewrite C3. exact Hi.
      - congruence.
      - rewrite C2. unfold rb. cbn [pos set_val] in I. rewrite C4 in I. exact I.
      - rewrite C2. exact S2.
      - rewrite C2. eapply (found_all dd b); eauto; [exact (nth_error_In _ _ Hx)|]. apply Hi. }
    assert (M12 : gmono s s2) by (eapply gmono_trans; [exact C9|exact M]).
    split.
    { unfold gok. cbn [ops]. apply Forall_app_intro.
      - eapply Forall_impl; [|exact Hg]. intros id. apply in_group_mono.
        eapply gmono_trans; [exact M12|]. apply gmono_refl_eq. exact V5.
      - constructor.
        + rewrite C2. eapply in_group_mono; [|exact C8]. eapply gmono_trans; [exact M|]. apply gmono_refl_eq. exact V5.
        + eapply gok_mono; [|exact G]. apply gmono_refl_eq. exact V5. }
    split; [eapply gmono_trans; [exact M12|]; apply gmono_refl_eq; exact V5|].
    cbn [nest emit applications set_val] in *. split; [lia|]. split; [nlia|].
    intros r0. cbn [app]. rewrite !replay_app, C10, R. unfold op_nodes. cbn. rewrite ?C2, ?app_nil_r, <- ?app_assoc. reflexivity. }
  destruct (d_kind dd) eqn:Ekd.
  - apply Finfix; [auto|]. exact H.
  - apply Finfix; [auto|]. exact H.
  - (* list *) clear Finfix.
    destruct (val s1) as [lhs|] eqn:Ev1; [|discriminate].
    destruct (list_loop f (entry_of dd) (SOne lhs) o (set_val None s1)) as [okl s2| |] eqn:E2; [|discriminate|discriminate].
    destruct (HL dd _ _ _ _ _ Hd Ekd E2) as (d2 & Ed2 & Q2). cbn [evs set_val] in Ed2.
    destruct okl.
    2:{ injection H as <- <-. exists ((de ++ dl) ++ d2). split; [rewrite Ed2, Epre; now rewrite <- !app_assoc|].
        intros He. apply no_errors_app in He. destruct He as (_ & He). destruct (Q2 He) as (Q & _). discriminate Q. }
    injection H as <- <-. exists (de ++ dl ++ d2 ++ [EOp (d_id dd) (pos s2)]). split.
    { cbn [evs emit]. rewrite Ed2, Epre. now rewrite <- !app_assoc. }
    intros He. split; [reflexivity|]. rewrite app_assoc in He. apply no_errors_app in He.
    destruct He as (He1 & He). apply no_errors_app in He. destruct He as (He2 & _).
    destruct (Common He1) as (-> & C1 & C2 & C3 & C4 & C5 & C6 & C7 & C8 & C9 & C10). clear Common.
    destruct (Q2 He2) as (_ & Q3).
    split; [discriminate|].
    intros _ min t b0 Hv Hi Hmin Hg. rewrite Hv in C5. injection C5 as ->.
    destruct Hi as (I1 & I2 & I3 & I4 & I5).
    destruct (Q3 min b0) as (sp' & o' & v' & W1 & W2 & W3 & W4 & W5 & W6 & W7 & W8).
    { cbn. rewrite C3. exact I1. } { exact C1. } { exact C2. } { exact C4. } { exact I2. }
    { exists t. auto. }
    { cbn. rewrite C2. eapply (found_all dd b); eauto; [now rewrite Ekd|exact (nth_error_In _ _ Hx)]. }
    { exact I3. } { exact Hmin. } { exact I4. }
    { cbn. eapply Forall_impl; [|exact Hg]. intros id Hid. apply (in_group_mono s1); [apply gmono_refl_eq; reflexivity|].
      eapply in_group_mono; eauto. }
    { apply (in_group_mono s1); [apply gmono_refl_eq; reflexivity|exact C8]. }
    exists (Lst (SMore sp' o' v') None). split; [exact W1|]. split; [exact W3|]. split; [exact W4|].
    split; [eapply gmono_trans; [exact C9|]; exact W5|].
    cbn [nest emit applications applications_sp set_val] in *.
    split; [lia|]. split; [nlia|].
    intros r0. cbn [app]. rewrite !replay_app, C10. cbn [nodes_sp] in W8. rewrite W8.
    cbn [nodes]. rewrite W2. reflexivity.
  - apply Finfix; [auto|]. exact H.
  - (* postfix *) clear Finfix.
    destruct (val s1) as [v|] eqn:Ev1; [|discriminate]. injection H as <- <-.
    exists (de ++ dl ++ [EOp (d_id dd) (pos s1)]). split.
    { cbn [evs emit set_val pos]. rewrite Epre. now rewrite <- !app_assoc. }
    intros He. split; [reflexivity|]. rewrite app_assoc in He. apply no_errors_app in He. destruct He as (He1 & _).
    destruct (Common He1) as (-> & C1 & C2 & C3 & C4 & C5 & C6 & C7 & C8 & C9 & C10). clear Common.
    split; [discriminate|].
    intros _ min t b0 Hv Hi Hmin Hg. rewrite Hv in C5. injection C5 as ->.
    exists (Post t o). split; [reflexivity|]. cbn [pos emit set_val].
    destruct Hi as (I1 & I2 & I3 & I4 & I5).
    split.
    { split; [cbn; rewrite C3; auto|]. split.
      - cbn. split; [exists dd; auto|]. split; [exact I2|]. rewrite C2.
        eapply (found_all dd b); eauto; [now rewrite Ekd|exact (nth_error_In _ _ Hx)].
      - split; [cbn; constructor; [congruence|exact I3]|]. split; [exact I4|]. constructor. }
    split.
    { unfold gok. cbn. apply Forall_app_intro; [eapply gok_mono; [|exact Hg]; exact C9|].
      constructor; [rewrite C2; exact C8|constructor]. }
    split; [exact C9|]. cbn [nest emit applications set_val]. split; [lia|]. split; [lia|].
    intros r0. cbn [app]. rewrite replay_app, C10. unfold op_nodes. cbn. unfold op_nodes. cbn. rewrite ?C2. reflexivity.
  - (* prefix *) clear Finfix.
    destruct (parse f (br (bp tbl (d_id dd))) s1) as [ok2 s2| |] eqn:E2; [|discriminate|discriminate].
    destruct (HA _ _ _ _ E2) as (d2 & Ed2 & Q2). destruct ok2.
    2:{ injection H as <- <-. exists ((de ++ dl) ++ d2). split; [rewrite Ed2, Epre; now rewrite <- !app_assoc|].
        intros He. apply no_errors_app in He. destruct He as (_ & He). destruct (Q2 He) as (Q & _). discriminate Q. }
    destruct (val s2) as [v|] eqn:Ev2; [|discriminate]. injection H as <- <-.
    exists (de ++ dl ++ d2 ++ [EOp (d_id dd) (pos s2)]). split.
    { cbn [evs emit set_val pos]. rewrite Ed2, Epre. now rewrite <- !app_assoc. }
    intros He. split; [reflexivity|]. rewrite app_assoc in He. apply no_errors_app in He.
    destruct He as (He1 & He). apply no_errors_app in He. destruct He as (He2 & _).
    destruct (Common He1) as (-> & C1 & C2 & C3 & C4 & C5 & C6 & C7 & C8 & C9 & C10). clear Common.
    destruct (Q2 He2) as (_ & t & Ht & (I & G & M & N & NO & R) & S2). injection Ht as <-.
    split; [|discriminate]. intros _.
    exists (Pre o v). split; [reflexivity|]. split; [reflexivity|]. cbn [pos emit set_val].
    destruct I as (I1 & I2 & I3 & I4 & I5).
    split.
    { intros min Hmin. split; [cbn; rewrite C4 in I1; auto|]. split.
      - cbn. split; [exists dd; auto|]. rewrite C2. auto.
      - split; [constructor|]. split; [cbn; constructor; [rewrite C2; exact Hmin|constructor]|].
        cbn. constructor; [|exact I5]. rewrite C2. split; [exact S2|].
        intros d' Hd' Ei' Hk'. assert (d' = dd) by (apply (declared_id tbl Hok); congruence). subst d'.
        exfalso. destruct Hk'; congruence. }
    split.
    { unfold gok. cbn. constructor; [rewrite C2; eapply in_group_mono; eauto|exact G]. }
    split; [eapply gmono_trans; eauto|]. cbn [nest emit applications set_val]. split; [lia|].
    split; [nlia|].
    intros r0. cbn [app]. rewrite !replay_app, C10, R. unfold op_nodes. cbn. unfold op_nodes. cbn. rewrite ?C2. reflexivity.
Qed.

Lemma sound_all : forall f, soundA f /\ soundB f /\ soundC f /\ soundD f /\ soundL f.
Proof.
  induction f as [|f (HA & HB & HC & HD & HL)].
  - repeat split; (intros ? ? ? ? H; discriminate) || (intros ? ? ? ? ? ? ? ? ? ? ? H; discriminate)
      || (intros ? ? ? ? ? ? ? ? H; discriminate).
  - repeat split; eauto using soundA_S, soundB_S, soundC_S, soundD_S, soundL_S.
Qed.
End Sound.
