(** The grammar of a declaration and the trees that respect the declared levels. *)
From Verif Require Import Prelude ExprModel ExprSpec ExprTable ExprProofs ExprComplete ExprBridge.
Open Scope nat_scope.

Scheme grammar_mut := Minimality for grammar Sort Prop with items_mut := Minimality for items Sort Prop.
Combined Scheme grammar_items_ind from grammar_mut, items_mut.

Section Grammar.
Variable tbl : operation.
Hypothesis Hok : table_ok tbl.
Notation respects := (respects tbl). Notation respects_sp := (respects_sp tbl).

(** Sub-operations with their place. *)
Inductive sub : operation -> nat -> list nat -> Prop :=
| sub_root : sub tbl 0 []
| sub_operand id k lits o a p : sub (OOp id k lits o) a p -> sub o (S a) p
| sub_alternative gs i o a p : sub (OGroups gs) a p -> nth_error gs i = Some o -> sub o a (p ++ [i]).

Lemma in_alts a p gs d : forall i, In d (alts a p i gs) <->
  exists j o, nth_error gs j = Some o /\ In d (decls o a (p ++ [i + j])).
Proof.
  induction gs as [|o gs IH]; intros i; cbn [alts].
  - split; [intros []|]. intros (j & o & H & _). destruct j; discriminate.
  - rewrite in_app_iff, IH. split.
    + intros [H|(j & o' & H & Hd)].
      * exists 0, o. rewrite Nat.add_0_r. auto.
      * exists (S j), o'. replace (i + S j) with (S i + j) by lia. auto.
    + intros (j & o' & H & Hd). destruct j as [|j].
      * left. cbn in H. injection H as <-. rewrite Nat.add_0_r in Hd. exact Hd.
      * right. exists j, o'. replace (i + S j) with (S i + j) in Hd by lia. auto.
Qed.
Lemma in_groups a p gs d : In d (decls (OGroups gs) a p) <->
  exists j o, nth_error gs j = Some o /\ In d (decls o a (p ++ [j])).
Proof. rewrite decls_groups. apply (in_alts a p gs d 0). Qed.

Lemma sub_declared o a p : sub o a p -> forall d, In d (decls o a p) -> declared tbl d.
Proof.
  induction 1 as [|id k lits o a p _ IH|gs i o a p _ IH Hn]; intros d Hd.
  - exact Hd.
  - apply IH. right. exact Hd.
  - apply IH. apply in_groups. eauto.
Qed.
Lemma sub_self id k lits o a p : sub (OOp id k lits o) a p -> declared tbl (Decl id k lits (S a) p).
Proof. intros H. apply (sub_declared _ _ _ H). left. reflexivity. Qed.

(** What is deeper in the same groups is in the sub-operation. *)
Lemma sub_complete o a p : sub o a p -> forall d, declared tbl d -> a < d_level d ->
  (exists q, d_group d = p ++ q) -> In d (decls o a p).
Proof.
  induction 1 as [|id k lits o a p _ IH|gs i o a p _ IH Hn]; intros d Hd Hl (q & Hq).
  - exact Hd.
  - destruct (IH d Hd ltac:(lia) ltac:(eauto)) as [<-|H]; [cbn in Hl; lia|exact H].
  - specialize (IH d Hd Hl). rewrite <- app_assoc in Hq. specialize (IH ltac:(eauto)).
    apply in_groups in IH. destruct IH as (j & o' & Hn' & Hd').
    destruct (decls_path _ _ _ _ Hd') as (q' & E). rewrite Hq, <- app_assoc in E. apply app_inv_head in E.
    cbn in E. injection E as <- _. rewrite Hn in Hn'. injection Hn' as <-. exact Hd'.
Qed.
Lemma outer_level : forall o a p d d', In d (decls o a p) -> In d' (decls o a p) ->
  d_group d = p -> d_group d' <> p -> d_level d < d_level d'.
Proof.
  induction o as [|gs IH|id k lits o IH] using operation_ind'; intros a p d d' H H' Eg Eg'.
  - contradiction.
  - rewrite decls_groups in H. apply alts_path in H. destruct H as (j & q & _ & E). exfalso.
    rewrite E in Eg. symmetry in Eg. rewrite <- (app_nil_r p) in Eg at 1. apply app_inv_head in Eg. discriminate.
  - cbn in H, H'. destruct H' as [<-|H']; [cbn in Eg'; congruence|].
    destruct H as [<-|H].
    + cbn. apply decls_level in H'. exact H'.
    + exact (IH _ _ _ _ H H' Eg Eg').
Qed.

(** ** The grammar respects levels and associativity *)
Definition within (o : operation) (a : nat) (p : list nat) (q : nat) : Prop :=
  exists d, In d (decls o a p) /\ d_id d = q.
Lemma within_operand id k lits o a p q : within o (S a) p q -> within (OOp id k lits o) a p q.
Proof. intros (d & H & E). exists d. split; [right; exact H|exact E]. Qed.
Lemma within_op id k lits o a p q : within (OOp id k lits o) a p q -> q = id \/ within o (S a) p q.
Proof. intros (d & [<-|H] & E); [left; symmetry; exact E|right; exists d; auto]. Qed.
Lemma within_tighter id k lits o a p q : sub (OOp id k lits o) a p -> within o (S a) p q -> tighter tbl q id.
Proof.
  intros Hs (d & H & E). exists d, (Decl id k lits (S a) p).
  split; [apply (sub_declared _ _ _ (sub_operand _ _ _ _ _ _ Hs)); exact H|]. split; [exact (sub_self _ _ _ _ _ _ Hs)|].
  split; [exact E|]. split; [reflexivity|]. apply decls_level in H. cbn. exact H.
Qed.
Lemma self_kind id k lits o a p : sub (OOp id k lits o) a p -> kind_of tbl id k.
Proof. intros Hs. exists (Decl id k lits (S a) p). split; [exact (sub_self _ _ _ _ _ _ Hs)|]. auto. Qed.
Lemma kind_fun id k k' : kind_of tbl id k -> kind_of tbl id k' -> k = k'.
Proof. intros (d & A & B & <-) H. exact (kind_unique tbl Hok d id k' A B H). Qed.
Lemma of_kind_self P id k : kind_of tbl id k -> of_kind tbl P id -> P k.
Proof.
  intros H (d & A & B & C). rewrite (kind_unique tbl Hok d id k A B H) in C. exact C.
Qed.

Lemma Forall_edge (P Q : nat -> Prop) l l' : incl l l' -> (forall q, P q -> Q q) -> Forall P l' -> Forall Q l.
Proof. intros H1 H2. rewrite !Forall_forall. auto. Qed.

Lemma grammar_respects_all :
  (forall o t, grammar o t -> forall a p, sub o a p -> respects t /\ Forall (within o a p) (ops t)) /\
  (forall id o sp, items id o sp -> forall lits a p, sub (OOp id IList lits o) a p ->
     respects_sp sp /\ Forall (fun q => q = id \/ within o (S a) p q) (ops_sp sp) /\
     Forall (within o (S a) p) (ops (last_operand sp)) /\ match sp with SOne _ => True | SMore _ q _ => o_id q = id end).
Proof.
  apply grammar_items_ind.
  - intros b e a p _. cbn. auto.
  - intros gs o t Hin _ IH a p Hs. apply In_nth_error in Hin. destruct Hin as (i & Hn).
    destruct (IH _ _ (sub_alternative _ _ _ _ _ Hs Hn)) as (R & W). split; [exact R|].
    eapply Forall_impl; [|exact W]. intros q (d & H & E). exists d. split; [|exact E]. apply in_groups. eauto.
  - intros id k lits o t _ IH a p Hs. destruct (IH _ _ (sub_operand _ _ _ _ _ _ Hs)) as (R & W). split; [exact R|].
    eapply Forall_impl; [|exact W]. intros q. apply within_operand.
  - (* left *) intros id lits o l q r <- _ IHl _ IHr a p Hs. destruct (IHl _ _ Hs) as (Rl & Wl).
    destruct (IHr _ _ (sub_operand _ _ _ _ _ _ Hs)) as (Rr & Wr).
    destruct (proj1 edges_ops l) as (_ & _ & I3). destruct (proj1 edges_ops r) as (I1 & I2 & _).
    pose proof (self_kind _ _ _ _ _ _ Hs) as K. split.
    + cbn. split; [auto|]. split; [exact Rl|]. split; [exact Rr|]. split; [|split].
      * eapply Forall_edge; [exact I3| |exact Wl]. intros x Hx. apply within_op in Hx. destruct Hx as [->|Hx]; [auto|].
        left. exact (within_tighter _ _ _ _ _ _ _ Hs Hx).
      * eapply Forall_edge; [exact I1| |exact Wr]. intros x Hx. left. exact (within_tighter _ _ _ _ _ _ _ Hs Hx).
      * eapply Forall_edge; [exact I2| |exact Wr]. intros x Hx. exact (within_tighter _ _ _ _ _ _ _ Hs Hx).
    + cbn. apply Forall_app. split; [exact Wl|]. constructor; [exists (Decl (o_id q) ILeft lits (S a) p); split; [left|]; reflexivity|].
      eapply Forall_impl; [|exact Wr]. intros x. apply within_operand.
  - (* right *) intros id lits o l q r <- _ IHl _ IHr a p Hs. destruct (IHr _ _ Hs) as (Rr & Wr).
    destruct (IHl _ _ (sub_operand _ _ _ _ _ _ Hs)) as (Rl & Wl).
    destruct (proj1 edges_ops l) as (_ & _ & I3). destruct (proj1 edges_ops r) as (I1 & I2 & _).
    pose proof (self_kind _ _ _ _ _ _ Hs) as K. split.
    + cbn. split; [auto|]. split; [exact Rl|]. split; [exact Rr|]. split; [|split].
      * eapply Forall_edge; [exact I3| |exact Wl]. intros x Hx. left. exact (within_tighter _ _ _ _ _ _ _ Hs Hx).
      * eapply Forall_edge; [exact I1| |exact Wr]. intros x Hx. apply within_op in Hx. destruct Hx as [->|Hx]; [auto|].
        left. exact (within_tighter _ _ _ _ _ _ _ Hs Hx).
      * destruct (proj1 (kinded_edges tbl) r (proj1 (respects_kinded tbl) r Rr)) as (_ & B & _).
        pose proof (Forall_incl _ _ _ I2 Wr) as W2. rewrite Forall_forall in *. intros x Hx. specialize (B x Hx).
        destruct (within_op _ _ _ _ _ _ _ (W2 x Hx)) as [->|H]; [|exact (within_tighter _ _ _ _ _ _ _ Hs H)].
        pose proof (of_kind_self _ _ _ K B) as E. discriminate.
    + cbn. apply Forall_app. split; [eapply Forall_impl; [|exact Wl]; intros x; apply within_operand|].
      constructor; [exists (Decl (o_id q) IRight lits (S a) p); split; [left|]; reflexivity|]. exact Wr.
  - (* single *) intros id lits o l q r <- _ IHl _ IHr a p Hs. destruct (IHr _ _ (sub_operand _ _ _ _ _ _ Hs)) as (Rr & Wr).
    destruct (IHl _ _ (sub_operand _ _ _ _ _ _ Hs)) as (Rl & Wl).
    destruct (proj1 edges_ops l) as (_ & _ & I3). destruct (proj1 edges_ops r) as (I1 & I2 & _).
    pose proof (self_kind _ _ _ _ _ _ Hs) as K. split.
    + cbn. split; [auto|]. split; [exact Rl|]. split; [exact Rr|]. split; [|split].
      * eapply Forall_edge; [exact I3| |exact Wl]. intros x Hx. left. exact (within_tighter _ _ _ _ _ _ _ Hs Hx).
      * eapply Forall_edge; [exact I1| |exact Wr]. intros x Hx. left. exact (within_tighter _ _ _ _ _ _ _ Hs Hx).
      * eapply Forall_edge; [exact I2| |exact Wr]. intros x Hx. exact (within_tighter _ _ _ _ _ _ _ Hs Hx).
    + cbn. apply Forall_app. split; [eapply Forall_impl; [|exact Wl]; intros x; apply within_operand|].
      constructor; [exists (Decl (o_id q) ISingle lits (S a) p); split; [left|]; reflexivity|].
      eapply Forall_impl; [|exact Wr]. intros x. apply within_operand.
  - (* prefix *) intros id lits o q t <- _ IH a p Hs. destruct (IH _ _ Hs) as (R & W).
    destruct (proj1 edges_ops t) as (I1 & I2 & _). pose proof (self_kind _ _ _ _ _ _ Hs) as K. split.
    + cbn. split; [exact K|]. split; [exact R|]. split.
      * destruct (proj1 (kinded_edges tbl) t (proj1 (respects_kinded tbl) t R)) as (A & _).
        pose proof (Forall_incl _ _ _ I1 W) as W2. rewrite Forall_forall in *. intros x Hx. specialize (A x Hx).
        destruct (within_op _ _ _ _ _ _ _ (W2 x Hx)) as [->|H]; [|exact (within_tighter _ _ _ _ _ _ _ Hs H)].
        pose proof (of_kind_self _ _ _ K A) as E. discriminate.
      * eapply Forall_edge; [exact I2| |exact W]. intros x Hx. apply within_op in Hx. destruct Hx as [->|Hx]; [auto|].
        left. exact (within_tighter _ _ _ _ _ _ _ Hs Hx).
    + cbn. constructor; [exists (Decl (o_id q) KPre lits (S a) p); split; [left|]; reflexivity|exact W].
  - (* postfix *) intros id lits o q t <- _ IH a p Hs. destruct (IH _ _ Hs) as (R & W).
    destruct (proj1 edges_ops t) as (_ & _ & I3). pose proof (self_kind _ _ _ _ _ _ Hs) as K. split.
    + cbn. split; [exact K|]. split; [exact R|].
      destruct (proj1 (kinded_edges tbl) t (proj1 (respects_kinded tbl) t R)) as (_ & _ & C & _).
      pose proof (Forall_incl _ _ _ I3 W) as W2. rewrite Forall_forall in *. intros x Hx. specialize (C x Hx).
      destruct (within_op _ _ _ _ _ _ _ (W2 x Hx)) as [->|H]; [|exact (within_tighter _ _ _ _ _ _ _ Hs H)].
      exfalso. exact (of_kind_self _ _ _ K C eq_refl).
    + cbn. apply Forall_app. split; [exact W|].
      constructor; [exists (Decl (o_id q) KPost lits (S a) p); split; [left|]; reflexivity|constructor].
  - (* list *) intros id lits o sp q t <- _ IHsp _ IHt a p Hs.
    destruct (IHsp _ _ _ Hs) as (R & W & Wl & Hi). destruct (IHt _ _ (sub_operand _ _ _ _ _ _ Hs)) as (Rt & Wt).
    destruct (proj1 edges_ops t) as (I1 & I2 & _). destruct (proj1 edges_ops (last_operand sp)) as (_ & _ & I3).
    pose proof (self_kind _ _ _ _ _ _ Hs) as K. split.
    + split; [reflexivity|]. split; [exists sp, q, t; auto|].
      refine (conj R (conj Rt (conj _ (conj _ _)))).
      * destruct sp as [x|sp' o' x]; exists x; [auto|]. right. exists sp', o'. auto.
      * eapply Forall_edge; [exact I3| |exact Wl]. intros x Hx. exact (within_tighter _ _ _ _ _ _ _ Hs Hx).
      * apply Forall_app. split.
        -- eapply Forall_edge; [exact I1| |exact Wt]. intros x Hx. exact (within_tighter _ _ _ _ _ _ _ Hs Hx).
        -- eapply Forall_edge; [exact I2| |exact Wt]. intros x Hx. exact (within_tighter _ _ _ _ _ _ _ Hs Hx).
    + cbn. apply Forall_app. split.
      * eapply Forall_impl; [|exact W]. intros x [->|Hx]; [|now apply within_operand].
        exists (Decl (o_id q) IList lits (S a) p). split; [left|]; reflexivity.
      * constructor; [exists (Decl (o_id q) IList lits (S a) p); split; [left|]; reflexivity|].
        eapply Forall_impl; [|exact Wt]. intros x. apply within_operand.
  - intros id o t _ IH lits a p Hs. destruct (IH _ _ (sub_operand _ _ _ _ _ _ Hs)) as (R & W).
    split; [exact R|]. split; [cbn; eapply Forall_impl; [|exact W]; auto|]. split; [exact W|exact I].
  - intros id o sp q t <- _ IHsp _ IHt lits a p Hs.
    destruct (IHsp _ _ _ Hs) as (R & W & Wl & Hi). destruct (IHt _ _ (sub_operand _ _ _ _ _ _ Hs)) as (Rt & Wt).
    destruct (proj1 edges_ops t) as (I1 & I2 & _). destruct (proj1 edges_ops (last_operand sp)) as (_ & _ & I3).
    split; [|split; [|split; [exact Wt|reflexivity]]].
    + refine (conj R (conj Rt (conj _ (conj _ _)))).
      * destruct sp as [x|sp' o' x]; exists x; [auto|]. right. exists sp', o'. auto.
      * eapply Forall_edge; [exact I3| |exact Wl]. intros x Hx. exact (within_tighter _ _ _ _ _ _ _ Hs Hx).
      * apply Forall_app. split.
        -- eapply Forall_edge; [exact I1| |exact Wt]. intros x Hx. exact (within_tighter _ _ _ _ _ _ _ Hs Hx).
        -- eapply Forall_edge; [exact I2| |exact Wt]. intros x Hx. exact (within_tighter _ _ _ _ _ _ _ Hs Hx).
    + cbn. apply Forall_app. split; [exact W|]. constructor; [auto|]. eapply Forall_impl; [|exact Wt]. auto.
Qed.

Lemma grammar_respects t : grammar tbl t -> respects t.
Proof. intros H. exact (proj1 (proj1 grammar_respects_all _ _ H 0 [] sub_root)). Qed.

(** ** Trees that respect levels and associativity are in the grammar *)
Hypothesis Htight : tight_postfix tbl.

Definition root_op (t : tree) : list nat :=
  match t with
  | Leaf _ _ => []
  | Pre o _ | Post _ o | Inf _ o _ => [o_id o]
  | Lst (SMore _ o _) _ => [o_id o]
  | Lst (SOne _) _ => []
  end.

Lemma leaf_grammar : forall o, groups_ok o -> forall b e, grammar o (Leaf b e).
Proof.
  induction o as [|gs IH|id k lits o IH] using operation_ind'; intros Hg b e.
  - constructor.
  - destruct gs as [|o gs]; [destruct Hg; congruence|]. destruct Hg as (_ & Hg & _). apply Forall_inv in IH.
    eapply G_alternative; [left; reflexivity|]. auto.
  - apply G_operand. auto.
Qed.
Lemma groups_ok_in gs o : groups_ok (OGroups gs) -> In o gs -> groups_ok o.
Proof.
  intros (_ & H). induction gs as [|o' gs IH]; intros Hin; [contradiction|].
  destruct H as (H1 & H2). destruct Hin as [->|Hin]; auto.
Qed.

Section Group.
Variable g : list nat.
Notation in_g := (in_g tbl g).

(** A tighter operator that is not of another group is declared below. *)
Lemma tighter_within id k lits o a p q : sub (OOp id k lits o) a p -> in_g id -> in_g q -> tighter tbl q id ->
  within o (S a) p q.
Proof.
  intros Hs (d0 & H0 & E0 & G0) (dq & Hq & Eq & Gq) T.
  pose proof (sub_self _ _ _ _ _ _ Hs) as Hself.
  assert (d0 = Decl id k lits (S a) p) by (apply (declared_id tbl Hok); auto). subst d0. cbn [d_group] in G0.
  apply (tighter_levels tbl Hok _ _ dq _ Hq Hself Eq eq_refl) in T. cbn [d_level] in T.
  exists dq. split; [|exact Eq]. apply (sub_complete _ _ _ (sub_operand _ _ _ _ _ _ Hs) _ Hq T).
  destruct Gq as [Gq|Gq], G0 as [G0|G0]; rewrite Gq; rewrite G0 in *.
  - exists []. reflexivity.
  - destruct g as [|i r] eqn:Eg; [exists []; reflexivity|]. exfalso.
    pose proof (outer_level tbl 0 [] dq _ Hq Hself Gq ltac:(discriminate)) as L. cbn in L. lia.
  - exists g. reflexivity.
  - exists []. now rewrite app_nil_r.
Qed.

(** The operator of an operand is at its edges, unless it is a postfix operator. *)
Lemma root_right t : respects t -> Forall (fun q => In q (right_edge t) \/ kind_of tbl q KPost) (root_op t).
Proof.
  destruct t as [| | | |[|]]; cbn [root_op]; intros H; constructor; auto; cbn [right_edge]; try (left; left; reflexivity).
  right. apply H.
Qed.
Lemma root_left t : Forall (fun q => In q (left_edge t) \/ In q (left_prefix t)) (root_op t).
Proof.
  destruct t as [| | | |[|]]; cbn [root_op]; constructor; auto; cbn; auto.
Qed.
Lemma root_ops t : incl (root_op t) (ops t).
Proof.
  intros q. destruct t as [|o t|t o|l o r|[t|sp o t] d]; cbn; try tauto; intros [->|[]]; rewrite ?in_app_iff; cbn; auto.
Qed.
(** A postfix operator is tighter than any other operator it is combined with. *)
Lemma postfix_tighter q id k : in_g q -> in_g id -> kind_of tbl q KPost -> kind_of tbl id k -> is_pre k = false ->
  tighter tbl q id \/ q = id.
Proof.
  intros Gq Gid (dq & Hq & Eq & Kq) (d & Hd & Ed & Kd) Hk.
  pose proof (Htight dq d Hq Hd Kq ltac:(congruence)) as L.
  destruct (Nat.eq_dec (d_level dq) (d_level d)) as [E|E].
  - right. pose proof (linear tbl Hok g q id dq d Gq Gid Hq Hd Eq Ed E). congruence.
  - left. exists dq, d. repeat split; auto. lia.
Qed.

Definition below (o : operation) (a : nat) (p : list nat) (t : tree) : Prop := Forall (within o a p) (root_op t).

(** Operands on the left and on the right. *)
Lemma left_below id k lits o a p l : sub (OOp id k lits o) a p -> is_pre k = false -> in_g id -> Forall in_g (ops l) ->
  respects l -> k <> KPost -> Forall (fun q => tighter tbl q id) (right_edge l) -> below o (S a) p l.
Proof.
  intros Hs Hk Gid Gl R Hkp H. pose proof (self_kind _ _ _ _ _ _ Hs) as K.
  pose proof (root_right l R) as Hr. pose proof (root_ops l) as Hi. unfold below. rewrite Forall_forall in *.
  intros q Hq. apply (tighter_within id k lits); auto.
  destruct (Hr q Hq) as [He|Kq]; [auto|].
  destruct (postfix_tighter q id k ltac:(auto) Gid Kq K Hk) as [T|E]; [exact T|].
  exfalso. rewrite E in Kq. apply Hkp. exact (kind_fun _ _ _ K Kq).
Qed.
Lemma right_below id k lits o a p r : sub (OOp id k lits o) a p -> in_g id -> Forall in_g (ops r) ->
  Forall (fun q => tighter tbl q id) (left_edge r) -> Forall (fun q => tighter tbl q id) (left_prefix r) ->
  below o (S a) p r.
Proof.
  intros Hs Gid Gr H1 H2. pose proof (root_left r) as Hr. pose proof (root_ops r) as Hi. unfold below.
  rewrite Forall_forall in *. intros q Hq. apply (tighter_within id k lits); auto.
  destruct (Hr q Hq) as [He|He]; auto.
Qed.

Lemma respects_grammar_sub : forall o, groups_ok o -> forall a p, sub o a p -> forall t, respects t ->
  Forall in_g (ops t) -> below o a p t -> grammar o t.
Proof.
  induction o as [|gs IH|id k lits o IH] using operation_ind'; intros Hg a p Hs.
  - intros t R _ B. destruct t as [b e|o t|t o|l o r|[t|sp o t] d].
    + constructor.
    + apply Forall_inv in B. destruct B as (? & [] & _).
    + apply Forall_inv in B. destruct B as (? & [] & _).
    + apply Forall_inv in B. destruct B as (? & [] & _).
    + destruct R as (_ & (? & ? & ? & E & _) & _). discriminate.
    + apply Forall_inv in B. destruct B as (? & [] & _).
  - intros t R G B. destruct (root_op t) as [|q l] eqn:Er.
    + assert (exists b e, t = Leaf b e) as (b & e & ->).
      { destruct t as [b e|o t|t o|l o r|[t|sp o t] d]; try discriminate; [eauto|].
        destruct R as (_ & (? & ? & ? & E & _) & _). discriminate. }
      now apply leaf_grammar.
    + unfold below in B. rewrite Er in B. pose proof (Forall_inv B) as (d & Hd & Eq).
      apply in_groups in Hd. destruct Hd as (j & o & Hn & Hd).
      pose proof (nth_error_In _ _ Hn) as Hin. rewrite Forall_forall in IH.
      eapply G_alternative; [exact Hin|]. apply (IH o Hin (groups_ok_in _ _ Hg Hin) a (p ++ [j])); auto.
      * exact (sub_alternative _ _ _ _ _ Hs Hn).
      * unfold below. rewrite Er.
        assert (l = []) as -> by (destruct t as [|?|?|?|[?|?] ?]; cbn in Er; congruence).
        constructor; [exists d; auto|constructor].
  - cbn in Hg. specialize (IH Hg (S a) p (sub_operand _ _ _ _ _ _ Hs)).
    pose proof (self_kind _ _ _ _ _ _ Hs) as K.
    assert (Down : forall t, respects t -> Forall in_g (ops t) -> ~ In id (root_op t) -> below (OOp id k lits o) a p t ->
                   grammar (OOp id k lits o) t).
    { intros t R G Hn B. apply G_operand. apply IH; auto. unfold below in *. rewrite Forall_forall in *. intros q Hq.
      destruct (within_op _ _ _ _ _ _ _ (B q Hq)) as [->|H]; [contradiction|exact H]. }
    assert (Self : forall t, below o (S a) p t -> below (OOp id k lits o) a p t).
    { intros t. apply Forall_impl. intros q. apply within_operand. }
    assert (Both : (forall t, respects t -> Forall in_g (ops t) -> below (OOp id k lits o) a p t -> grammar (OOp id k lits o) t) /\
      (forall sp, respects_sp sp -> Forall in_g (ops_sp sp) -> k = IList -> in_g id ->
         below o (S a) p (last_operand sp) ->
         match sp with SOne _ => True | SMore _ q _ => o_id q = id end -> items id o sp)).
    { apply tree_spine_ind.
      - intros b e _ _ _. now apply leaf_grammar.
      - intros q t IHt R G B. destruct (Nat.eq_dec (o_id q) id) as [E|E]; [|apply Down; auto; cbn; intuition congruence].
        cbn in R. destruct R as (Kq & R & H1 & H2). rewrite E in *.
        pose proof (kind_fun _ _ _ K Kq) as ->. apply G_prefix; [exact E|]. cbn in G. rewrite E in G.
        pose proof (Forall_inv G) as Gid. apply Forall_inv_tail in G.
        apply IHt; auto. pose proof (root_left t) as Hr. pose proof (root_ops t) as Hi. unfold below.
        rewrite Forall_forall in *. intros x Hx. destruct (Hr x Hx) as [He|He].
        + apply within_operand. apply (tighter_within id KPre lits); auto.
        + destruct (H2 x He) as [T| ->].
          * apply within_operand. apply (tighter_within id KPre lits); auto.
          * exists (Decl id KPre lits (S a) p). split; [left|]; reflexivity.
      - intros t IHt q R G B. destruct (Nat.eq_dec (o_id q) id) as [E|E]; [|apply Down; auto; cbn; intuition congruence].
        cbn in R. destruct R as (Kq & R & H1). rewrite E in *.
        pose proof (kind_fun _ _ _ K Kq) as ->. apply G_postfix; [exact E|]. cbn in G. rewrite E in G.
        apply Forall_app in G. destruct G as (G & Gid). apply Forall_inv in Gid.
        apply IHt; auto. pose proof (root_right t R) as Hr. pose proof (root_ops t) as Hi. unfold below.
        rewrite Forall_forall in *. intros x Hx. destruct (Hr x Hx) as [He|He].
        + apply within_operand. apply (tighter_within id KPost lits); auto.
        + destruct (postfix_tighter x id KPost (G x (Hi x Hx)) Gid He K eq_refl) as [T| ->].
          * apply within_operand. apply (tighter_within id KPost lits); auto.
          * exists (Decl id KPost lits (S a) p). split; [left|]; reflexivity.
      - intros l IHl q r IHr R G B. destruct (Nat.eq_dec (o_id q) id) as [E|E]; [|apply Down; auto; cbn; intuition congruence].
        cbn in R. destruct R as (Kq & Rl & Rr & H1 & H2 & H3). rewrite E in *. cbn in G. rewrite E in G.
        apply Forall_app in G. destruct G as (Gl & G). apply Forall_cons_iff in G. destruct G as (Gid & Gr).
        assert (Tl : k <> ILeft -> k <> KPost -> is_pre k = false -> grammar o l).
        { intros Hn1 Hn2 Hp. apply IH; auto. apply (left_below id k lits); auto.
          eapply Forall_impl; [|exact H1]. intros x [T|(-> & Kx)]; [exact T|].
          contradiction (Hn1 (kind_fun _ _ _ K Kx)). }
        assert (Tr : k <> IRight -> grammar o r).
        { intros Hn1. apply IH; auto. apply (right_below id k lits); auto.
          eapply Forall_impl; [|exact H2]. intros x [T|(-> & Kx)]; [exact T|].
          contradiction (Hn1 (kind_fun _ _ _ K Kx)). }
        destruct Kq as [Kq|[Kq|Kq]]; pose proof (kind_fun _ _ _ K Kq) as ->.
        + apply G_left; [exact E| |apply Tr; discriminate]. apply IHl; auto.
          pose proof (root_right l Rl) as Hr. pose proof (root_ops l) as Hi. unfold below.
          rewrite Forall_forall in *. intros x Hx. destruct (Hr x Hx) as [He|He].
          * destruct (H1 x He) as [T|(-> & _)].
            -- apply within_operand. apply (tighter_within id ILeft lits); auto.
            -- exists (Decl id ILeft lits (S a) p). split; [left|]; reflexivity.
          * destruct (postfix_tighter x id ILeft (Gl x (Hi x Hx)) Gid He K eq_refl) as [T| ->].
            -- apply within_operand. apply (tighter_within id ILeft lits); auto.
            -- exists (Decl id ILeft lits (S a) p). split; [left|]; reflexivity.
        + apply G_right; [exact E|apply Tl; (discriminate || reflexivity)|]. apply IHr; auto.
          pose proof (root_left r) as Hr. pose proof (root_ops r) as Hi. unfold below.
          rewrite Forall_forall in *. intros x Hx. destruct (Hr x Hx) as [He|He].
          * destruct (H2 x He) as [T|(-> & _)].
            -- apply within_operand. apply (tighter_within id IRight lits); auto.
            -- exists (Decl id IRight lits (S a) p). split; [left|]; reflexivity.
          * apply within_operand. apply (tighter_within id IRight lits); auto.
        + apply G_single; [exact E|apply Tl; (discriminate || reflexivity)|apply Tr; discriminate].
      - intros sp IHsp d R G B. destruct R as (-> & (sp' & q & v & -> & Kq) & R).
        destruct (Nat.eq_dec (o_id q) id) as [E|E].
        2:{ apply Down; auto; [|cbn; intuition congruence]. split; [reflexivity|]. split; [|exact R]. exists sp', q, v. auto. }
        rewrite E in Kq. pose proof (kind_fun _ _ _ K Kq) as ->.
        cbn [ops] in G. pose proof G as G'. cbn in G'. apply Forall_app in G'. destruct G' as (_ & G').
        pose proof (Forall_inv G') as Gid. rewrite E in Gid. apply Forall_inv_tail in G'.
        assert (Hi : items id o (SMore sp' q v)).
        { apply IHsp; auto. destruct R as (_ & _ & _ & _ & H2). apply Forall_app in H2. destruct H2 as (H2 & H3).
          rewrite E in H2, H3. apply (right_below id IList lits); auto. }
        inversion Hi; subst. apply G_list; auto.
      - intros t _ R G _ _ B _. apply I_one. apply IH; auto.
      - intros sp IHsp q t _ (R & Rt & Hx & H1 & H2) G Hk Gid B E. cbn in G. apply Forall_app in G. destruct G as (Gs & G).
        apply Forall_inv_tail in G. apply I_more; [exact E| |apply IH; auto].
        apply IHsp; auto.
        + rewrite E in H1. subst k. apply (left_below id IList lits); auto; try discriminate.
          * eapply Forall_incl; [|exact Gs]. destruct sp as [x|sp0 o0 x]; cbn; [apply incl_refl|].
            intros y Hy. apply in_or_app. right. right. exact Hy.
          * destruct sp as [x|sp0 o0 x]; [exact R|]. apply R.
        + destruct Hx as (x & [->|(sp0 & o0 & -> & E0)]); [exact I|congruence]. }
    apply Both.
Qed.
End Group.

Lemma respects_grammar t : groups_ok tbl -> respects t -> unmixed tbl t -> grammar tbl t.
Proof.
  intros Hg R (g & G). apply (respects_grammar_sub g tbl Hg 0 [] sub_root t R G).
  pose proof (root_ops t) as Hi. unfold below. rewrite Forall_forall in *. intros q Hq.
  destruct (G q (Hi q Hq)) as (d & Hd & E & _). exists d. auto.
Qed.
End Grammar.
