(** Binding powers and declared levels say the same; the grammar of a declaration. *)
From Verif Require Import Prelude ExprModel ExprSpec ExprTable ExprProofs ExprFuel ExprComplete.
Open Scope nat_scope.

Section Bridge.
Variable tbl : operation.
Hypothesis Hok : table_ok tbl.
Notation lb := (lb tbl). Notation rb := (rb tbl).
Notation follows := (follows tbl). Notation respb := (respb tbl). Notation respb_sp := (respb_sp tbl).
Notation respects := (respects tbl). Notation respects_sp := (respects_sp tbl).

(** Operators with the kind of their node. *)
Fixpoint kinded (t : tree) : Prop :=
  match t with
  | Leaf _ _ => True
  | Pre o r => kind_of tbl (o_id o) KPre /\ kinded r
  | Post l o => kind_of tbl (o_id o) KPost /\ kinded l
  | Inf l o r => (kind_of tbl (o_id o) ILeft \/ kind_of tbl (o_id o) IRight \/ kind_of tbl (o_id o) ISingle) /\
      kinded l /\ kinded r
  | Lst sp d => d = None /\ (exists sp' o v, sp = SMore sp' o v /\ kind_of tbl (o_id o) IList) /\ kinded_sp sp
  end
with kinded_sp (sp : spine) : Prop :=
  match sp with
  | SOne t => kinded t
  | SMore sp o t => kinded_sp sp /\ kinded t /\
      (exists x, sp = SOne x \/ exists sp' o', sp = SMore sp' o' x /\ o_id o' = o_id o)
  end.

Scheme tree_mut := Induction for tree Sort Prop with spine_mut := Induction for spine Sort Prop.
Combined Scheme tree_spine_ind from tree_mut, spine_mut.

Lemma respb_kinded : (forall t, respb t -> kinded t) /\ (forall sp, respb_sp sp -> kinded_sp sp).
Proof. apply tree_spine_ind; cbn; intros; intuition auto. Qed.
Lemma respects_kinded : (forall t, respects t -> kinded t) /\ (forall sp, respects_sp sp -> kinded_sp sp).
Proof. apply tree_spine_ind; cbn; intros; intuition auto. Qed.

(** The declaration of an operator of the tree. *)
Definition of_kind (P : opkind -> Prop) (id : nat) : Prop := exists d, declared tbl d /\ d_id d = id /\ P (d_kind d).
Lemma of_kind_impl (P Q : opkind -> Prop) id : (forall k, P k -> Q k) -> of_kind P id -> of_kind Q id.
Proof. intros H (d & A & B & C). exists d. auto. Qed.

Lemma kinded_list sp : kinded_sp sp ->
  (exists sp' o v, sp = SMore sp' o v /\ kind_of tbl (o_id o) IList) ->
  forall sp' o v, sp = SMore sp' o v -> kind_of tbl (o_id o) IList /\
    ((exists x, sp' = SOne x) \/ exists sp'' o' x, sp' = SMore sp'' o' x /\ kind_of tbl (o_id o') IList).
Proof.
  intros H (sp0 & o0 & v0 & E0 & K) sp' o v E. rewrite E in E0. injection E0 as <- <- <-. split; [exact K|].
  subst sp. cbn in H. destruct H as (_ & _ & x & [->|(sp'' & o' & -> & Eid)]); [left; eauto|right].
  exists sp'', o', x. rewrite Eid. auto.
Qed.
Definition listy (sp : spine) : Prop :=
  match sp with SOne _ => True | SMore _ o _ => kind_of tbl (o_id o) IList end.

Lemma kinded_edges :
  (forall t, kinded t ->
     Forall (of_kind (fun k => is_pre k = false)) (left_edge t) /\
     Forall (of_kind (fun k => k = KPre)) (left_prefix t) /\
     Forall (of_kind (fun k => k <> KPost)) (right_edge t) /\
     Forall (of_kind (fun _ => True)) (ops t)) /\
  (forall sp, kinded_sp sp -> listy sp ->
     Forall (of_kind (fun k => is_pre k = false)) (left_edge_sp sp) /\
     Forall (of_kind (fun k => k = KPre)) (left_prefix_sp sp) /\
     Forall (of_kind (fun k => k <> KPost)) (right_edge (Lst sp None)) /\
     Forall (of_kind (fun _ => True)) (ops_sp sp)).
Proof.
  assert (K : forall id k (P : opkind -> Prop), kind_of tbl id k -> P k -> of_kind P id).
  { intros id k P (d & A & B & <-) H. exists d. auto. }
  apply tree_spine_ind.
  - intros. cbn. repeat split; constructor.
  - intros o t IH (Hk & Ht). destruct (IH Ht) as (A & B & C & D). cbn. repeat split; try constructor; auto;
      eapply K; try exact Hk; cbn; auto; try discriminate; try constructor.
  - intros t IH o (Hk & Ht). destruct (IH Ht) as (A & B & C & D). cbn.
    split; [constructor; [eapply K; [exact Hk|reflexivity]|exact A]|]. split; [exact B|]. split; [constructor|].
    apply Forall_app. split; [exact D|]. constructor; [eapply K; [exact Hk|exact I]|constructor].
  - intros l IHl o r IHr (Hk & Hl & Hr). destruct (IHl Hl) as (A & B & C & D). destruct (IHr Hr) as (A' & B' & C' & D').
    assert (Hk' : of_kind (fun k => is_pre k = false /\ k <> KPost) (o_id o)).
    { destruct Hk as [Hk|[Hk|Hk]]; (eapply K; [exact Hk|]); split; (reflexivity || discriminate). }
    cbn. split; [constructor; [eapply of_kind_impl; [|exact Hk']; tauto|exact A]|]. split; [exact B|].
    split; [constructor; [eapply of_kind_impl; [|exact Hk']; tauto|exact C']|].
    apply Forall_app. split; [exact D|]. constructor; [eapply of_kind_impl; [|exact Hk']; auto|exact D'].
  - intros sp IH dangling (-> & Hex & Hsp). cbn [left_edge left_prefix ops].
    destruct (IH Hsp) as (A & B & C & D); [|auto]. destruct Hex as (sp' & o & v & -> & Hk). exact Hk.
  - intros t IH Ht _. cbn in Ht. destruct (IH Ht) as (A & B & C & D). cbn. auto.
  - intros sp IHsp o t IHt (Hsp & Ht & Hx) Hl. cbn in Hl.
    destruct (IHt Ht) as (A' & B' & C' & D').
    destruct (IHsp Hsp) as (A & B & C & D).
    { destruct Hx as (x & [->|(sp' & o' & -> & E)]); [exact I|]. cbn. rewrite E. exact Hl. }
    cbn. split; [constructor; [eapply K; [exact Hl|reflexivity]|exact A]|]. split; [exact B|].
    split; [constructor; [eapply K; [exact Hl|discriminate]|exact C']|].
    apply Forall_app. split; [exact D|]. constructor; [eapply K; [exact Hl|exact I]|exact D'].
Qed.

Lemma last_operand_edge sp : listy sp -> kinded_sp sp ->
  Forall (of_kind (fun k => k <> KPost)) (right_edge (last_operand sp)).
Proof.
  intros Hl Hk. pose proof (proj2 kinded_edges sp Hk Hl) as (_ & _ & H & _). destruct sp as [t|sp o t]; cbn in *; [exact H|].
  apply Forall_inv_tail in H. exact H.
Qed.

Ltac powers d Hd := rewrite ?(lb_power tbl Hok d Hd), ?(rb_power tbl Hok d Hd) in *.
Lemma same d d' : declared tbl d -> declared tbl d' -> d_id d = d_id d' -> d = d'.
Proof. apply (declared_id tbl Hok). Qed.

(** Facts about one pair of operators. *)
Lemma tighter_levels q o dq d : declared tbl dq -> declared tbl d -> d_id dq = q -> d_id d = o ->
  tighter tbl q o <-> d_level d < d_level dq.
Proof.
  intros Hq Hd Eq Ed. split; [|intros; exists dq, d; auto].
  intros (dq' & d' & A & B & C & D & E). rewrite (same dq dq'), (same d d') by congruence. exact E.
Qed.
Lemma kind_unique d id k : declared tbl d -> d_id d = id -> kind_of tbl id k -> d_kind d = k.
Proof. intros Hd E (d' & Hd' & E' & <-). f_equal. apply same; congruence. Qed.
Lemma level_pos d : declared tbl d -> 1 <= d_level d.
Proof. intros H. apply (decls_level tbl 0 []) in H. lia. Qed.

(** ** Declared levels give binding powers *)
Lemma pair_right P q o : of_kind P q -> (forall k, P k -> is_pre k = false) -> of_kind (fun k => k <> KPost) o ->
  tighter tbl q o \/ (q = o /\ kind_of tbl q IRight) -> rb o <= lb q.
Proof.
  intros (dq & Hq & Eq & Kq) HP (d & Hd & Ed & Kd) H. specialize (HP _ Kq). subst q o.
  rewrite (rb_power tbl Hok d Hd), (lb_power tbl Hok dq Hq). unfold left_power, right_power.
  destruct H as [H|(E & H)].
  - apply (tighter_levels _ _ dq d) in H; auto. destruct (d_kind d), (d_kind dq); cbn in *; try discriminate; try lia; congruence.
  - pose proof (same dq d Hq Hd E) as <-. rewrite (kind_unique dq _ _ Hq eq_refl H). cbn. lia.
Qed.
Lemma pair_prefix q o : of_kind (fun k => k = KPre) q -> of_kind (fun _ => True) o ->
  tighter tbl q o \/ q = o -> rb o <= rb q.
Proof.
  intros (dq & Hq & Eq & Kq) (d & Hd & Ed & Kd) [H|E]; [|subst q o; rewrite E; lia]. subst q o.
  rewrite (rb_power tbl Hok d Hd), (rb_power tbl Hok dq Hq). unfold right_power.
  apply (tighter_levels _ _ dq d) in H; auto. rewrite Kq. destruct (d_kind d); cbn; lia.
Qed.
Lemma pair_left q o : of_kind (fun k => k <> KPost) q -> of_kind (fun k => is_pre k = false) o ->
  tighter tbl q o \/ (q = o /\ kind_of tbl q ILeft) -> follows q o.
Proof.
  intros (dq & Hq & Eq & Kq) (d & Hd & Ed & Kd) H. subst q o. unfold follows.
  rewrite (lb_power tbl Hok d Hd), (rb_power tbl Hok dq Hq). unfold left_power, right_power.
  destruct H as [H|(E & H)].
  - apply (tighter_levels _ _ dq d) in H; auto. split.
    + destruct (d_kind d), (d_kind dq); cbn in *; try discriminate; try lia; congruence.
    + intros E. rewrite (same dq d Hq Hd E) in H. lia.
  - pose proof (same dq d Hq Hd E) as <-. rewrite (kind_unique dq _ _ Hq eq_refl H). cbn. split; [lia|]. auto.
Qed.

Lemma Forall_mp {A} (P Q R : A -> Prop) l : (forall x, P x -> Q x -> R x) -> Forall P l -> Forall Q l -> Forall R l.
Proof. intros H HP HQ. rewrite Forall_forall in *. auto. Qed.

Lemma kind_of_kind id k (P : opkind -> Prop) : kind_of tbl id k -> P k -> of_kind P id.
Proof. intros (d & A & B & <-) H. exists d. auto. Qed.

Lemma respects_respb_all : (forall t, respects t -> respb t) /\
  (forall sp, respects_sp sp -> listy sp -> respb_sp sp).
Proof.
  apply tree_spine_ind.
  - cbn. auto.
  - intros o t IH (Hk & Ht & H1 & H2). cbn. destruct (proj1 kinded_edges t (proj1 respects_kinded t Ht)) as (A & B & _).
    split; [exact Hk|]. split; [auto|]. split.
    + eapply Forall_mp; [|exact A|exact H1]. intros q Hq H. eapply (pair_right _ q); [exact Hq|auto| |left; exact H].
      eapply kind_of_kind; [exact Hk|discriminate].
    + eapply Forall_mp; [|exact B|exact H2]. intros q Hq H. apply pair_prefix; auto. eapply kind_of_kind; [exact Hk|exact I].
  - intros t IH o (Hk & Ht & H1). cbn. destruct (proj1 kinded_edges t (proj1 respects_kinded t Ht)) as (_ & _ & C & _).
    split; [exact Hk|]. split; [auto|]. eapply Forall_mp; [|exact C|exact H1]. intros q Hq H. apply pair_left; auto.
    eapply kind_of_kind; [exact Hk|reflexivity].
  - intros l IHl o r IHr (Hk & Hl & Hr & H1 & H2 & H3). cbn.
    destruct (proj1 kinded_edges l (proj1 respects_kinded l Hl)) as (_ & _ & C & _).
    destruct (proj1 kinded_edges r (proj1 respects_kinded r Hr)) as (A & B & _).
    assert (Hk' : of_kind (fun k => is_pre k = false /\ k <> KPost) (o_id o)).
    { destruct Hk as [Hk|[Hk|Hk]]; (eapply kind_of_kind; [exact Hk|]); split; (reflexivity || discriminate). }
    split; [exact Hk|]. split; [auto|]. split; [auto|]. split; [|split].
    + eapply Forall_mp; [|exact C|exact H1]. intros q Hq H. apply pair_left; auto. eapply of_kind_impl; [|exact Hk']. tauto.
    + eapply Forall_mp; [|exact A|exact H2]. intros q Hq H. eapply (pair_right _ q); [exact Hq|auto| |exact H].
      eapply of_kind_impl; [|exact Hk']. tauto.
    + eapply Forall_mp; [|exact B|exact H3]. intros q Hq H. apply pair_prefix; auto. eapply of_kind_impl; [|exact Hk']. auto.
  - intros sp IH d (-> & Hex & Hsp). cbn. split; [reflexivity|]. split; [exact Hex|]. apply IH; [exact Hsp|].
    destruct Hex as (sp' & o & v & -> & Hk). exact Hk.
  - intros t IH H _. exact (IH H).
  - intros sp IHsp o t IHt (Hsp & Ht & Hx & H1 & H2) Hl. cbn in Hl.
    assert (Hl' : listy sp).
    { destruct Hx as (x & [->|(sp' & o' & -> & E)]); [exact I|]. cbn. rewrite E. exact Hl. }
    destruct (proj1 kinded_edges t (proj1 respects_kinded t Ht)) as (A & B & _).
    pose proof (last_operand_edge sp Hl' (proj2 respects_kinded sp Hsp)) as C.
    destruct (proj1 (Forall_app _ _ _) H2) as (H2a & H3). clear H2. rename H2a into H2.
    refine (conj (IHsp Hsp Hl') (conj (IHt Ht) (conj Hx (conj _ (conj _ _))))).
    + eapply Forall_mp; [|exact C|exact H1]. intros q Hq H. apply pair_left; auto. eapply kind_of_kind; [exact Hl|reflexivity].
    + eapply Forall_mp; [|exact A|exact H2]. intros q Hq H. eapply (pair_right _ q); [exact Hq|auto| |left; exact H].
      eapply kind_of_kind; [exact Hl|discriminate].
    + eapply Forall_mp; [|exact B|exact H3]. intros q Hq H. apply pair_prefix; auto. eapply kind_of_kind; [exact Hl|exact I].
Qed.

(** ** Binding powers give declared levels, for operators that are not mixed *)
Definition in_g (g : list nat) (id : nat) : Prop :=
  exists d, declared tbl d /\ d_id d = id /\ (d_group d = [] \/ d_group d = g).

Lemma linear g q o dq d : in_g g q -> in_g g o -> declared tbl dq -> declared tbl d -> d_id dq = q -> d_id d = o ->
  d_level dq = d_level d -> dq = d.
Proof.
  intros (dq' & A & B & C) (d' & A' & B' & C') Hq Hd Eq Ed El.
  rewrite (same dq' dq) in * by congruence. rewrite (same d' d) in * by congruence.
  apply (decls_linear tbl 0 []); auto. destruct C as [C|C], C' as [C'|C']; rewrite C, C'; auto.
Qed.

Lemma back_right g q o : in_g g q -> in_g g o -> of_kind (fun k => is_pre k = false) q -> of_kind (fun k => k <> KPost) o ->
  rb o <= lb q -> tighter tbl q o \/ (q = o /\ kind_of tbl q IRight).
Proof.
  intros Gq Go (dq & Hq & Eq & Kq) (d & Hd & Ed & Kd) H. rewrite <- Eq, <- Ed in H.
  rewrite (rb_power tbl Hok d Hd), (lb_power tbl Hok dq Hq) in H. unfold left_power, right_power in H.
  assert (L : d_level d <= d_level dq) by (destruct (d_kind d), (d_kind dq); cbn in *; try discriminate; try lia; congruence).
  destruct (Nat.eq_dec (d_level dq) (d_level d)) as [E|E].
  - right. pose proof (linear g q o dq d Gq Go Hq Hd Eq Ed E) as <-. split; [congruence|]. exists dq. split; [exact Hq|].
    split; [exact Eq|]. destruct (d_kind dq); cbn in *; try discriminate; try lia; congruence.
  - left. exists dq, d. repeat split; auto. lia.
Qed.
Lemma back_prefix g q o : in_g g q -> in_g g o -> of_kind (fun k => k = KPre) q -> of_kind (fun k => k <> KPost) o ->
  rb o <= rb q -> tighter tbl q o \/ q = o.
Proof.
  intros Gq Go (dq & Hq & Eq & Kq) (d & Hd & Ed & Kd) H. rewrite <- Eq, <- Ed in H.
  rewrite (rb_power tbl Hok d Hd), (rb_power tbl Hok dq Hq) in H. unfold right_power in H. rewrite Kq in H.
  assert (L : d_level d <= d_level dq) by (destruct (d_kind d); cbn in *; try lia; congruence).
  destruct (Nat.eq_dec (d_level dq) (d_level d)) as [E|E].
  - right. pose proof (linear g q o dq d Gq Go Hq Hd Eq Ed E) as <-. congruence.
  - left. exists dq, d. repeat split; auto. lia.
Qed.
Lemma back_left g q o : in_g g q -> in_g g o -> of_kind (fun k => k <> KPost) q -> of_kind (fun k => is_pre k = false) o ->
  follows q o -> tighter tbl q o \/ (q = o /\ kind_of tbl q ILeft).
Proof.
  intros Gq Go (dq & Hq & Eq & Kq) (d & Hd & Ed & Kd) (H & H'). rewrite <- Eq, <- Ed in H.
  rewrite (lb_power tbl Hok d Hd), (rb_power tbl Hok dq Hq) in H. unfold left_power, right_power in H.
  assert (L : d_level d <= d_level dq) by (destruct (d_kind d), (d_kind dq); cbn in *; try discriminate; try lia; congruence).
  destruct (Nat.eq_dec (d_level dq) (d_level d)) as [E|E].
  - right. pose proof (linear g q o dq d Gq Go Hq Hd Eq Ed E) as <-. split; [congruence|]. apply H'. congruence.
  - left. exists dq, d. repeat split; auto. lia.
Qed.

Lemma edges_ops :
  (forall t, incl (left_edge t) (ops t) /\ incl (left_prefix t) (ops t) /\ incl (right_edge t) (ops t)) /\
  (forall sp, incl (left_edge_sp sp) (ops_sp sp) /\ incl (left_prefix_sp sp) (ops_sp sp) /\
     incl (right_edge (last_operand sp)) (ops_sp sp) /\ incl (right_edge (Lst sp None)) (ops_sp sp)).
Proof.
  apply tree_spine_ind; unfold incl.
  - intros; cbn; tauto.
  - intros o t (A & B & C). cbn. repeat split; intros a; try tauto. intros [H|H]; auto. 
  - intros t (A & B & C) o. cbn. repeat split; intros a H; apply in_or_app.
    + destruct H as [H|H]; [right; cbn; auto|left; auto].
    + left. auto.
    + contradiction.
  - intros l (A & B & C) o r (A' & B' & C'). cbn. repeat split; intros a H; apply in_or_app; cbn.
    + destruct H as [H|H]; auto.
    + left; auto.
    + right. destruct H as [H|H]; auto.
  - intros sp (A & B & _ & C) d. split; [exact A|]. split; [exact B|]. exact C.
  - intros t (A & B & C). cbn. auto.
  - intros sp (A & B & _ & _) o t (A' & B' & C'). cbn. repeat split; intros a H; apply in_or_app; cbn.
    + destruct H as [H|H]; auto.
    + left; auto.
    + right. auto.
    + right. destruct H as [H|H]; auto.
Qed.

Lemma Forall_incl {A} (P : A -> Prop) l l' : incl l l' -> Forall P l' -> Forall P l.
Proof. intros H. rewrite !Forall_forall. auto. Qed.
Lemma Forall_and2 {A} (P Q R : A -> Prop) (S : A -> Prop) l :
  (forall x, P x -> Q x -> R x -> S x) -> Forall P l -> Forall Q l -> Forall R l -> Forall S l.
Proof. intros H. rewrite !Forall_forall. auto. Qed.

Lemma respb_respects_all g :
  (forall t, respb t -> Forall (in_g g) (ops t) -> respects t) /\
  (forall sp, respb_sp sp -> listy sp -> Forall (in_g g) (ops_sp sp) -> respects_sp sp).
Proof.
  apply tree_spine_ind.
  - cbn. auto.
  - intros o t IH (Hk & Ht & H1 & H2) Hg. cbn in Hg. apply Forall_cons_iff in Hg. destruct Hg as (Go & Gt). cbn.
    destruct (proj1 kinded_edges t (proj1 respb_kinded t Ht)) as (A & B & _). destruct (proj1 edges_ops t) as (I1 & I2 & I3).
    split; [exact Hk|]. split; [auto|]. split.
    + eapply (Forall_and2 _ _ _ _ (left_edge t)); [|exact A|exact (Forall_incl _ _ _ I1 Gt)|exact H1]. intros q Kq Gq H.
      destruct (back_right g q (o_id o) Gq Go Kq) as [T|(E & T)]; auto.
      * eapply kind_of_kind; [exact Hk|discriminate].
      * exfalso. rewrite E in T. destruct Hk as (d & Hd & Ed & K). rewrite (kind_unique d _ _ Hd Ed T) in K. discriminate.
    + eapply (Forall_and2 _ _ _ _ (left_prefix t)); [|exact B|exact (Forall_incl _ _ _ I2 Gt)|exact H2]. intros q Kq Gq H.
      apply (back_prefix g); auto. eapply kind_of_kind; [exact Hk|discriminate].
  - intros t IH o (Hk & Ht & H1) Hg. cbn in Hg. apply Forall_app in Hg. destruct Hg as (Gt & Go). apply Forall_inv in Go. cbn.
    destruct (proj1 kinded_edges t (proj1 respb_kinded t Ht)) as (_ & _ & C & _). destruct (proj1 edges_ops t) as (I1 & I2 & I3).
    split; [exact Hk|]. split; [auto|].
    eapply (Forall_and2 _ _ _ _ (right_edge t)); [|exact C|exact (Forall_incl _ _ _ I3 Gt)|exact H1]. intros q Kq Gq H.
    destruct (back_left g q (o_id o) Gq Go Kq) as [T|(E & T)]; auto.
    + eapply kind_of_kind; [exact Hk|reflexivity].
    + exfalso. rewrite E in T. destruct Hk as (d & Hd & Ed & K). rewrite (kind_unique d _ _ Hd Ed T) in K. discriminate.
  - intros l IHl o r IHr (Hk & Hl & Hr & H1 & H2 & H3) Hg. cbn in Hg. apply Forall_app in Hg. destruct Hg as (Gl & Hg).
    apply Forall_cons_iff in Hg. destruct Hg as (Go & Gr). cbn.
    destruct (proj1 kinded_edges l (proj1 respb_kinded l Hl)) as (_ & _ & C & _).
    destruct (proj1 kinded_edges r (proj1 respb_kinded r Hr)) as (A & B & _).
    destruct (proj1 edges_ops l) as (_ & _ & I3). destruct (proj1 edges_ops r) as (I1 & I2 & _).
    assert (Hk' : of_kind (fun k => is_pre k = false /\ k <> KPost) (o_id o)).
    { destruct Hk as [Hk|[Hk|Hk]]; (eapply kind_of_kind; [exact Hk|]); split; (reflexivity || discriminate). }
    assert (Hn : of_kind (fun k => is_pre k = false) (o_id o)) by (eapply of_kind_impl; [|exact Hk']; tauto).
    assert (Hn' : of_kind (fun k => k <> KPost) (o_id o)) by (eapply of_kind_impl; [|exact Hk']; tauto).
    split; [exact Hk|]. split; [auto|]. split; [auto|]. split; [|split].
    + eapply (Forall_and2 _ _ _ _ (right_edge l)); [|exact C|exact (Forall_incl _ _ _ I3 Gl)|exact H1]. intros q Kq Gq H.
      apply (back_left g); auto.
    + eapply (Forall_and2 _ _ _ _ (left_edge r)); [|exact A|exact (Forall_incl _ _ _ I1 Gr)|exact H2]. intros q Kq Gq H.
      apply (back_right g); auto.
    + eapply (Forall_and2 _ _ _ _ (left_prefix r)); [|exact B|exact (Forall_incl _ _ _ I2 Gr)|exact H3]. intros q Kq Gq H.
      destruct (back_prefix g q (o_id o) Gq Go Kq Hn' H) as [T|E]; [exact T|]. exfalso. rewrite E in Kq.
      destruct Kq as (d & Hd & Ed & K). destruct Hn as (d' & Hd' & Ed' & K'). rewrite (same d' d) in K' by congruence.
      rewrite K in K'. discriminate.
  - intros sp IH d (-> & Hex & Hsp) Hg. cbn. split; [reflexivity|]. split; [exact Hex|]. apply IH; [exact Hsp| |exact Hg].
    destruct Hex as (sp' & o & v & -> & Hk). exact Hk.
  - intros t IH H _. exact (IH H).
  - intros sp IHsp o t IHt (Hsp & Ht & Hx & H1 & H2 & H3) Hl Hg. cbn in Hl. cbn in Hg. apply Forall_app in Hg.
    destruct Hg as (Gs & Hg). apply Forall_cons_iff in Hg. destruct Hg as (Go & Gt).
    assert (Hl' : listy sp).
    { destruct Hx as (x & [->|(sp' & o' & -> & E)]); [exact I|]. cbn. rewrite E. exact Hl. }
    destruct (proj1 kinded_edges t (proj1 respb_kinded t Ht)) as (A & B & _).
    pose proof (last_operand_edge sp Hl' (proj2 respb_kinded sp Hsp)) as C.
    destruct (proj2 edges_ops sp) as (_ & _ & I3 & _). destruct (proj1 edges_ops t) as (I1 & I2 & _).
    assert (Hn : of_kind (fun k => is_pre k = false) (o_id o)) by (eapply kind_of_kind; [exact Hl|reflexivity]).
    assert (Hn' : of_kind (fun k => k <> KPost) (o_id o)) by (eapply kind_of_kind; [exact Hl|discriminate]).
    refine (conj (IHsp Hsp Hl' Gs) (conj (IHt Ht Gt) (conj Hx (conj _ _)))).
    + eapply (Forall_and2 _ _ _ _ (right_edge (last_operand sp))); [|exact C|exact (Forall_incl _ _ _ I3 Gs)|exact H1].
      intros q Kq Gq H. destruct (back_left g q (o_id o) Gq Go Kq Hn H) as [T|(E & T)]; [exact T|]. exfalso. rewrite E in T.
      destruct Hl as (d & Hd & Ed & K). rewrite (kind_unique d _ _ Hd Ed T) in K. discriminate.
    + apply Forall_app. split.
      * eapply (Forall_and2 _ _ _ _ (left_edge t)); [|exact A|exact (Forall_incl _ _ _ I1 Gt)|exact H2]. intros q Kq Gq H.
        destruct (back_right g q (o_id o) Gq Go Kq Hn' H) as [T|(E & T)]; [exact T|]. exfalso. rewrite E in T.
        destruct Hl as (d & Hd & Ed & K). rewrite (kind_unique d _ _ Hd Ed T) in K. discriminate.
      * eapply (Forall_and2 _ _ _ _ (left_prefix t)); [|exact B|exact (Forall_incl _ _ _ I2 Gt)|exact H3]. intros q Kq Gq H.
        destruct (back_prefix g q (o_id o) Gq Go Kq Hn' H) as [T|E]; [exact T|]. exfalso. rewrite E in Kq.
        destruct Kq as (d & Hd & Ed & K). destruct Hn as (d' & Hd' & Ed' & K'). rewrite (same d' d) in K' by congruence.
        rewrite K in K'. discriminate.
Qed.

(** ** Groups *)
Lemma unmixed_of_numbers l n : Forall (of_kind (fun _ => True)) l ->
  Forall (fun id => bg (bp tbl id) = 0 \/ bg (bp tbl id) = n) l -> exists g, Forall (in_g g) l.
Proof.
  intros Hd Hn. destruct (existsb (fun id => negb (bg (bp tbl id) =? 0)) l) eqn:E.
  - apply existsb_exists in E. destruct E as (id & Hin & Hne).
    rewrite Forall_forall in *. destruct (Hd id Hin) as (d & A & B & _). exists (d_group d).
    apply Forall_forall. intros q Hq. destruct (Hd q Hq) as (dq & Aq & Bq & _). exists dq. split; [exact Aq|]. split; [exact Bq|].
    destruct (Hn q Hq) as [H|H].
    + left. apply (bp_group0 tbl Hok dq Aq). now rewrite Bq.
    + right. apply (bp_group_eq tbl Hok dq d Aq A). rewrite Bq, B.
      destruct (Hn id Hin) as [H'|H']; [rewrite H' in Hne; discriminate|congruence].
  - exists []. rewrite Forall_forall in *. intros q Hq. destruct (Hd q Hq) as (dq & Aq & Bq & _). exists dq.
    split; [exact Aq|]. split; [exact Bq|]. left. apply (bp_group0 tbl Hok dq Aq). rewrite Bq.
    destruct (bg (bp tbl q) =? 0) eqn:E0; [now apply Nat.eqb_eq|]. exfalso.
    assert (T : existsb (fun id => negb (bg (bp tbl id) =? 0)) l = true).
    { apply existsb_exists. exists q. rewrite E0. auto. }
    congruence.
Qed.
Lemma numbers_of_unmixed g l : Forall (in_g g) l ->
  exists n, Forall (fun id => bg (bp tbl id) = 0 \/ bg (bp tbl id) = n) l.
Proof.
  intros Hg. destruct (existsb (fun id => negb (bg (bp tbl id) =? 0)) l) eqn:E.
  - apply existsb_exists in E. destruct E as (id & Hin & Hne). exists (bg (bp tbl id)).
    rewrite Forall_forall in *. destruct (Hg id Hin) as (d & A & B & C).
    assert (Cg : d_group d = g).
    { destruct C as [C|C]; [|exact C]. apply (bp_group0 tbl Hok d A) in C. rewrite B in C. rewrite C in Hne. discriminate. }
    intros q Hq. destruct (Hg q Hq) as (dq & Aq & Bq & [Cq|Cq]).
    + left. rewrite <- Bq. now apply (bp_group0 tbl Hok dq Aq).
    + right. rewrite <- Bq, <- B. apply (bp_group_eq tbl Hok dq d Aq A). congruence.
  - exists 0. rewrite Forall_forall in *. intros q Hq. left.
    destruct (bg (bp tbl q) =? 0) eqn:E0; [now apply Nat.eqb_eq|]. exfalso.
    assert (T : existsb (fun id => negb (bg (bp tbl id) =? 0)) l = true).
    { apply existsb_exists. exists q. rewrite E0. auto. }
    congruence.
Qed.

(** ** The root operation *)
Lemma root_min d : declared tbl d ->
  min_bp tbl tbl <= (if is_pre (d_kind d) then right_power d else left_power d).
Proof.
  intros Hd. destruct tbl as [|gs|id k lits operand] eqn:Et; cbn [min_bp]; try lia.
  assert (Er : declared tbl (Decl id k lits 1 [])) by (rewrite Et; left; reflexivity).
  rewrite <- Et in *. destruct (bp_sides tbl Hok _ Er) as (El & Eb). cbn [d_id d_kind d_level] in El, Eb.
  unfold bp_is_prefix. rewrite El, Eb.
  assert (Hl : d = Decl id k lits 1 [] \/ 2 <= d_level d).
  { unfold declared in Hd. rewrite Et in Hd. destruct Hd as [<-|Hd]; [auto|right]. apply decls_level in Hd. lia. }
  unfold left_power, right_power. destruct Hl as [->|Hl].
  - cbn [d_kind d_level]. destruct k; cbn; lia.
  - destruct k, (d_kind d); cbn; lia.
Qed.
End Bridge.
