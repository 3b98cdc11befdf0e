(** Lemmas on operation tables: binding powers against levels and groups, operator lists
    and operator matching. *)
From Verif Require Import Prelude ExprModel ExprSpec.
Open Scope nat_scope.

Section Ind.
Variable P : operation -> Prop.
Hypothesis Hatom : P OAtom.
Hypothesis Hgroups : forall gs, Forall P gs -> P (OGroups gs).
Hypothesis Hop : forall id k lits o, P o -> P (OOp id k lits o).
Fixpoint operation_ind' (o : operation) : P o :=
  match o with
  | OAtom => Hatom
  | OGroups gs => Hgroups gs ((fix go gs := match gs return Forall P gs with
                                | [] => Forall_nil P
                                | o :: r => Forall_cons o (operation_ind' o) (go r)
                                end) gs)
  | OOp id k lits o => Hop id k lits o (operation_ind' o)
  end.
End Ind.

(** [decls] of a list of alternatives, named. *)
Fixpoint alts (above : nat) (path : list nat) (i : nat) (gs : list operation) : list decl :=
  match gs with
  | [] => []
  | o :: gs' => decls o above (path ++ [i]) ++ alts above path (S i) gs'
  end.
Lemma decls_groups gs above path : decls (OGroups gs) above path = alts above path 0 gs.
Proof. cbn [decls]. generalize 0. induction gs as [|o gs IH]; intros i; cbn; [reflexivity|]. now rewrite IH. Qed.

(** Highest group number after a hierarchy. *)
Fixpoint hi (o : operation) (g : nat) : nat :=
  match o with
  | OAtom => g
  | OOp _ _ _ o => hi o g
  | OGroups gs => (fix go gs g := match gs with [] => g | o :: r => go r (hi o (S g)) end) gs g
  end.
Fixpoint hi_alts (gs : list operation) (g : nat) : nat :=
  match gs with [] => g | o :: r => hi_alts r (hi o (S g)) end.
Lemma hi_groups gs g : hi (OGroups gs) g = hi_alts gs g.
Proof. cbn [hi]. revert g. induction gs as [|o gs IH]; intros g; cbn; [reflexivity|]. apply IH. Qed.

(** The declarations with their group number. *)
Fixpoint zdecls (o : operation) (g above : nat) (path : list nat) : list (decl * nat) :=
  match o with
  | OAtom => []
  | OOp id k lits operand => (Decl id k lits (S above) path, g) :: zdecls operand g (S above) path
  | OGroups gs =>
    (fix go (i g : nat) (gs : list operation) : list (decl * nat) :=
       match gs with
       | [] => []
       | o :: gs' => zdecls o (S g) above (path ++ [i]) ++ go (S i) (hi o (S g)) gs'
       end) 0 g gs
  end.
Fixpoint zalts (above : nat) (path : list nat) (i g : nat) (gs : list operation) : list (decl * nat) :=
  match gs with
  | [] => []
  | o :: gs' => zdecls o (S g) above (path ++ [i]) ++ zalts above path (S i) (hi o (S g)) gs'
  end.
Lemma zdecls_groups gs g above path : zdecls (OGroups gs) g above path = zalts above path 0 g gs.
Proof.
  cbn [zdecls]. generalize 0. revert g.
  induction gs as [|o gs IH]; intros g i; cbn; [reflexivity|]. now rewrite IH.
Qed.

Lemma zdecls_fst : forall o g above path, map fst (zdecls o g above path) = decls o above path.
Proof.
  induction o as [|gs IH|id k lits o IH] using operation_ind'; intros g above path.
  - reflexivity.
  - rewrite zdecls_groups, decls_groups. generalize 0. revert g.
    induction IH as [|o gs Ho _ IHgs]; intros g i; cbn; [reflexivity|].
    rewrite map_app, Ho. f_equal. apply IHgs.
  - cbn. now rewrite IH.
Qed.

Lemma hi_ge : forall o g, g <= hi o g.
Proof.
  induction o as [|gs IH|id k lits o IH] using operation_ind'; intros g.
  - cbn. lia.
  - rewrite hi_groups. revert g. induction IH as [|o gs Ho _ IHgs]; intros g; cbn; [lia|].
    specialize (Ho (S g)). specialize (IHgs (hi o (S g))). lia.
  - cbn. apply IH.
Qed.
Lemma hi_alts_ge gs : forall g, g <= hi_alts gs g.
Proof. induction gs as [|o gs IH]; intros g; cbn; [lia|]. specialize (IH (hi o (S g))). pose proof (hi_ge o (S g)). lia. Qed.

(** Group numbers and group paths agree. *)
Definition zok (g h : nat) (path : list nat) (l : list (decl * nat)) : Prop :=
  (forall d n, In (d, n) l -> g <= n <= h /\ exists q, d_group d = path ++ q /\ (q = [] <-> n = g)) /\
  (forall d n d' n', In (d, n) l -> In (d', n') l -> (n = n' <-> d_group d = d_group d')).
Lemma zdecls_ok : forall o g above path, zok g (hi o g) path (zdecls o g above path).
Proof.
  induction o as [|gs IH|id k lits o IH] using operation_ind'; intros g above path.
  - split; cbn; intros; contradiction.
  - rewrite hi_groups, zdecls_groups.
    assert (H : forall i g',
      (forall d n, In (d, n) (zalts above path i g' gs) ->
         g' < n <= hi_alts gs g' /\ exists j q, i <= j /\ d_group d = path ++ j :: q) /\
      (forall d n d' n', In (d, n) (zalts above path i g' gs) -> In (d', n') (zalts above path i g' gs) ->
         (n = n' <-> d_group d = d_group d'))).
    { clear g. induction IH as [|o gs Ho _ IHgs]; intros i g.
      - cbn. split; intros; contradiction.
      - cbn [zalts hi_alts]. destruct (Ho (S g) above (path ++ [i])) as (A1 & A2).
        destruct (IHgs (S i) (hi o (S g))) as (B1 & B2). clear IHgs Ho.
        pose proof (hi_ge o (S g)) as Hg. pose proof (hi_alts_ge gs (hi o (S g))) as Hg2.
        split.
        + intros d n Hin. apply in_app_or in Hin. destruct Hin as [Hin|Hin].
          * destruct (A1 _ _ Hin) as (H1 & q & H2 & _). split; [lia|]. exists i, q. split; [lia|].
            rewrite H2, <- app_assoc. reflexivity.
          * destruct (B1 _ _ Hin) as (H1 & j & q & H2 & H3). split; [lia|]. exists j, q. split; [lia|exact H3].
        + assert (X : forall d n d' n', In (d, n) (zdecls o (S g) above (path ++ [i])) ->
                     In (d', n') (zalts above path (S i) (hi o (S g)) gs) -> n <> n' /\ d_group d <> d_group d').
          { intros d n d' n' H1 H2. destruct (A1 _ _ H1) as (R1 & q & Q1 & _).
            destruct (B1 _ _ H2) as (R2 & j & q' & Hj & Q2). split; [lia|].
            rewrite Q1, Q2, <- app_assoc. intros E. apply app_inv_head in E. injection E as E _. lia. }
          intros d n d' n' H1 H2. apply in_app_or in H1. apply in_app_or in H2.
          destruct H1 as [H1|H1], H2 as [H2|H2].
          * now apply A2.
          * destruct (X _ _ _ _ H1 H2). split; intros; contradiction.
          * destruct (X _ _ _ _ H2 H1) as (Y1 & Y2). split; intros E; symmetry in E; contradiction.
          * now apply B2. }
    destruct (H 0 g) as (H1 & H2). split; [|exact H2].
    intros d n Hin. destruct (H1 _ _ Hin) as (R & j & q & _ & E). split; [lia|].
    exists (j :: q). split; [exact E|]. split; [discriminate|lia].
  - cbn [hi zdecls]. destruct (IH g (S above) path) as (A1 & A2). pose proof (hi_ge o g) as Hg. split.
    + intros d n [[= <- <-]|Hin]; [|auto]. split; [lia|]. exists []. cbn. rewrite app_nil_r. split; [reflexivity|tauto].
    + assert (X : forall d n, In (d, n) (zdecls o g (S above) path) -> (g = n <-> path = d_group d)).
      { intros d n Hin. destruct (A1 _ _ Hin) as (R & q & Q1 & Q2). rewrite Q1. split.
        - intros <-. replace q with (@nil nat) by (symmetry; now apply Q2). now rewrite app_nil_r.
        - intros E. rewrite <- (app_nil_r path) in E at 1. apply app_inv_head in E. symmetry. now apply Q2. }
      intros d n d' n' [[= <- <-]|H1] [[= <- <-]|H2]; cbn [d_group].
      * tauto.
      * now apply X.
      * destruct (X _ _ H1) as (X1 & X2). split; intros E; symmetry; [apply X1|apply X2]; now symmetry.
      * now apply A2.
Qed.

(** ** Binding powers of declared operations *)
Definition zfind (dest : nat) (l : list (decl * nat)) : option (decl * nat) :=
  find (fun p => d_id (fst p) =? dest) l.
Lemma zfind_app dest l1 l2 : zfind dest (l1 ++ l2) =
  match zfind dest l1 with Some p => Some p | None => zfind dest l2 end.
Proof. unfold zfind. induction l1 as [|p l1 IH]; cbn; [reflexivity|]. destruct (d_id (fst p) =? dest); auto. Qed.

Lemma get_bp_valid k g l : 1 <= l -> bp_valid (get_bp k g l) = true.
Proof. intros H. destruct k; unfold bp_valid; cbn [get_bp bl br]; apply orb_true_iff; lia. Qed.

Lemma bp_of_find dest : forall o g above path,
  bp_of dest o g above =
    match zfind dest (zdecls o g above path) with
    | Some (d, n) => get_bp (d_kind d) n (d_level d)
    | None => BP (hi o g) 0 0
    end /\
  (forall d n, zfind dest (zdecls o g above path) = Some (d, n) -> 1 <= d_level d).
Proof.
  induction o as [|gs IH|id k lits o IH] using operation_ind'; intros g above path.
  - cbn. split; [reflexivity|discriminate].
  - rewrite hi_groups, zdecls_groups. cbn [bp_of].
    enough (H : forall i g r, r = BP g 0 0 ->
      (fix go (gs : list operation) (g : nat) (result : bpow) {struct gs} : bpow :=
         match gs with
         | [] => result
         | o :: gs' =>
           let result := bp_of dest o (S g) above in
           if bp_valid result then result else go gs' (bg result) result
         end) gs g r =
      match zfind dest (zalts above path i g gs) with
      | Some (d, n) => get_bp (d_kind d) n (d_level d)
      | None => BP (hi_alts gs g) 0 0
      end /\
      (forall d n, zfind dest (zalts above path i g gs) = Some (d, n) -> 1 <= d_level d))
      by (apply H; reflexivity).
    clear g. induction IH as [|o gs Ho _ IHgs]; intros i g r ->.
    + cbn. split; [reflexivity|discriminate].
    + cbn [zalts hi_alts]. rewrite zfind_app.
      destruct (Ho (S g) above (path ++ [i])) as (E & L). cbn zeta. rewrite E.
      destruct (zfind dest (zdecls o (S g) above (path ++ [i]))) as [[d n]|].
      * specialize (L _ _ eq_refl). rewrite get_bp_valid by exact L. split; [reflexivity|].
        intros d' n' [= <- <-]. exact L.
      * change (bp_valid (BP (hi o (S g)) 0 0)) with false. cbn iota. cbn [bg].
        apply IHgs. reflexivity.
  - cbn [bp_of zdecls hi zfind find fst d_id].
    destruct (id =? dest) eqn:E.
    + split; [reflexivity|]. intros d n [= <- <-]. cbn. lia.
    + apply IH.
Qed.

Section Table.
Variable tbl : operation.
Hypothesis Hok : table_ok tbl.

Lemma zfind_in d n l : NoDup (map d_id (map fst l)) -> In (d, n) l -> zfind (d_id d) l = Some (d, n).
Proof.
  induction l as [|[d' n'] l IH]; intros Hnd Hin; [contradiction|].
  cbn in Hnd. inversion Hnd as [|? ? Hni Hnd']; subst. cbn [zfind find fst].
  destruct Hin as [[= -> ->]|Hin]; [now rewrite Nat.eqb_refl|].
  replace (d_id d' =? d_id d) with false; [now apply IH|].
  symmetry. apply Nat.eqb_neq. intros E. apply Hni. rewrite E.
  apply in_map. apply (in_map fst _ _ Hin).
Qed.

Lemma declared_z d : declared tbl d -> exists n, In (d, n) (zdecls tbl 0 0 []).
Proof.
  unfold declared. rewrite <- (zdecls_fst tbl 0 0 []). intros H. apply in_map_iff in H.
  destruct H as ([d' n] & E & H). cbn in E. subst. eauto.
Qed.
Lemma bp_declared_z d n : In (d, n) (zdecls tbl 0 0 []) -> bp tbl (d_id d) = get_bp (d_kind d) n (d_level d).
Proof.
  intros H. unfold bp. rewrite (proj1 (bp_of_find (d_id d) tbl 0 0 [])).
  rewrite (zfind_in d n); [reflexivity| |exact H]. rewrite zdecls_fst. apply Hok.
Qed.

Lemma get_bp_group k g g' l : bl (get_bp k g l) = bl (get_bp k g' l) /\ br (get_bp k g l) = br (get_bp k g' l) /\
  bg (get_bp k g l) = g.
Proof. destruct k; cbn; auto. Qed.

Lemma bp_sides d : declared tbl d ->
  bl (bp tbl (d_id d)) = bl (get_bp (d_kind d) 0 (d_level d)) /\
  br (bp tbl (d_id d)) = br (get_bp (d_kind d) 0 (d_level d)).
Proof.
  intros H. destruct (declared_z d H) as (n & Hz). rewrite (bp_declared_z d n Hz).
  destruct (get_bp_group (d_kind d) n 0 (d_level d)) as (A & B & _). auto.
Qed.
Lemma bp_group0 d : declared tbl d -> (bg (bp tbl (d_id d)) = 0 <-> d_group d = []).
Proof.
  intros H. destruct (declared_z d H) as (n & Hz). rewrite (bp_declared_z d n Hz).
  destruct (get_bp_group (d_kind d) n 0 (d_level d)) as (_ & _ & ->).
  destruct (zdecls_ok tbl 0 0 []) as (A & _). destruct (A _ _ Hz) as (_ & q & -> & E). cbn. now rewrite E.
Qed.
Lemma bp_group_eq d d' : declared tbl d -> declared tbl d' ->
  (bg (bp tbl (d_id d)) = bg (bp tbl (d_id d')) <-> d_group d = d_group d').
Proof.
  intros H H'. destruct (declared_z d H) as (n & Hz). destruct (declared_z d' H') as (n' & Hz').
  rewrite (bp_declared_z d n Hz), (bp_declared_z d' n' Hz').
  destruct (get_bp_group (d_kind d) n 0 (d_level d)) as (_ & _ & ->).
  destruct (get_bp_group (d_kind d') n' 0 (d_level d')) as (_ & _ & ->).
  destruct (zdecls_ok tbl 0 0 []) as (_ & A). exact (A _ _ _ _ Hz Hz').
Qed.

(** Declarations are determined by their id. *)
Lemma declared_id d d' : declared tbl d -> declared tbl d' -> d_id d = d_id d' -> d = d'.
Proof.
  destruct Hok as (Hnd & _). unfold declared. revert Hnd. generalize (decls tbl 0 []). intros l.
  induction l as [|x l IH]; cbn; intros Hnd H H' E; [contradiction|].
  inversion Hnd as [|? ? Hni Hnd']; subst.
  destruct H as [->|H], H' as [->|H']; auto.
  - exfalso. apply Hni. rewrite E. now apply in_map.
  - exfalso. apply Hni. rewrite <- E. now apply in_map.
Qed.
End Table.

(** Levels are above the starting level. *)
Lemma decls_level : forall o above path d, In d (decls o above path) -> above < d_level d.
Proof.
  induction o as [|gs IH|id k lits o IH] using operation_ind'; intros above path d.
  - contradiction.
  - rewrite decls_groups. generalize 0. induction IH as [|o gs Ho _ IHgs]; intros i; cbn; [contradiction|].
    intros H. apply in_app_or in H. destruct H as [H|H]; [exact (Ho _ _ _ H)|exact (IHgs _ H)].
  - cbn. intros [<-|H]; [cbn; lia|]. specialize (IH _ _ _ H). lia.
Qed.
Lemma decls_path : forall o above path d, In d (decls o above path) -> exists q, d_group d = path ++ q.
Proof.
  intros o above path d H. rewrite <- (zdecls_fst o 0 above path) in H. apply in_map_iff in H.
  destruct H as ([d' n] & E & H). cbn in E. subst d'.
  destruct (zdecls_ok o 0 above path) as (A & _). destruct (A _ _ H) as (_ & q & E & _). eauto.
Qed.
Lemma alts_path above path gs : forall i d, In d (alts above path i gs) ->
  exists j q, i <= j /\ d_group d = path ++ j :: q.
Proof.
  induction gs as [|o gs IH]; cbn; intros i d H; [contradiction|].
  apply in_app_or in H. destruct H as [H|H].
  - apply decls_path in H. destruct H as (q & E). exists i, q. split; [lia|]. now rewrite E, <- app_assoc.
  - destruct (IH _ _ H) as (j & q & Hj & E). exists j, q. split; [lia|exact E].
Qed.

(** Within one group (and outside of groups) levels determine the operation. *)
Lemma decls_linear : forall o above path d d',
  In d (decls o above path) -> In d' (decls o above path) -> d_level d = d_level d' ->
  d_group d = d_group d' \/ d_group d = path \/ d_group d' = path -> d = d'.
Proof.
  induction o as [|gs IH|id k lits o IH] using operation_ind'; intros above path d d' H H' El Eg.
  - contradiction.
  - rewrite decls_groups in H, H'.
    assert (Eg' : d_group d = d_group d').
    { destruct Eg as [Eg|[Eg|Eg]]; [exact Eg| |].
      - destruct (alts_path _ _ _ _ _ H) as (j & q & _ & E). rewrite E in Eg.
        rewrite <- (app_nil_r path) in Eg at 2. apply app_inv_head in Eg. discriminate.
      - destruct (alts_path _ _ _ _ _ H') as (j & q & _ & E). rewrite E in Eg.
        rewrite <- (app_nil_r path) in Eg at 2. apply app_inv_head in Eg. discriminate. }
    clear Eg. revert H H'. generalize 0.
    induction IH as [|o gs Ho _ IHgs]; intros i H H'; cbn in H, H'; [contradiction|].
    apply in_app_or in H. apply in_app_or in H'. destruct H as [H|H], H' as [H'|H'].
    + apply (Ho _ _ _ _ H H' El). auto.
    + exfalso. apply decls_path in H. destruct H as (q & E). apply alts_path in H'.
      destruct H' as (j & q' & Hj & E'). rewrite E, E', <- app_assoc in Eg'. apply app_inv_head in Eg'.
      injection Eg' as Eg' _. lia.
    + exfalso. apply decls_path in H'. destruct H' as (q & E). apply alts_path in H.
      destruct H as (j & q' & Hj & E'). rewrite E, E', <- app_assoc in Eg'. apply app_inv_head in Eg'.
      injection Eg' as Eg' _. lia.
    + exact (IHgs _ H H').
  - cbn in H, H'. destruct H as [<-|H], H' as [<-|H'].
    + reflexivity.
    + apply decls_level in H'. cbn in El. lia.
    + apply decls_level in H. cbn in El. lia.
    + exact (IH _ _ _ _ H H' El Eg).
Qed.

(** ** Operator lists *)
Definition entry_of (d : decl) : entry := Entry (d_id d) (d_kind d) (d_lits d).
Definition left_power (d : decl) : nat := bl (get_bp (d_kind d) 0 (d_level d)).
Definition right_power (d : decl) : nat := br (get_bp (d_kind d) 0 (d_level d)).

Lemma in_op_list pre min e : forall o above path,
  In e (op_list pre min o (S above)) <->
  exists d, In d (decls o above path) /\ e = entry_of d /\ is_pre (d_kind d) = pre /\
    min <= (if pre then right_power d else left_power d).
Proof.
  induction o as [|gs IH|id k lits o IH] using operation_ind'; intros above path.
  - cbn. split; [contradiction|]. intros (d & H & _). contradiction.
  - rewrite decls_groups. cbn [op_list]. generalize 0.
    induction IH as [|o gs Ho _ IHgs]; intros i; cbn [flat_map alts].
    + split; [contradiction|]. intros (d & H & _). contradiction.
    + rewrite in_app_iff, (Ho above (path ++ [i])), (IHgs (S i)). split.
      * intros [(d & H & R)|(d & H & R)]; exists d; (split; [apply in_or_app; auto|exact R]).
      * intros (d & H & R). apply in_app_or in H. destruct H as [H|H]; [left|right]; exists d; auto.
  - cbn [op_list decls].
    assert (Hc : Bool.eqb (is_pre k) pre &&
       (is_pre k && (min <=? br (get_bp k 0 (S above))) || negb (is_pre k) && (min <=? bl (get_bp k 0 (S above)))) = true <->
       is_pre k = pre /\ min <= (if pre then right_power (Decl id k lits (S above) path) else left_power (Decl id k lits (S above) path))).
    { unfold left_power, right_power. cbn [d_kind d_level].
      destruct (is_pre k), pre; cbn [Bool.eqb andb negb orb]; rewrite ?orb_false_r, ?Nat.leb_le;
        intuition (try discriminate; try lia). }
    destruct (Bool.eqb (is_pre k) pre && _) eqn:Ec.
    + rewrite in_app_iff, (IH (S above) path). destruct Hc as (Hc & _). specialize (Hc eq_refl). split.
      * intros [(d & H & R)|[<-|[]]]; [exists d; cbn; auto|].
        exists (Decl id k lits (S above) path). split; [left; reflexivity|]. split; [reflexivity|]. exact Hc.
      * intros (d & [<-|H] & R); [right; left; symmetry; apply R|]. left. exists d. auto.
    + rewrite (IH (S above) path). split.
      * intros (d & H & R). exists d. cbn. auto.
      * intros (d & [<-|H] & E & R); [|exists d; auto].
        exfalso. cbn [d_kind] in R. destruct Hc as (_ & Hc). specialize (Hc R). congruence.
Qed.

(** ** Matching operators *)
Lemma best_spec : forall lits i inp cur,
  match best lits i inp cur with
  | None => cur = None /\ forall x, In x lits -> matches x inp = false
  | Some (j, n) =>
    cur = Some (j, n) \/
    exists x, i <= j /\ nth_error lits (j - i) = Some x /\ matches x inp = true /\ n = length (l_text x)
  end.
Proof.
  induction lits as [|x lits IH]; intros i inp cur; cbn [best].
  - destruct cur as [[j n]|]; [left; reflexivity|]. split; [reflexivity|]. intros x [].
  - specialize (IH (S i) inp (if matches x inp && match cur with None => true | Some (_, n) => n <=? length (l_text x) end
                              then Some (i, length (l_text x)) else cur)).
    destruct (best lits (S i) inp _) as [[j n]|].
    + destruct IH as [E|(y & Hj & Hn & Hm & El)].
      * destruct (matches x inp && _) eqn:Em; [|left; exact E].
        injection E as <- <-. right. exists x. split; [lia|]. rewrite Nat.sub_diag. split; [reflexivity|].
        apply andb_prop in Em. destruct Em. auto.
      * right. exists y. split; [lia|]. replace (j - i) with (S (j - S i)) by lia. auto.
    + destruct IH as (E & Hx). destruct (matches x inp) eqn:Em.
      * destruct cur as [[j n]|]; cbn [andb] in E; [|discriminate].
        destruct (n <=? length (l_text x)); discriminate.
      * cbn [andb] in E. split; [exact E|]. intros y [<-|Hy]; auto.
Qed.

Lemma select_spec : forall l i x, nth_error (flat_map e_lits l) i = Some x ->
  exists e j, select l i = Some (e, j) /\ In e l /\ nth_error (e_lits e) j = Some x.
Proof.
  induction l as [|e l IH]; intros i x H; cbn in H; [destruct i; discriminate|]. cbn [select].
  destruct (i <? length (e_lits e)) eqn:E.
  - rewrite nth_error_app1 in H by lia. exists e, i. cbn; auto.
  - rewrite nth_error_app2 in H by lia. destruct (IH _ _ H) as (e' & j & H1 & H2 & H3).
    exists e', j. cbn; auto.
Qed.

Lemma parse_operator_some l inp e j n : parse_operator l inp = Some (e, j, n) ->
  In e l /\ exists x, nth_error (e_lits e) j = Some x /\ matches x inp = true /\ n = length (l_text x).
Proof.
  unfold parse_operator. pose proof (best_spec (flat_map e_lits l) 0 inp None) as H.
  destruct (best _ 0 inp None) as [[i m]|]; [|discriminate].
  destruct H as [H|(x & _ & Hn & Hm & El)]; [discriminate|]. rewrite Nat.sub_0_r in Hn.
  destruct (select_spec _ _ _ Hn) as (e' & j' & E & Hin & Hx). rewrite E.
  intros [= -> -> ->]. split; [exact Hin|]. exists x. auto.
Qed.
Lemma parse_operator_none l inp : parse_operator l inp = None <->
  forall e x, In e l -> In x (e_lits e) -> matches x inp = false.
Proof.
  unfold parse_operator. pose proof (best_spec (flat_map e_lits l) 0 inp None) as H.
  destruct (best _ 0 inp None) as [[i m]|] eqn:Eb.
  - destruct H as [H|(x & _ & Hn & Hm & El)]; [discriminate|]. rewrite Nat.sub_0_r in Hn.
    destruct (select_spec _ _ _ Hn) as (e' & j' & E & Hin & Hx). rewrite E. split; [discriminate|].
    intros Hall. rewrite (Hall e' x Hin (nth_error_In _ _ Hx)) in Hm. discriminate.
  - split; [|reflexivity]. intros _ e x He Hx. destruct H as (_ & H). apply H. apply in_flat_map. eauto.
Qed.

(** The longest match is chosen. *)
Lemma best_longest : forall lits i inp cur j n, best lits i inp cur = Some (j, n) ->
  (forall x, In x lits -> matches x inp = true -> length (l_text x) <= n) /\
  match cur with None => True | Some (_, m) => m <= n end.
Proof.
  induction lits as [|x lits IH]; intros i inp cur j n H; cbn [best] in H.
  - subst cur. split; [intros x []|lia].
  - apply IH in H. destruct H as (H1 & H2).
    assert (H3 : match cur with None => True | Some (_, m) => m <= n end /\
                 (matches x inp = true -> length (l_text x) <= n)).
    { destruct (matches x inp); cbn [andb] in H2.
      - destruct cur as [[k m]|]; [|split; auto]. destruct (m <=? length (l_text x)) eqn:E; split; try lia; intros _; lia.
      - split; [exact H2|discriminate]. }
    split; [|apply H3]. intros y [<-|Hy]; [apply H3|auto].
Qed.
Lemma parse_operator_longest l inp e j n : parse_operator l inp = Some (e, j, n) ->
  forall e' x, In e' l -> In x (e_lits e') -> matches x inp = true -> length (l_text x) <= n.
Proof.
  unfold parse_operator. destruct (best _ 0 inp None) as [[i m]|] eqn:Eb; [|discriminate].
  destruct (select l i) as [[e0 j0]|]; [|discriminate]. intros [= -> -> ->] e' x He Hx.
  apply best_longest in Eb. apply Eb. apply in_flat_map. eauto.
Qed.
